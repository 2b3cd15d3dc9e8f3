(** Generated by tools/gen_tableaux.py from the text of /repo/extensisq/*.py.
    Decimal literals are taken exactly; array arithmetic such as [E[:-1] -= B] is
    carried out exactly (the code does it in binary64). Do not edit. *)
From Coq Require Import QArith List.
Import ListNotations.
Open Scope Q_scope.

(** ** BS5, bogacki.py *)
Definition BS5_order : nat := 5. (* bogacki.py:103 *)
Definition BS5_order_secondary : nat := 4. (* bogacki.py:104 *)
Definition BS5_n_stages : nat := 7. (* bogacki.py:105 *)
Definition BS5_n_extra_stages : nat := 3. (* bogacki.py:106 *)
(* bogacki.py:107-107 *)
Definition BS5_tanang : Q :=
  26#5.
(* bogacki.py:108-108 *)
Definition BS5_stbrad : Q :=
  39#10.
(* bogacki.py:112-112 *)
Definition BS5_C : list Q :=
  [0#1; 1#6; 2#9; 3#7; 2#3; 3#4; 1#1].
(* bogacki.py:115-124 *)
Definition BS5_A : list (list Q) :=
  [[0#1; 0#1; 0#1; 0#1; 0#1; 0#1; 0#1];
   [1#6; 0#1; 0#1; 0#1; 0#1; 0#1; 0#1];
   [2#27; 4#27; 0#1; 0#1; 0#1; 0#1; 0#1];
   [183#1372; -162#343; 1053#1372; 0#1; 0#1; 0#1; 0#1];
   [68#297; -4#11; 42#143; 1960#3861; 0#1; 0#1; 0#1];
   [597#22528; 81#352; 63099#585728; 58653#366080; 4617#20480; 0#1; 0#1];
   [174197#959244; -30942#79937; 8152137#19744439; 666106#1039181; -29421#29068; 482048#414219; 0#1]].
(* bogacki.py:127-128 *)
Definition BS5_B : list Q :=
  [587#8064; 0#1; 4440339#15491840; 24353#124800; 387#44800; 2152#5985; 7267#94080].
(* bogacki.py:132-132 *)
Definition BS5_E_pre : list Q :=
  [-3#1280; 0#1; 6561#632320; -343#20800; 243#12800; -1#95].
(* bogacki.py:133-133 *)
Definition BS5_B_scale_pre : list Q :=
  [19#48; 0#1; -189#416; 343#780; 99#160; 0#1].
(* bogacki.py:138-140 *)
Definition BS5_E : list Q :=
  [-3817#1959552; 0#1; 140181#15491840; -4224731#272937600; 8557#403200; -57928#4363065; -23930231#4366535040; 3293#556956].
(* bogacki.py:143-143 *)
Definition BS5_C_extra : list Q :=
  [1#2; 5#6; 1#9].
(* bogacki.py:146-158 *)
Definition BS5_A_extra : list (list Q) :=
  [[455#6144; 0#1; 10256301#35409920; 2307361#17971200; -387#102400; 73#5130; -7267#215040; 1#32; 0#1; 0#1];
   [-837888343715#13176988637184; 30409415#52955362; -48321525963#759168069632; 8530738453321#197654829557760; 1361640523001#1626788720640; -13143060689#38604458898; 18700221969#379584034816; -5831595#847285792; -5183640#26477681; 0#1];
   [98719073263#1551965184000; 1307#123552; 4632066559387#70181753241600; 7828594302389#382182512025600; 40763687#11070259200; 34872732407#224610586200; -2561897#30105600; 1#10; -1#10; -1403317093#11371610250]].
(* bogacki.py:162-183 *)
Definition BS5_Pbest : list (list Q) :=
  [[0#1; -11513270273#3502699200; -87098480009#5254048800; -2048058893#59875200; -1620741229#50038560; -12134338393#1050809760];
   [0#1; 0#1; 0#1; 0#1; 0#1; 0#1];
   [0#1; -29327744613#2436866432; -69509738227#1218433216; -39991188681#374902528; -539868024987#6092166080; -33197340367#1218433216];
   [0#1; -2382590741699#331755652800; -16209923456237#497633479200; -333945812879#5671036800; -7896875450471#165877826400; -284800997201#19905339168];
   [0#1; -36591193#86486400; -32406787#18532800; -633779#211200; -103626067#43243200; -540919#741312];
   [0#1; -611586736#89131185; -3357024032#1871754885; 183022264#5332635; 30405842464#623918295; 7157998304#374350977];
   [0#1; -65403#15680; -385151#15680; -1620541#31360; -719433#15680; -138073#9408];
   [1#1; 149#16; 2501#64; 4715#64; 3991#64; 1245#64];
   [0#1; 16#1; 199#3; 103#1; 71#1; 55#3];
   [0#1; -423642896#126351225; -11411880511#379053675; -26477681#359975; -1774004627#25270245; -1774004627#75810735];
   [0#1; 12#1; 59#1; 117#1; 105#1; 35#1]].
(* bogacki.py:187-196 *)
Definition BS5_Plow : list (list Q) :=
  [[1#1; -155#36; 16441#2016; -56689#8064; 757#336];
   [0#1; 0#1; 0#1; 0#1; 0#1];
   [0#1; 6561#988; -14727987#774592; 60538347#3098368; -13321017#1936480];
   [0#1; 2401#702; -603337#56160; 2740913#224640; -24353#5200];
   [0#1; 0#1; -387#2240; 3483#8960; -1161#5600];
   [0#1; 1408#513; -45536#3591; 67960#3591; -17216#1995];
   [0#1; 0#1; -7267#4704; 21801#6272; -7267#3920];
   [0#1; -1#2; 4#1; -15#2; 4#1];
   [0#1; -8#1; 32#1; -40#1; 16#1]].
(* bogacki.py:200-215 *)
Definition BS5_P : list (list Q) :=
  [[1#1; -2773674729811#735370896960; 316222661411#52526492640; -1282818361681#294148358784; 6918746667#5836276960];
   [0#1; 0#1; 0#1; 0#1; 0#1];
   [0#1; 1594012432639617#282545840187520; -303081611134977#20181845727680; 1643668176796011#113018336075008; -14071997888919#2883120818240];
   [0#1; -47637453654133#20485332129600; 125365109861131#10242666064800; -135424370922463#8194132851840; 2582696138393#379358002400];
   [0#1; 1915795112337#817078774400; -557453242737#58362769600; 3958638678747#326831509760; -285784868817#58362769600];
   [0#1; -1490252641456#654939705105; 692325952352#93562815015; -808867306376#130987941021; 4887837472#3465289445];
   [0#1; 824349534931#571955142080; -895925604353#122561816160; 2443928282393#228782056832; -5528580993#1167255392];
   [0#1; -38480331#36476731; 226874786#36476731; -374785310#36476731; 186390855#36476731]].

(** ** CFMR7osc, calvo.py *)
Definition CFMR7osc_order : nat := 7. (* calvo.py:89 *)
Definition CFMR7osc_order_secondary : nat := 5. (* calvo.py:90 *)
Definition CFMR7osc_n_stages : nat := 9. (* calvo.py:91 *)
(* calvo.py:92-92 *)
Definition CFMR7osc_tanang : Q :=
  40#1.
(* calvo.py:93-93 *)
Definition CFMR7osc_stbrad : Q :=
  47#10.
(* calvo.py:97-97 *)
Definition CFMR7osc_C : list Q :=
  [0#1; 4#63; 2#21; 1#7; 7#17; 13#24; 7#9; 91#100; 1#1].
(* calvo.py:100-115 *)
Definition CFMR7osc_A : list (list Q) :=
  [[0#1; 0#1; 0#1; 0#1; 0#1; 0#1; 0#1; 0#1; 0#1];
   [4#63; 0#1; 0#1; 0#1; 0#1; 0#1; 0#1; 0#1; 0#1];
   [1#42; 1#14; 0#1; 0#1; 0#1; 0#1; 0#1; 0#1; 0#1];
   [1#28; 0#1; 3#28; 0#1; 0#1; 0#1; 0#1; 0#1; 0#1];
   [12551#19652; 0#1; -48363#19652; 10976#4913; 0#1; 0#1; 0#1; 0#1; 0#1];
   [-36616931#27869184; 0#1; 2370277#442368; -255519173#63700992; 226798819#445906944; 0#1; 0#1; 0#1; 0#1];
   [-10401401#7164612; 0#1; 47383#8748; -4914455#1318761; -1498465#7302393; 2785280#3739203; 0#1; 0#1; 0#1];
   [181002080831#17500000000; 0#1; -14827049601#400000000; 23296401527134463#857600000000000; 2937811552328081#949760000000000; -243874470411#69355468750; 2857867601589#3200000000000; 0#1; 0#1];
   [-228380759#19257212; 0#1; 4828803#113948; -331062132205#10932626912; -12727101935#3720174304; 22627205314560#4940625496417; -268403949#461033608; 3600000000000#19176750553961; 0#1]].
(* calvo.py:118-121 *)
Definition CFMR7osc_B : list Q :=
  [95#2366; 0#1; 0#1; 3822231133#16579123200; 555164087#2298419200; 1279328256#9538891505; 5963949#25894400; 50000000000#599799373173; 28487#712800].
(* calvo.py:124-128 *)
Definition CFMR7osc_E : list Q :=
  [-322549667#50104356120; 0#1; 0#1; 322549667#16579123200; -2449060976137#44248372439040; 123859072128#2082079863955; -78379569081#3046450265600; 18326685625000#2138357468316069; 0#1; 0#1].
(* calvo.py:132-149 *)
Definition CFMR7osc_P : list (list Q) :=
  [[1#1; -6248#1183; 12056#1183; -1345#182; 97#169; 160#169];
   [0#1; 0#1; 0#1; 0#1; 0#1; 0#1];
   [0#1; 0#1; 0#1; 0#1; 0#1; 0#1];
   [0#1; 661103345#110527488; -12471420661#828956160; 11535693337#1105274880; 2373818279#1381593600; -823543#287832];
   [0#1; 39338391#20894720; -975441759#114920960; 9504105153#459683840; -1803301911#82086400; 417605#51304];
   [0#1; -7599771648#1907778301; 41855533056#1907778301; -5870997504#146752177; 295068082176#9538891505; -1517322240#173434391];
   [0#1; 684531#517888; -11632653#1294720; 14012109#739840; -13714677#924800; 2187#578];
   [0#1; 16000000000#18175738581; -2410000000000#599799373173; 10000000000#2197067301; -2000000000#28561874913; -4000000000#3173541657];
   [0#1; 28487#23760; -199409#35640; 370331#47520; -199409#59400; 0#1];
   [0#1; -2#1; 10#1; -15#1; 7#1; 0#1]].

(** ** CK5, cash.py *)
Definition CK5_n_stages : nat := 6. (* cash.py:82 *)
Definition CK5_order : nat := 5. (* cash.py:83 *)
Definition CK5_order_secondary : nat := 4. (* cash.py:84 *)
(* cash.py:85-85 *)
Definition CK5_tanang : Q :=
  12#5.
(* cash.py:86-86 *)
Definition CK5_stbrad : Q :=
  37#10.
(* cash.py:89-95 *)
Definition CK5_A : list (list Q) :=
  [[0#1; 0#1; 0#1; 0#1; 0#1; 0#1];
   [1#5; 0#1; 0#1; 0#1; 0#1; 0#1];
   [3#40; 9#40; 0#1; 0#1; 0#1; 0#1];
   [3#10; -9#10; 6#5; 0#1; 0#1; 0#1];
   [-11#54; 5#2; -70#27; 35#27; 0#1; 0#1];
   [1631#55296; 175#512; 575#13824; 44275#110592; 253#4096; 0#1]].
(* cash.py:97-97 *)
Definition CK5_B : list Q :=
  [37#378; 0#1; 250#621; 125#594; 0#1; 512#1771].
(* cash.py:99-99 *)
Definition CK5_C : list Q :=
  [0#1; 1#5; 3#10; 3#5; 1#1; 7#8].
(* cash.py:101-102 *)
Definition CK5_E : list Q :=
  [277#64512; 0#1; -6925#370944; 6925#202752; 277#14336; -277#7084; 0#1].
(* cash.py:105-112 *)
Definition CK5_P : list (list Q) :=
  [[1#1; -10405#3843; 32357#11529; -855#854];
   [0#1; 0#1; 0#1; 0#1];
   [0#1; 308500#88389; -1424000#265167; 67250#29463];
   [0#1; 5875#24156; 12875#36234; -3125#8052];
   [0#1; 235#1708; -235#854; 235#1708];
   [0#1; -287744#108031; 700416#108031; -381440#108031];
   [0#1; 3#2; -4#1; 5#2]].

(** ** CKdisc, cash.py *)
Definition CKdisc_n_stages : nat := 6. (* cash.py:187 *)
Definition CKdisc_order : nat := 5. (* cash.py:188 *)
Definition CKdisc_order_secondary : nat := 4. (* cash.py:189 *)
(* cash.py:190-190 *)
Definition CKdisc_max_factor : Q :=
  5#1.
(* cash.py:191-191 *)
Definition CKdisc_min_factor : Q :=
  1#5.
(* cash.py:194-194 *)
Definition CKdisc_C : list Q :=
  [0#1; 1#5; 3#10; 3#5; 1#1; 7#8].
(* cash.py:197-203 *)
Definition CKdisc_A : list (list Q) :=
  [[0#1; 0#1; 0#1; 0#1; 0#1; 0#1];
   [1#5; 0#1; 0#1; 0#1; 0#1; 0#1];
   [3#40; 9#40; 0#1; 0#1; 0#1; 0#1];
   [3#10; -9#10; 6#5; 0#1; 0#1; 0#1];
   [-11#54; 5#2; -70#27; 35#27; 0#1; 0#1];
   [1631#55296; 175#512; 575#13824; 44275#110592; 253#4096; 0#1]].
(* cash.py:206-213 *)
Definition CKdisc_B_all : list (list Q) :=
  [[0#1; 0#1; 0#1; 0#1; 0#1; 0#1];
   [1#1; 0#1; 0#1; 0#1; 0#1; 0#1];
   [-3#2; 5#2; 0#1; 0#1; 0#1; 0#1];
   [19#54; 0#1; -10#27; 55#54; 0#1; 0#1];
   [2825#27648; 0#1; 18575#48384; 13525#55296; 277#14336; 1#4];
   [37#378; 0#1; 250#621; 125#594; 0#1; 512#1771]].
(* cash.py:216-216 *)
Definition CKdisc_B : list Q :=
  [37#378; 0#1; 250#621; 125#594; 0#1; 512#1771].
(* cash.py:217-218 *)
Definition CKdisc_E : list Q :=
  [-277#64512; 0#1; 6925#370944; -6925#202752; -277#14336; 277#7084; 0#1].
(* cash.py:221-221 *)
Definition CKdisc_B_assess : list (list Q) :=
  [[-3#2; 5#2; 0#1; 0#1; 0#1; 0#1];
   [19#54; 0#1; -10#27; 55#54; 0#1; 0#1]].
(* cash.py:222-224 *)
Definition CKdisc_E_assess : list (list Q) :=
  [[-5#2; 5#2; 0#1; 0#1; 0#1; 0#1];
   [50#27; -5#2; -10#27; 55#54; 0#1; 0#1]].
(* cash.py:227-227 *)
Definition CKdisc_C_fallback : list Q :=
  [1#5; 3#5].
(* cash.py:228-230 *)
Definition CKdisc_B_fallback : list (list Q) :=
  [[1#10; 1#10; 0#1; 0#1; 0#1; 0#1];
   [1#10; 0#1; 2#5; 1#10; 0#1; 0#1]].
(* cash.py:231-233 *)
Definition CKdisc_E_fallback : list (list Q) :=
  [[-1#10; 1#10; 0#1; 0#1; 0#1; 0#1];
   [1#10; 0#1; -1#5; 1#10; 0#1; 0#1]].
(* cash.py:237-244 *)
Definition CKdisc_P : list (list Q) :=
  [[1#1; -10405#3843; 32357#11529; -855#854];
   [0#1; 0#1; 0#1; 0#1];
   [0#1; 308500#88389; -1424000#265167; 67250#29463];
   [0#1; 5875#24156; 12875#36234; -3125#8052];
   [0#1; 235#1708; -235#854; 235#1708];
   [0#1; -287744#108031; 700416#108031; -381440#108031];
   [0#1; 3#2; -4#1; 5#2]].

(** ** QuinticHermiteDenseOutput, common.py *)
(* common.py:1532-1537 *)
Definition QuinticHermiteDenseOutput_P : list (list Q) :=
  [[1#1; 0#1; 0#1; -10#1; 15#1; -6#1];
   [0#1; 1#1; 0#1; -6#1; 8#1; -3#1];
   [0#1; 0#1; 1#2; -3#2; 3#2; -1#2];
   [0#1; 0#1; 0#1; 10#1; -15#1; 6#1];
   [0#1; 0#1; 0#1; -4#1; 7#1; -3#1];
   [0#1; 0#1; 0#1; 1#2; -1#1; 1#2]].
(* common.py:1538-1538 *)
Definition QuinticHermiteDenseOutput_Pp : list (list Q) :=
  [[0#1; 0#1; -30#1; 60#1; -30#1];
   [1#1; 0#1; -18#1; 32#1; -15#1];
   [0#1; 1#1; -9#2; 6#1; -5#2];
   [0#1; 0#1; 30#1; -60#1; 30#1];
   [0#1; 0#1; -12#1; 28#1; -15#1];
   [0#1; 0#1; 3#2; -4#1; 5#2]].

(** ** Fi4N, fine.py *)
Definition Fi4N_n_stages : nat := 5. (* fine.py:89 *)
Definition Fi4N_order : nat := 4. (* fine.py:90 *)
Definition Fi4N_order_secondary : nat := 3. (* fine.py:91 *)
(* fine.py:94-94 *)
Definition Fi4N_tanang : Q :=
  40#1.
(* fine.py:95-95 *)
Definition Fi4N_stbre : Q :=
  3#2.
(* fine.py:96-96 *)
Definition Fi4N_stbim : Q :=
  4#1.
(* fine.py:98-98 *)
Definition Fi4N_C : list Q :=
  [0#1; 2#9; 1#3; 3#4; 1#1].
(* fine.py:99-103 *)
Definition Fi4N_A : list (list Q) :=
  [[0#1; 0#1; 0#1; 0#1; 0#1];
   [2#81; 0#1; 0#1; 0#1; 0#1];
   [1#36; 1#36; 0#1; 0#1; 0#1];
   [9#128; 0#1; 27#128; 0#1; 0#1];
   [11#60; -3#20; 9#25; 8#75; 0#1]].
(* fine.py:104-108 *)
Definition Fi4N_Ap : list (list Q) :=
  [[0#1; 0#1; 0#1; 0#1; 0#1];
   [2#9; 0#1; 0#1; 0#1; 0#1];
   [1#12; 1#4; 0#1; 0#1; 0#1];
   [69#128; -243#128; 135#64; 0#1; 0#1];
   [-17#12; 27#4; -27#5; 16#15; 0#1]].
(* fine.py:109-109 *)
Definition Fi4N_B : list Q :=
  [19#180; 0#1; 63#200; 16#225; 1#120].
(* fine.py:110-110 *)
Definition Fi4N_Bp : list Q :=
  [1#9; 0#1; 9#20; 16#45; 1#12].
(* fine.py:111-111 *)
Definition Fi4N_E : list Q :=
  [25#1116; 0#1; -63#1240; 64#1395; -13#744; 0#1].
(* fine.py:112-112 *)
Definition Fi4N_Ep : list Q :=
  [2#125; 0#1; -27#625; 32#625; -3#125; 0#1].

(** ** Fi5N, fine.py *)
Definition Fi5N_n_stages : nat := 6. (* fine.py:222 *)
Definition Fi5N_order : nat := 5. (* fine.py:223 *)
Definition Fi5N_order_secondary : nat := 4. (* fine.py:224 *)
(* fine.py:227-227 *)
Definition Fi5N_tanang : Q :=
  15#1.
(* fine.py:228-228 *)
Definition Fi5N_stbre : Q :=
  2#1.
(* fine.py:229-229 *)
Definition Fi5N_stbim : Q :=
  4#1.
(* fine.py:231-231 *)
Definition Fi5N_C : list Q :=
  [0#1; 8#39; 4#13; 5#6; 43#47; 1#1].
(* fine.py:232-238 *)
Definition Fi5N_A : list (list Q) :=
  [[0#1; 0#1; 0#1; 0#1; 0#1; 0#1];
   [32#1521; 0#1; 0#1; 0#1; 0#1; 0#1];
   [4#169; 4#169; 0#1; 0#1; 0#1; 0#1];
   [175#5184; 0#1; 1625#5184; 0#1; 0#1; 0#1];
   [-342497279#5618900760; 6827067#46824173; 35048741#102161832; -2201514#234120865; 0#1; 0#1];
   [-7079#52152; 767#2173; 14027#52152; 30#2173; 0#1; 0#1]].
(* fine.py:239-246 *)
Definition Fi5N_Ap : list (list Q) :=
  [[0#1; 0#1; 0#1; 0#1; 0#1; 0#1];
   [8#39; 0#1; 0#1; 0#1; 0#1; 0#1];
   [1#13; 3#13; 0#1; 0#1; 0#1; 0#1];
   [7385#6912; -9425#2304; 13325#3456; 0#1; 0#1; 0#1];
   [223324757#91364240; -174255393#18272848; 382840094#46824173; -39627252#234120865; 0#1; 0#1];
   [108475#36464; -9633#848; 7624604#806183; 8100#49979; -4568212#19446707; 0#1]].
(* fine.py:247-248 *)
Definition Fi5N_B : list Q :=
  [4817#51600; 0#1; 388869#1216880; 3276#23575; -1142053#22015140; 0#1].
(* fine.py:249-250 *)
Definition Fi5N_Bp : list Q :=
  [4817#51600; 0#1; 1685099#3650640; 19656#23575; -53676491#88060560; 53#240].
(* fine.py:251-252 *)
Definition Fi5N_E : list Q :=
  [8151#2633750; 0#1; -1377519#186334750; 586872#28879375; -36011118#2247378875; 0#1; 0#1].
(* fine.py:253-254 *)
Definition Fi5N_Ep : list Q :=
  [8151#2633750; 0#1; -5969249#559004250; 3521232#28879375; -846261273#4494757750; 4187#36750; -1#25].
(* fine.py:258-258 *)
Definition Fi5N_C_extra1 : list Q :=
  [2#5; 1#5].
(* fine.py:259-265 *)
Definition Fi5N_A_extra1 : list (list Q) :=
  [[3166724675977#89400687626250; 12182#175275; -2308196389073#59333908961250; 113223739712#2656609580625; -4985173058548#281912811350625; 0#1; -108322#9884875; 0#1; 0#1];
   [13703589067379#1021293449694000; -16588#178955775; 393366167467741#44058124399590000; -129051960428#18967820851875; 286445641484101#88563993965842500; 0#1; 185739#141153250; 0#1; 0#1]].
(* fine.py:266-272 *)
Definition Fi5N_Ap_extra1 : list (list Q) :=
  [[-153602563#3630543750; 4#5; -15809974379#36693821250; 25076304#131584375; -20756397983#250144464375; 0#1; -251893#7317375; 0#1; 0#1];
   [549292232911#4942380225000; 0#1; 38673447228481#349667653965000; -14447155986#237691990625; 239970566676929#8434666091985000; 0#1; 48691361#4597563000; 0#1; 0#1]].
(* fine.py:273-288 *)
Definition Fi5N_P1 : list (list Q) :=
  [[1#2; -65425102193#34422618000; 246336178993#68845236000; -17271401477#5737103000; 2646330829#2868551500];
   [0#1; 0#1; 0#1; 0#1; 0#1];
   [0#1; -103408733716249#21918241774800; 36216248499769#2087451597600; -34348334365943#1826520147900; 11946681497647#1826520147900];
   [0#1; 10008729576#15727000375; -45252884088#15727000375; 67501517184#15727000375; -28901603736#15727000375];
   [0#1; -42869319978551#58745639878800; 26279956317109#8392234268400; -5270387298308#1223867497475; 103642379853661#58745639878800];
   [0#1; 10265285443#27377989200; -14253109853#9125996400; 1166320544#570374775; -2474620297#3041998800];
   [0#1; -102497539#608399760; 451530737#608399760; -659633561#608399760; 899768737#1825199280];
   [0#1; 39325#31704; -96525#21136; 53625#10568; -7150#3963];
   [0#1; 25525#4848; -25525#1616; 25525#1616; -25525#4848]].
(* fine.py:289-289 *)
Definition Fi5N_Pp1 : list (list Q) :=
  [[1#1; -65425102193#11474206000; 246336178993#17211309000; -17271401477#1147420600; 7938992487#1434275750];
   [0#1; 0#1; 0#1; 0#1; 0#1];
   [0#1; -103408733716249#7306080591600; 36216248499769#521862899400; -34348334365943#365304029580; 11946681497647#304420024650];
   [0#1; 30026188728#15727000375; -181011536352#15727000375; 67501517184#3145400075; -173409622416#15727000375];
   [0#1; -42869319978551#19581879959600; 26279956317109#2098058567100; -5270387298308#244773499495; 103642379853661#9790939979800];
   [0#1; 10265285443#9125996400; -14253109853#2281499100; 1166320544#114074955; -2474620297#506999800];
   [0#1; -102497539#202799920; 451530737#152099940; -659633561#121679952; 899768737#304199880];
   [0#1; 39325#10568; -96525#5284; 268125#10568; -14300#1321];
   [0#1; 25525#1616; -25525#404; 127625#1616; -25525#808]].
(* fine.py:290-293 *)
Definition Fi5N_Bi : list Q :=
  [20342293#227212000; 0#1; 159248338847#434024589600; 33225336#155712875; -27213980937#193879999600; 12057023#271069200; -19822#1129455; -3575#63408; 0#1].
(* fine.py:299-299 *)
Definition Fi5N_C_extra2 : list Q :=
  [1#2; 1#2].
(* fine.py:300-305 *)
Definition Fi5N_A_extra2 : list (list Q) :=
  [[43312501780291#1275109236086400; 544043#4374864; -39526111133#929968205760; -72268815551#18945421466400; 15249672887173#919058778293760; 0#1; -936943#260282880; 0#1; 0#1];
   [78787#1651200; 0#1; 10240217#116820480; -5733#94300; 65097021#939312640; -53#1536; 1#64; 0#1; 0#1]].
(* fine.py:306-312 *)
Definition Fi5N_Ap_extra2 : list (list Q) :=
  [[-10074474119#31414368960; 2#1; -2024048255#1461229504; 262779483#503599720; -27782604453665#107223524134272; 0#1; -16606877#292226688; 0#1; 0#1];
   [70201889#791750400; 0#1; 86794851169#168046260480; 26319519#45216850; -895699605317#1351201232640; 867730151#2728776960; -192743#1624272; -429#1918; 0#1]].
(* fine.py:313-323 *)
Definition Fi5N_P2 : list (list Q) :=
  [[1#2; -2121#1720; 4213#2580; -3783#3440; 1261#4300];
   [0#1; 0#1; 0#1; 0#1; 0#1];
   [0#1; 388869#121688; -648115#91266; 7388511#1216880; -1685099#912660];
   [0#1; 6552#4715; -29484#4715; 39312#4715; -78624#23575];
   [0#1; -1142053#2201514; 67381127#17612112; -170165897#29353520; 53676491#22015140];
   [0#1; 0#1; -53#48; 159#80; -53#60];
   [0#1; -1#6; 1#1; -3#2; 2#3];
   [0#1; 0#1; 0#1; 0#1; 0#1];
   [0#1; -8#3; 8#1; -8#1; 8#3]].
(* fine.py:324-336 *)
Definition Fi5N_Pp2 : list (list Q) :=
  [[1#1; -6478933#1649480; 4322879#618555; -18893117#3298960; 3783#2150];
   [0#1; 0#1; 0#1; 0#1; 0#1];
   [0#1; 12073105993#1050289128; -4230283954#131286141; 67778480393#2100578256; -1685099#152110];
   [0#1; 68501376#4521685; -212403168#4521685; 238152312#4521685; -471744#23575];
   [0#1; -10466915745#703750642; 177078743809#4222503852; -238162590567#5630005136; 53676491#3669190];
   [0#1; 28284245#4263714; -150799787#8527428; 565239223#34109712; -53#10];
   [0#1; -294260#101517; 893071#101517; -1004879#101517; 4#1];
   [0#1; -3432#959; 6864#959; -3432#959; 0#1];
   [0#1; -8#1; 32#1; -40#1; 16#1]].
(* fine.py:339-339 *)
Definition Fi5N_C_extra3 : list Q :=
  [7#13].
(* fine.py:340-342 *)
Definition Fi5N_A_extra3 : list (list Q) :=
  [[102928590567927#2000000000000000; 0#1; 25967842797493#250000000000000; -172319683951607#2500000000000000; 829881092428669#10000000000000000; -427358611434873#10000000000000000; 36620746417023#2000000000000000]].
(* fine.py:343-345 *)
Definition Fi5N_Ap_extra3 : list (list Q) :=
  [[123829086381693#1250000000000000; 0#1; 421051250650231#1000000000000000; -81945671946107#2000000000000000; 11467578726757#100000000000000; -364803375246239#5000000000000000; 35209484921369#2000000000000000]].
(* fine.py:346-361 *)
Definition Fi5N_P3 : list (list Q) :=
  [[1#2; -14628935404609#12500000000000; 134773382152111#100000000000000; -621021772676567#1000000000000000; -597823106655287#10000000000000000; 967378073680061#10000000000000000];
   [0#1; 0#1; 0#1; 0#1; 0#1; 0#1];
   [0#1; 265626120756873#100000000000000; -491705525506241#100000000000000; 275486717403821#100000000000000; 78346565499011#200000000000000; -283121815360469#500000000000000];
   [0#1; 68277219844021#50000000000000; -218315497683829#50000000000000; 56425040538741#20000000000000; 26665112289433#12500000000000; -36294693795497#20000000000000];
   [0#1; -32182284016249#62500000000000; 222831627015447#100000000000000; -10275974440311#10000000000000; -46473553905551#20000000000000; 79299980669827#50000000000000];
   [0#1; -551650449428157#100000000000000000; -199094070710617#500000000000000; -121670685963261#1250000000000000; 119047020644871#100000000000000; -172357252940647#250000000000000];
   [0#1; -307682083093#2500000000000; 484182482444333#1000000000000000; -214110447909797#1000000000000000; -133008804641151#250000000000000; 96259004316817#250000000000000];
   [0#1; -862494097691#390625000000; 562132077604031#100000000000000; -361605298758719#100000000000000; -99989599073841#125000000000000; 1566615459729#1562500000000]].
(* fine.py:362-362 *)
Definition Fi5N_Pp3 : list (list Q) :=
  [[1#1; -43886806213827#12500000000000; 134773382152111#25000000000000; -621021772676567#200000000000000; -1793469319965861#5000000000000000; 6771646515760427#10000000000000000];
   [0#1; 0#1; 0#1; 0#1; 0#1; 0#1];
   [0#1; 796878362270619#100000000000000; -491705525506241#25000000000000; 275486717403821#20000000000000; 235039696497033#100000000000000; -1981852707523283#500000000000000];
   [0#1; 204831659532063#50000000000000; -218315497683829#12500000000000; 56425040538741#4000000000000; 79995336868299#6250000000000; -254062856568479#20000000000000];
   [0#1; -96546852048747#62500000000000; 222831627015447#25000000000000; -10275974440311#2000000000000; -139420661716653#10000000000000; 555099864688789#50000000000000];
   [0#1; -1654951348284471#100000000000000000; -199094070710617#125000000000000; -121670685963261#250000000000000; 357141061934613#50000000000000; -1206500770584529#250000000000000];
   [0#1; -923046249279#2500000000000; 484182482444333#250000000000000; -214110447909797#200000000000000; -399026413923453#125000000000000; 673813030217719#250000000000000];
   [0#1; -2587482293073#390625000000; 562132077604031#25000000000000; -361605298758719#20000000000000; -299968797221523#62500000000000; 10966308218103#1562500000000]].

(** ** TRBDF2, hosea.py (a, b) stands for a + b sqrt 2 *)
(* hosea.py:184-184 *)
Definition TRBDF2_kappa : (Q * Q) :=
  (1#2, 0#1).
(* hosea.py:188-188 *)
Definition TRBDF2_d : (Q * Q) :=
  (1#1, -1#2).
(* hosea.py:189-189 *)
Definition TRBDF2_C : list ((Q * Q)) :=
  [(0#1, 0#1); (2#1, -1#1); (1#1, 0#1)].
(* hosea.py:190-192 *)
Definition TRBDF2_A : list (list ((Q * Q))) :=
  [[(0#1, 0#1); (0#1, 0#1); (0#1, 0#1)];
   [(1#1, -1#2); (1#1, -1#2); (0#1, 0#1)];
   [(0#1, 1#4); (0#1, 1#4); (1#1, -1#2)]].
(* hosea.py:193-193 *)
Definition TRBDF2_B : list ((Q * Q)) :=
  [(0#1, 1#4); (0#1, 1#4); (1#1, -1#2)].
(* hosea.py:194-194 *)
Definition TRBDF2_Bh : list ((Q * Q)) :=
  [(1#3, -1#12); (1#3, 1#4); (1#3, -1#6)].
(* hosea.py:195-195 *)
Definition TRBDF2_E : list ((Q * Q)) :=
  [(1#3, -1#3); (1#3, 0#1); (-2#3, 1#3)].
(* hosea.py:196-198 *)
Definition TRBDF2_Az : list (list ((Q * Q))) :=
  [[(0#1, 0#1); (0#1, 0#1); (0#1, 0#1)];
   [(1#1, 0#1); (0#1, 0#1); (0#1, 0#1)];
   [(0#1, -1#2); (1#1, 1#2); (0#1, 0#1)]].

(** ** TRX2, hosea.py *)
(* hosea.py:329-329 *)
Definition TRX2_kappa : Q :=
  1#1.
(* hosea.py:332-332 *)
Definition TRX2_d : Q :=
  1#4.
(* hosea.py:333-333 *)
Definition TRX2_C : list Q :=
  [0#1; 1#2; 1#1].
(* hosea.py:334-336 *)
Definition TRX2_A : list (list Q) :=
  [[0#1; 0#1; 0#1];
   [1#4; 1#4; 0#1];
   [1#4; 1#2; 1#4]].
(* hosea.py:337-337 *)
Definition TRX2_B : list Q :=
  [1#4; 1#2; 1#4].
(* hosea.py:338-338 *)
Definition TRX2_Bh : list Q :=
  [1#6; 2#3; 1#6].
(* hosea.py:339-339 *)
Definition TRX2_E : list Q :=
  [-1#12; 1#6; -1#12].
(* hosea.py:340-342 *)
Definition TRX2_Az : list (list Q) :=
  [[0#1; 0#1; 0#1];
   [1#1; 0#1; 0#1];
   [-1#1; 2#1; 0#1]].

(** ** KC3I, kennedy.py (a, b) stands for a + b sqrt 2 *)
Definition KC3I_n_stages : nat := 5. (* kennedy.py:165 *)
Definition KC3I_order : nat := 3. (* kennedy.py:166 *)
Definition KC3I_order_secondary : nat := 2. (* kennedy.py:167 *)
(* kennedy.py:168-168 *)
Definition KC3I_kappa : (Q * Q) :=
  (1#1, 0#1).
(* kennedy.py:171-171 *)
Definition KC3I_d : (Q * Q) :=
  (9#40, 0#1).
(* kennedy.py:173-173 *)
Definition KC3I_C : list ((Q * Q)) :=
  [(0#1, 0#1); (9#20, 0#1); (9#20, 9#40); (3#5, 0#1); (1#1, 0#1)].
(* kennedy.py:174-180 *)
Definition KC3I_A : list (list ((Q * Q))) :=
  [[(0#1, 0#1); (0#1, 0#1); (0#1, 0#1); (0#1, 0#1); (0#1, 0#1)];
   [(9#40, 0#1); (9#40, 0#1); (0#1, 0#1); (0#1, 0#1); (0#1, 0#1)];
   [(9#80, 9#80); (9#80, 9#80); (9#40, 0#1); (0#1, 0#1); (0#1, 0#1)];
   [(1#10, 7#80); (1#10, 7#80); (7#40, -7#40); (9#40, 0#1); (0#1, 0#1)];
   [(-1181#2835, 1187#2835); (-1181#2835, 1187#2835); (2374#2835, -2374#2835); (5827#7560, 0#1); (9#40, 0#1)]].
(* kennedy.py:181-181 *)
Definition KC3I_B : list ((Q * Q)) :=
  [(-1181#2835, 1187#2835); (-1181#2835, 1187#2835); (2374#2835, -2374#2835); (5827#7560, 0#1); (9#40, 0#1)].
(* kennedy.py:182-184 *)
Definition KC3I_Bh : list ((Q * Q)) :=
  [(4555948517383#24713416420891, 0#1); (4555948517383#24713416420891, 0#1); (-7107561914881#25547637784726, 0#1); (30698249#44052120, 0#1); (49563#233080, 0#1)].
(* kennedy.py:185-185 *)
Definition KC3I_E : list ((Q * Q)) :=
  [(42102658839853076#70062535553225985, -1187#2835); (42102658839853076#70062535553225985, -1187#2835); (-80800030129627159#72427553119698210, 2374#2835); (-81392#1101303, 0#1); (-72#5827, 0#1)].
(* kennedy.py:186-193 *)
Definition KC3I_Az : list (list ((Q * Q))) :=
  [[(0#1, 0#1); (0#1, 0#1); (0#1, 0#1); (0#1, 0#1); (0#1, 0#1)];
   [(1#1, 0#1); (0#1, 0#1); (0#1, 0#1); (0#1, 0#1); (0#1, 0#1)];
   [(0#1, -1#2); (1#1, 1#2); (0#1, 0#1); (0#1, 0#1); (0#1, 0#1)];
   [(-5#3, 4#3); (0#1, 0#1); (8#3, -4#3); (0#1, 0#1); (0#1, 0#1)];
   [(3367#27, -2380#27); (1420#27, -340#9); (-4760#27, 3400#27); (0#1, 0#1); (0#1, 0#1)]].
(* kennedy.py:198-206 *)
Definition KC3I_P1 : list (list ((Q * Q))) :=
  [[(1#1, 0#1); (-529769#87405, 265868#87405); (123167299#16519545, -72831508#16519545); (-3096146#1101303, 1966607#1101303)];
   [(0#1, 0#1); (-209284#87405, 265868#87405); (51582604#16519545, -72831508#16519545); (-1260641#1101303, 1966607#1101303)];
   [(0#1, 0#1); (531736#87405, -531736#87405); (-145663016#16519545, 145663016#16519545); (3933214#1101303, -3933214#1101303)];
   [(0#1, 0#1); (694367#349620, 0#1); (-4895596#5506515, 0#1); (-958103#2936808, 0#1)];
   [(0#1, 0#1); (44967#116540, 0#1); (-25397#29135, 0#1); (33137#46616, 0#1)]].
(* kennedy.py:210-219 *)
Definition KC3I_P0 : list (list ((Q * Q))) :=
  [[(9035708#1835505, -5275768#1835505); (-81688633#5506515, 53056007#5506515); (5384#567, -3596#567)];
   [(9035708#1835505, -5275768#1835505); (-81688633#5506515, 53056007#5506515); (5384#567, -3596#567)];
   [(-2567144#367101, 8593664#1835505); (124385486#5506515, -90449038#5506515); (-8368#567, 6184#567)];
   [(-345291#203945, 23#30); (2185191#326312, -92#45); (-800#189, 23#18)];
   [(-4644#29135, 3#10); (17919#46616, -4#5); (0#1, 1#2)]].
(* kennedy.py:230-230 *)
Definition KC3I_P : list (list ((Q * Q))) :=
  [[(9035708#1835505, -5275768#1835505); (-81688633#5506515, 53056007#5506515); (5384#567, -3596#567)];
   [(9035708#1835505, -5275768#1835505); (-81688633#5506515, 53056007#5506515); (5384#567, -3596#567)];
   [(-2567144#367101, 8593664#1835505); (124385486#5506515, -90449038#5506515); (-8368#567, 6184#567)];
   [(-345291#203945, 23#30); (2185191#326312, -92#45); (-800#189, 23#18)];
   [(-4644#29135, 3#10); (17919#46616, -4#5); (0#1, 1#2)]].

(** ** KC4I, kennedy.py (a, b) stands for a + b sqrt 2 *)
Definition KC4I_n_stages : nat := 6. (* kennedy.py:371 *)
Definition KC4I_order : nat := 4. (* kennedy.py:372 *)
Definition KC4I_order_secondary : nat := 3. (* kennedy.py:373 *)
(* kennedy.py:374-374 *)
Definition KC4I_kappa : (Q * Q) :=
  (1#2, 0#1).
(* kennedy.py:377-377 *)
Definition KC4I_d : (Q * Q) :=
  (1#4, 0#1).
(* kennedy.py:379-380 *)
Definition KC4I_C : list ((Q * Q)) :=
  [(0#1, 0#1); (1#2, 0#1); (1#2, -1#4); (5#8, 0#1); (26#25, 0#1); (1#1, 0#1)].
(* kennedy.py:381-390 *)
Definition KC4I_A : list (list ((Q * Q))) :=
  [[(0#1, 0#1); (0#1, 0#1); (0#1, 0#1); (0#1, 0#1); (0#1, 0#1); (0#1, 0#1)];
   [(1#4, 0#1); (1#4, 0#1); (0#1, 0#1); (0#1, 0#1); (0#1, 0#1); (0#1, 0#1)];
   [(1#8, -1#8); (1#8, -1#8); (1#4, 0#1); (0#1, 0#1); (0#1, 0#1); (0#1, 0#1)];
   [(5#64, -7#64); (5#64, -7#64); (7#32, 7#32); (1#4, 0#1); (0#1, 0#1); (0#1, 0#1)];
   [(-3449#31250, -54539#125000); (-3449#31250, -54539#125000); (101321#87500, 132109#437500); (-16102#109375, 62416#109375); (1#4, 0#1); (0#1, 0#1)];
   [(1181#13782, -329#4594); (1181#13782, -329#4594); (-12549#273343, 83801#273343); (366752#571953, -18800#190651); (-1515625#90749876, -1468750#22687469); (1#4, 0#1)]].
(* kennedy.py:391-391 *)
Definition KC4I_B : list ((Q * Q)) :=
  [(1181#13782, -329#4594); (1181#13782, -329#4594); (-12549#273343, 83801#273343); (366752#571953, -18800#190651); (-1515625#90749876, -1468750#22687469); (1#4, 0#1)].
(* kennedy.py:392-395 *)
Definition KC4I_Bh : list ((Q * Q)) :=
  [(-480923228411#4982971448372, 0#1); (-480923228411#4982971448372, 0#1); (6709447293961#12833189095359, 0#1); (3513175791894#6748737351361, 0#1); (-498863281070#6042575550617, 0#1); (2077005547802#8945017530137, 0#1)].
(* kennedy.py:396-396 *)
Definition KC4I_E : list ((Q * Q)) :=
  [(-6256486607243867#34337656250731452, 329#4594); (-6256486607243867#34337656250731452, 329#4594); (1995024141630841714#3507862406892715137, -83801#273343); (-465741487385200490#3859960574322978033, 18800#190651); (-36113502329151756695#548362981939124473492, 1468750#22687469); (-636995338929#35780070120548, 0#1)].
(* kennedy.py:397-406 *)
Definition KC4I_Az : list (list ((Q * Q))) :=
  [[(0#1, 0#1); (0#1, 0#1); (0#1, 0#1); (0#1, 0#1); (0#1, 0#1); (0#1, 0#1)];
   [(1#1, 0#1); (0#1, 0#1); (0#1, 0#1); (0#1, 0#1); (0#1, 0#1); (0#1, 0#1)];
   [(0#1, 1#2); (1#1, -1#2); (0#1, 0#1); (0#1, 0#1); (0#1, 0#1); (0#1, 0#1)];
   [(0#1, 0#1); (1#1, 0#1); (0#1, 0#1); (0#1, 0#1); (0#1, 0#1); (0#1, 0#1)];
   [(-33366#30625, 68973#61250); (-33366#30625, 68973#61250); (-926197#214375, 403961#214375); (1607696#214375, -886772#214375); (0#1, 0#1); (0#1, 0#1)];
   [(0#1, 0#1); (0#1, 0#1); (0#1, 0#1); (0#1, 0#1); (1#1, 0#1); (0#1, 0#1)]].
(* kennedy.py:409-415 *)
Definition KC4I_P1 : list (list ((Q * Q))) :=
  [[(1#1, 0#1); (-4045351040436539#1000000000000000, 0#1); (5028351540730211#1000000000000000, 0#1); (-1998588135329389#1000000000000000, 0#1)];
   [(0#1, 0#1); (237553630334257#100000000000000, 0#1); (-4813423146828023#1000000000000000, 0#1); (2422299208449723#1000000000000000, 0#1)];
   [(0#1, 0#1); (3813260102423869#1000000000000000, 0#1); (-243035580847797#40000000000000, 0#1); (2650287089684259#1000000000000000, 0#1)];
   [(0#1, 0#1); (-2329870780844837#1000000000000000, 0#1); (3333416019989167#500000000000000, 0#1); (-3835188639561323#1000000000000000, 0#1)];
   [(0#1, 0#1); (2942082256985599#5000000000000000, 0#1); (-1609852984449971#1000000000000000, 0#1); (9131815126389187#10000000000000000, 0#1)];
   [(0#1, 0#1); (-160796414352877#400000000000000, 0#1); (160796414352877#200000000000000, 0#1); (-60796414352877#400000000000000, 0#1)]].
(* kennedy.py:417-429 *)
Definition KC4I_P0 : list (list ((Q * Q))) :=
  [[(11963910384665#12483345430363, 0#1); (-69996760330788#18526599551455, 0#1); (32473635429419#7030701510665, 0#1); (-14668528638623#8083464301755, 0#1)];
   [(11963910384665#12483345430363, 0#1); (-69996760330788#18526599551455, 0#1); (32473635429419#7030701510665, 0#1); (-14668528638623#8083464301755, 0#1)];
   [(-28603264624#1970169629981, 0#1); (102610171905103#26266659717953, 0#1); (-38866317253841#6249835826165, 0#1); (21103455885091#7774428730952, 0#1)];
   [(-3524425447183#2683177070205, 0#1); (74957623907620#12279805097313, 0#1); (-26705717223886#4265677133337, 0#1); (30155591475533#15293695940061, 0#1)];
   [(-17173522440186#10195024317061, 0#1); (113853199235633#9983266320290, 0#1); (-121105382143155#6658412667527, 0#1); (119853375102088#14336240079991, 0#1)];
   [(27308879169709#13030500014233, 0#1); (-84229392543950#6077740599399, 0#1); (1102028547503824#51424476870755, 0#1); (-63602213973224#6753880425717, 0#1)]].
(* kennedy.py:430-430 *)
Definition KC4I_P : list (list ((Q * Q))) :=
  [[(11963910384665#12483345430363, 0#1); (-69996760330788#18526599551455, 0#1); (32473635429419#7030701510665, 0#1); (-14668528638623#8083464301755, 0#1)];
   [(11963910384665#12483345430363, 0#1); (-69996760330788#18526599551455, 0#1); (32473635429419#7030701510665, 0#1); (-14668528638623#8083464301755, 0#1)];
   [(-28603264624#1970169629981, 0#1); (102610171905103#26266659717953, 0#1); (-38866317253841#6249835826165, 0#1); (21103455885091#7774428730952, 0#1)];
   [(-3524425447183#2683177070205, 0#1); (74957623907620#12279805097313, 0#1); (-26705717223886#4265677133337, 0#1); (30155591475533#15293695940061, 0#1)];
   [(-17173522440186#10195024317061, 0#1); (113853199235633#9983266320290, 0#1); (-121105382143155#6658412667527, 0#1); (119853375102088#14336240079991, 0#1)];
   [(27308879169709#13030500014233, 0#1); (-84229392543950#6077740599399, 0#1); (1102028547503824#51424476870755, 0#1); (-63602213973224#6753880425717, 0#1)]].

(** ** KC4Ia, kennedy.py *)
Definition KC4Ia_n_stages : nat := 7. (* kennedy.py:574 *)
Definition KC4Ia_order : nat := 4. (* kennedy.py:575 *)
Definition KC4Ia_order_secondary : nat := 3. (* kennedy.py:576 *)
(* kennedy.py:577-577 *)
Definition KC4Ia_kappa : Q :=
  1#5.
(* kennedy.py:580-580 *)
Definition KC4Ia_d : Q :=
  1#8.
(* kennedy.py:581-582 *)
Definition KC4Ia_C : list Q :=
  [0#1; 1#4; 1200237871921#16391473681546; 1#2; 395#567; 89#126; 1#1].
(* kennedy.py:583-598 *)
Definition KC4Ia_A : list (list Q) :=
  [[0#1; 0#1; 0#1; 0#1; 0#1; 0#1; 0#1];
   [1#8; 1#8; 0#1; 0#1; 0#1; 0#1; 0#1];
   [-39188347878#1513744654945; -39188347878#1513744654945; 1#8; 0#1; 0#1; 0#1; 0#1];
   [1748874742213#5168247530883; 1748874742213#5168247530883; -1748874742213#5795261096931; 1#8; 0#1; 0#1; 0#1];
   [-6429340993097#17896796106705; -6429340993097#17896796106705; 9711656375562#10370074603625; 1137589605079#3216875020685; 1#8; 0#1; 0#1];
   [405169606099#1734380148729; 405169606099#1734380148729; -264468840649#6105657584947; 118647369377#6233854714037; 683008737625#4934655825458; 1#8; 0#1];
   [-5649241495537#14093099002237; -5649241495537#14093099002237; 5718691255176#6089204655961; 2199600963556#4241893152925; 8860614275765#11425531467341; -3696041814078#6641566663007; 1#8]].
(* kennedy.py:599-599 *)
Definition KC4Ia_B : list Q :=
  [-5649241495537#14093099002237; -5649241495537#14093099002237; 5718691255176#6089204655961; 2199600963556#4241893152925; 8860614275765#11425531467341; -3696041814078#6641566663007; 1#8].
(* kennedy.py:600-603 *)
Definition KC4Ia_Bh : list Q :=
  [-1517409284625#6267517876163; -1517409284625#6267517876163; 8291371032348#12587291883523; 5328310281212#10646448185159; 5405006853541#7104492075037; -4254786582061#7445269677723; 19#140].
(* kennedy.py:604-604 *)
Definition KC4Ia_E : list Q :=
  [14021722784906200638478406#88328749927055336625976631; 14021722784906200638478406#88328749927055336625976631; -3070711560882459617262660#10949513763298336699947229; -815814787991699828720304#45161095659596754702440075; -1195088015805686578873824#81172597762810000486866617; -740420675674591594133033#49448254888661947436093061; 3#280].
(* kennedy.py:605-615 *)
Definition KC4Ia_Az : list (list Q) :=
  [[0#1; 0#1; 0#1; 0#1; 0#1; 0#1; 0#1];
   [1#1; 0#1; 0#1; 0#1; 0#1; 0#1; 0#1];
   [282842712474619#400000000000000; 117157287525381#400000000000000; 0#1; 0#1; 0#1; 0#1; 0#1];
   [-1#1; 2#1; 0#1; 0#1; 0#1; 0#1; 0#1];
   [-344712536068413#100000000000000; -344712536068413#100000000000000; 5597060516320929#1000000000000000; 2297190205047331#1000000000000000; 0#1; 0#1; 0#1];
   [0#1; 0#1; 0#1; 0#1; 1#1; 0#1; 0#1];
   [-1669640264560983#1000000000000000; -1669640264560983#1000000000000000; 2655940863056583#1000000000000000; -1224584413467299#10000000000000000; -8905466663459783#10000000000000000; 674086193439523#250000000000000; 0#1]].
(* kennedy.py:619-626 *)
Definition KC4Ia_P1 : list (list Q) :=
  [[1#1; -1309267871829547#5000000000000000; -2039849655653307#500000000000000; 588140254132583#200000000000000];
   [0#1; 7936037051221989#1000000000000000; -1747548056248241#100000000000000; 9138591896250813#1000000000000000];
   [0#1; -5459341005691339#1000000000000000; 1467529166947831#100000000000000; -1655359649852613#200000000000000];
   [0#1; -85808402012737#50000000000000; 1376626304022301#250000000000000; -3271794891939533#1000000000000000];
   [0#1; -339436729895137#250000000000000; 1163506793565981#200000000000000; -736855403216431#200000000000000];
   [0#1; 949247677414993#2000000000000000; -635050735936459#200000000000000; 2144128340407973#1000000000000000];
   [0#1; 768897299926103#2000000000000000; -1268897299926103#1000000000000000; 1009448649963051#1000000000000000]].
(* kennedy.py:630-644 *)
Definition KC4Ia_P0 : list (list Q) :=
  [[1751737353544831#1000000000000000; -1167529655238061#100000000000000; 966645078791787#50000000000000; -9810193992009567#1000000000000000];
   [1751737353544831#1000000000000000; -1167529655238061#100000000000000; 966645078791787#50000000000000; -9810193992009567#1000000000000000];
   [-33106698971287#20000000000000; 1731058741533003#100000000000000; -3087602826958563#100000000000000; 807996410867193#50000000000000];
   [-396425536378789#250000000000000; 1232790098775139#100000000000000; -1838973592743151#100000000000000; 4083039684545107#500000000000000];
   [1480670047540331#1000000000000000; -268644279562611#20000000000000; 2548988276667239#100000000000000; -1276282880391497#100000000000000];
   [-3196418023767401#5000000000000000; 1531959603910951#250000000000000; -255739612799813#20000000000000; 1348384865706701#200000000000000];
   [-519120278985037#5000000000000000; 1016480264166559#1000000000000000; -262867635167009#125000000000000; 1315284872966521#1000000000000000]].
(* kennedy.py:645-645 *)
Definition KC4Ia_P : list (list Q) :=
  [[1751737353544831#1000000000000000; -1167529655238061#100000000000000; 966645078791787#50000000000000; -9810193992009567#1000000000000000];
   [1751737353544831#1000000000000000; -1167529655238061#100000000000000; 966645078791787#50000000000000; -9810193992009567#1000000000000000];
   [-33106698971287#20000000000000; 1731058741533003#100000000000000; -3087602826958563#100000000000000; 807996410867193#50000000000000];
   [-396425536378789#250000000000000; 1232790098775139#100000000000000; -1838973592743151#100000000000000; 4083039684545107#500000000000000];
   [1480670047540331#1000000000000000; -268644279562611#20000000000000; 2548988276667239#100000000000000; -1276282880391497#100000000000000];
   [-3196418023767401#5000000000000000; 1531959603910951#250000000000000; -255739612799813#20000000000000; 1348384865706701#200000000000000];
   [-519120278985037#5000000000000000; 1016480264166559#1000000000000000; -262867635167009#125000000000000; 1315284872966521#1000000000000000]].

(** ** Kv3I, kvaerno.py *)
Definition Kv3I_n_stages : nat := 4. (* kvaerno.py:144 *)
Definition Kv3I_order : nat := 3. (* kvaerno.py:145 *)
Definition Kv3I_order_secondary : nat := 2. (* kvaerno.py:146 *)
(* kvaerno.py:147-147 *)
Definition Kv3I_kappa : Q :=
  1#15.
(* kvaerno.py:150-150 *)
Definition Kv3I_d : Q :=
  435866521508459#1000000000000000.
(* kvaerno.py:151-151 *)
Definition Kv3I_C : list Q :=
  [0#1; 435866521508459#500000000000000; 1#1; 1#1].
(* kvaerno.py:152-156 *)
Definition Kv3I_A : list (list Q) :=
  [[0#1; 0#1; 0#1; 0#1];
   [435866521508459#1000000000000000; 435866521508459#1000000000000000; 0#1; 0#1];
   [213820157690804547939191445319#435866521508459000000000000000; 64133478491541#871733043016918; 435866521508459#1000000000000000; 0#1];
   [807599564525377#2615199129050754; 125000000000000000000000000000#83860908547036643817574335957; -237660690809725143817574335957#192400435474623000000000000000; 435866521508459#1000000000000000]].
(* kvaerno.py:157-157 *)
Definition Kv3I_B : list Q :=
  [807599564525377#2615199129050754; 125000000000000000000000000000#83860908547036643817574335957; -237660690809725143817574335957#192400435474623000000000000000; 435866521508459#1000000000000000].
(* kvaerno.py:158-158 *)
Definition Kv3I_Bh : list Q :=
  [213820157690804547939191445319#435866521508459000000000000000; 64133478491541#871733043016918; 435866521508459#1000000000000000; 0#1].
(* kvaerno.py:159-159 *)
Definition Kv3I_E : list Q :=
  [237660690809725143817574335957#1307599564525377000000000000000; -237660690809725143817574335957#167721817094073287635148671914; 160760799678380893817574335957#96200217737311500000000000000; -435866521508459#1000000000000000].
(* kvaerno.py:160-164 *)
Definition Kv3I_Az : list (list Q) :=
  [[0#1; 0#1; 0#1; 0#1];
   [1#1; 0#1; 0#1; 0#1];
   [-64133478491541#435866521508459; 500000000000000#435866521508459; 0#1; 0#1];
   [0#1; 0#1; 1#1; 0#1]].
(* kvaerno.py:166-170 *)
Definition Kv3I_P0 : list (list Q) :=
  [[1#1; -838726632867#781250000000; 382380060046507#1000000000000000];
   [0#1; 223584508263267#50000000000000; -74528169421089#25000000000000];
   [10452602553351#10000000000000; -144906003759779#25000000000000; 351574001514907#100000000000000];
   [-10452602553351#10000000000000; 119906003759779#50000000000000; -45849664917601#50000000000000]].
(* kvaerno.py:172-176 *)
Definition Kv3I_P1 : list (list Q) :=
  [[1#1; -838726632867#781250000000; 382380060046507#1000000000000000; 0#1];
   [0#1; 223584508263267#50000000000000; -74528169421089#25000000000000; 0#1];
   [0#1; 63172286471807#250000000000000; -108926756228049#20000000000000; 49480109820103#12500000000000];
   [0#1; -365080922108287#100000000000000; 804508452819957#100000000000000; -15833635142433#4000000000000]].
(* kvaerno.py:177-177 *)
Definition Kv3I_P : list (list Q) :=
  [[1#1; -838726632867#781250000000; 382380060046507#1000000000000000];
   [0#1; 223584508263267#50000000000000; -74528169421089#25000000000000];
   [10452602553351#10000000000000; -144906003759779#25000000000000; 351574001514907#100000000000000];
   [-10452602553351#10000000000000; 119906003759779#50000000000000; -45849664917601#50000000000000]].

(** ** Me4, merson.py *)
Definition Me4_n_stages : nat := 5. (* merson.py:83 *)
Definition Me4_order : nat := 4. (* merson.py:86 *)
Definition Me4_order_secondary : nat := 3. (* merson.py:89 *)
(* merson.py:92-92 *)
Definition Me4_C : list Q :=
  [0#1; 1#3; 1#3; 1#2; 1#1].
(* merson.py:95-100 *)
Definition Me4_A : list (list Q) :=
  [[0#1; 0#1; 0#1; 0#1; 0#1];
   [1#3; 0#1; 0#1; 0#1; 0#1];
   [1#6; 1#6; 0#1; 0#1; 0#1];
   [1#8; 0#1; 3#8; 0#1; 0#1];
   [1#2; 0#1; -3#2; 2#1; 0#1]].
(* merson.py:103-103 *)
Definition Me4_B : list Q :=
  [1#6; 0#1; 0#1; 2#3; 1#6].
(* merson.py:106-107 *)
Definition Me4_E : list Q :=
  [-1#15; 0#1; 3#10; -4#15; 1#30; 0#1].
(* merson.py:109-115 *)
Definition Me4_P : list (list Q) :=
  [[1#1; -3#1; 11#3; -3#2];
   [0#1; 0#1; 0#1; 0#1];
   [0#1; 27#4; -27#2; 27#4];
   [0#1; -4#1; 32#3; -6#1];
   [0#1; -13#10; 49#15; -9#5];
   [0#1; 31#20; -41#10; 51#20]].
(* merson.py:118-118 *)
Definition Me4_stbrad : Q :=
  17#5.
(* merson.py:119-119 *)
Definition Me4_tanang : Q :=
  20#1.

(** ** MR6NN, mikkawy.py *)
Definition MR6NN_n_stages : nat := 6. (* mikkawy.py:87 *)
Definition MR6NN_order : nat := 6. (* mikkawy.py:88 *)
Definition MR6NN_order_secondary : nat := 4. (* mikkawy.py:89 *)
(* mikkawy.py:92-92 *)
Definition MR6NN_C : list Q :=
  [0#1; 1#77; 1#3; 2#3; 13#15; 1#1].
(* mikkawy.py:94-102 *)
Definition MR6NN_A : list (list Q) :=
  [[0#1; 0#1; 0#1; 0#1; 0#1; 0#1];
   [1#11858; 0#1; 0#1; 0#1; 0#1; 0#1];
   [-7189#17118; 4070#8559; 0#1; 0#1; 0#1; 0#1];
   [4007#2403; -589655#355644; 25217#118548; 0#1; 0#1; 0#1];
   [-4477057#843750; 13331783894#2357015625; -281996#5203125; 563992#7078125; 0#1; 0#1];
   [17265#2002; -1886451746#212088107; 22401#31339; 2964#127897; 178125#5428423; 0#1]].
(* mikkawy.py:105-106 *)
Definition MR6NN_B : list Q :=
  [-341#780; 386683451#661053840; 2853#11840; 267#3020; 9375#410176; 0#1].
(* mikkawy.py:108-109 *)
Definition MR6NN_Bp : list Q :=
  [-341#780; 29774625727#50240091840; 8559#23680; 801#3020; 140625#820352; 847#18240].
(* mikkawy.py:111-113 *)
Definition MR6NN_E : list Q :=
  [-1559#780; 466653803#220351280; -5389#35520; 178#6795; 23875#3691584; 0#1; 0#1].
(* mikkawy.py:115-117 *)
Definition MR6NN_Ep : list Q :=
  [-1559#780; 35932342831#16746697280; -5389#23680; 178#2265; 119375#2461056; -847#18240; 0#1].
(* mikkawy.py:119-127 *)
Definition MR6NN_P : list (list Q) :=
  [[1#2; -445#39; 2095#78; -1231#52; 1421#195];
   [0#1; 56490936887#5024009184; -280556420221#10048018368; 419129707843#16746697280; -195064224509#25120045920];
   [0#1; 951#2368; 2853#4736; -31383#23680; 6657#11840];
   [0#1; -89#151; 267#151; -4539#3020; 623#1510];
   [0#1; 228125#410176; -1790625#820352; 2184375#820352; -415625#410176];
   [0#1; 847#1824; -5929#3648; 11011#6080; -5929#9120];
   [0#1; -2#3; 5#2; -3#1; 7#6]].
(* mikkawy.py:128-128 *)
Definition MR6NN_Pp : list (list Q) :=
  [[1#1; -445#13; 4190#39; -6155#52; 2842#65];
   [0#1; 56490936887#1674669728; -280556420221#2512004592; 419129707843#3349339456; -195064224509#4186674320];
   [0#1; 2853#2368; 2853#1184; -31383#4736; 19971#5920];
   [0#1; -267#151; 1068#151; -4539#604; 1869#755];
   [0#1; 684375#410176; -1790625#205088; 10921875#820352; -1246875#205088];
   [0#1; 847#608; -5929#912; 11011#1216; -5929#1520];
   [0#1; -2#1; 10#1; -15#1; 7#1]].

(** ** Mu5Nmb, murua.py *)
Definition Mu5Nmb_n_stages : nat := 9. (* murua.py:105 *)
Definition Mu5Nmb_order : nat := 5. (* murua.py:106 *)
Definition Mu5Nmb_order_secondary : nat := 4. (* murua.py:107 *)
(* murua.py:110-110 *)
Definition Mu5Nmb_tanang : Q :=
  100#1.
(* murua.py:111-111 *)
Definition Mu5Nmb_stbre : Q :=
  29#10.
(* murua.py:112-112 *)
Definition Mu5Nmb_stbim : Q :=
  19#4.
(* murua.py:114-115 *)
Definition Mu5Nmb_C : list Q :=
  [0#1; 771#3847; 771#3847; 3051#6788; 4331#6516; 4331#6516; 10463#11400; 10463#11400; 1#1].
(* murua.py:116-136 *)
Definition Mu5Nmb_Ap : list (list Q) :=
  [[0#1; 0#1; 0#1; 0#1; 0#1; 0#1; 0#1; 0#1; 0#1];
   [771#3847; 0#1; 0#1; 0#1; 0#1; 0#1; 0#1; 0#1; 0#1];
   [771#7694; 771#7694; 0#1; 0#1; 0#1; 0#1; 0#1; 0#1; 0#1];
   [-264272222#4845505509; -9458865980#12714902623; 17133165419#13729279360; 0#1; 0#1; 0#1; 0#1; 0#1; 0#1];
   [1943604853#18116134489; -2470367896#7636570485; 1733951147#3918733571; 4613437932#10523350595; 0#1; 0#1; 0#1; 0#1; 0#1];
   [369952551#2046485744; 281630106828#143708239525; -9868262031#5606899429; 208606720#5597531799; 792516107#3209667255; 0#1; 0#1; 0#1; 0#1];
   [-2089737154#15083636501; -39924138556#8175090533; 72922890855#14010113917; 9484193351#15493195043; -17895265139#12412283353; 278232#177835; 0#1; 0#1; 0#1];
   [-1762013041#13188190032; -22636373880#4795132451; 30527401913#6048941340; 11564353310#19632283007; -50677425731#36595197965; 12408#8167; 10722067#5782709432; 0#1; 0#1];
   [8034174097#12261534992; 72032427203#6782716235; -90566218637#8185393121; 18770105843#41171085325; 28010344030#6199889941; -21917292279#4540377286; -236637914115#8183370127; 71217630373#2409299224; 0#1]].
(* murua.py:137-153 *)
Definition Mu5Nmb_A : list (list Q) :=
  [[0#1; 0#1; 0#1; 0#1; 0#1; 0#1; 0#1; 0#1; 0#1];
   [594441#29598818; 0#1; 0#1; 0#1; 0#1; 0#1; 0#1; 0#1; 0#1];
   [594441#29598818; 0#1; 0#1; 0#1; 0#1; 0#1; 0#1; 0#1; 0#1];
   [-311625081#28869248936; 128#8219; 1015645542#10554116159; 0#1; 0#1; 0#1; 0#1; 0#1; 0#1];
   [1852480471#26299626569; -247#14069; 648800762#5897141541; 519849979#8963946221; 0#1; 0#1; 0#1; 0#1; 0#1];
   [1852480471#26299626569; -247#14069; 648800762#5897141541; 519849979#8963946221; 0#1; 0#1; 0#1; 0#1; 0#1];
   [229929851#7158517178; 113395809#8665398238; 4865737279#19748497543; 340133672#10137556453; 738#11587; 509108839#15737542787; 0#1; 0#1; 0#1];
   [229929851#7158517178; 113395809#8665398238; 4865737279#19748497543; 340133672#10137556453; 738#11587; 509108839#15737542787; 0#1; 0#1; 0#1];
   [164505448#2653157365; 0#1; 9357192#40412735; 736403089#7677655029; 960089#17896194; 482653907#11393392643; -47281957#150822000; 6715245221#20471724521; 0#1]].
(* murua.py:154-157 *)
Definition Mu5Nmb_Bp : list Q :=
  [164505448#2653157365; 0#1; 3042#10505; 1586146904#9104113535; 4394#27465; 2081836558#16479128289; -50461#13230; 13928550541#3490062596; 91464477#8242174145].
(* murua.py:158-161 *)
Definition Mu5Nmb_B : list Q :=
  [164505448#2653157365; 0#1; 9357192#40412735; 736403089#7677655029; 960089#17896194; 482653907#11393392643; -47281957#150822000; 6715245221#20471724521; 0#1].
(* murua.py:162-166 *)
Definition Mu5Nmb_Ep : list Q :=
  [121704204177827602#337440389415705265; 0#1; -2077629011248#2143517611345; 1176079029881285543#1712964935646165355; 541754808503#2835580475370; 12315455173#32958256578; 7842920031281#66030612480; -4322366872563766495#35829041941600132; 8150709668#8242174145; 23#100].
(* murua.py:167-171 *)
Definition Mu5Nmb_E : list Q :=
  [121704204177827602#337440389415705265; 0#1; -6390786838598848#8246112250844215; 3706385035266708827513#9805759474405130838756; 236746851315811#3695328475502184; 18604617208931#148478692923576; 7348816069310297#752748982272000; -47512996955147431990777#4791718040503385139600; 0#1; 0#1].
(* murua.py:174-174 *)
Definition Mu5Nmb_C_extra : Q :=
  1#2.
(* murua.py:175-180 *)
Definition Mu5Nmb_A_extra : list Q :=
  [6272277221#169802071360; 0#1; 45601101#646603760; 105407530693976029#5083508586660343092; 261443#143169552; 4331771911506493999#3004050864175132445232; 264970711#603288000; -1050721229560409919849#2286323200843459728512; -91464477#52749914528; 1#64].
(* murua.py:181-186 *)
Definition Mu5Nmb_Ap_extra : list Q :=
  [4914093243#84901035680; 0#1; 9036261#29391080; 1755813615360948893#16945028622201143640; 7300631#238615920; 18144300078070688533#751012716043783111308; 86944303#80438400; -1292891362501846999547#1143161600421729864256; -640251339#131874786320; 1#32].
(* murua.py:187-208 *)
Definition Mu5Nmb_P_better : list (list Q) :=
  [[1#2; -4924143773#3183788838; 2398376727#1061262946; -1666124677#1061262946; 3332249354#7959472095];
   [0#1; 0#1; 0#1; 0#1; 0#1];
   [0#1; 18714384#8082547; -39774150#8082547; 161466318#40412735; -12168#10505];
   [0#1; 7364030890#7677655029; -978508507380924517#423625715555028591; 4540205538386050898#2118128577775142955; -6344587616#9104113535];
   [0#1; 4800445#8948097; -9572329#5965398; 26273923#14913495; -17576#27465];
   [0#1; 4826539070#11393392643; -237901641408829340815#187753179010945777827; 87064975276817078628#62584393003648592609; -8327346232#16479128289];
   [0#1; -47281957#15082200; 79677919#3351600; -910165057#25137000; 100922#6615];
   [0#1; 67152452210#20471724521; -1777256640792585385045#71447600026358116516; 2706892803882276765045#71447600026358116516; -13928550541#872515649];
   [0#1; 0#1; -91464477#1648434829; 823180293#8242174145; -365857908#8242174145];
   [0#1; -1#6; 1#1; -3#2; 2#3];
   [0#1; -8#3; 8#1; -8#1; 8#3]].
(* murua.py:209-209 *)
Definition Mu5Nmb_Pp_better : list (list Q) :=
  [[1#1; -4924143773#1061262946; 4796753454#530631473; -8330623385#1061262946; 6664498708#2653157365];
   [0#1; 0#1; 0#1; 0#1; 0#1];
   [0#1; 56143152#8082547; -159096600#8082547; 161466318#8082547; -73008#10505];
   [0#1; 7364030890#2559218343; -3914034029523698068#423625715555028591; 4540205538386050898#423625715555028591; -38067525696#9104113535];
   [0#1; 4800445#2982699; -19144658#2982699; 26273923#2982699; -35152#9155];
   [0#1; 14479617210#11393392643; -951606565635317363260#187753179010945777827; 435324876384085393140#62584393003648592609; -16654692464#5493042763];
   [0#1; -47281957#5027400; 79677919#837900; -910165057#5027400; 201844#2205];
   [0#1; 201457356630#20471724521; -1777256640792585385045#17861900006589529129; 13534464019411383825225#71447600026358116516; -83571303246#872515649];
   [0#1; 0#1; -365857908#1648434829; 823180293#1648434829; -2195147448#8242174145];
   [0#1; -1#2; 4#1; -15#2; 4#1];
   [0#1; -8#1; 32#1; -40#1; 16#1]].

(** ** Pr7, prince.py *)
Definition Pr7_order : nat := 7. (* prince.py:79 *)
Definition Pr7_order_secondary : nat := 5. (* prince.py:80 *)
Definition Pr7_n_stages : nat := 10. (* prince.py:81 *)
(* prince.py:82-82 *)
Definition Pr7_tanang : Q :=
  15#2.
(* prince.py:83-83 *)
Definition Pr7_stbrad : Q :=
  41#10.
(* prince.py:86-86 *)
Definition Pr7_C : list Q :=
  [0#1; 1#6; 1#4; 1#2; 1#2; 3#16; 3#16; 3#5; 6#7; 1#1].
(* prince.py:88-103 *)
Definition Pr7_A : list (list Q) :=
  [[0#1; 0#1; 0#1; 0#1; 0#1; 0#1; 0#1; 0#1; 0#1; 0#1];
   [1#6; 0#1; 0#1; 0#1; 0#1; 0#1; 0#1; 0#1; 0#1; 0#1];
   [1#16; 3#16; 0#1; 0#1; 0#1; 0#1; 0#1; 0#1; 0#1; 0#1];
   [1#4; -3#4; 1#1; 0#1; 0#1; 0#1; 0#1; 0#1; 0#1; 0#1];
   [1#12; 0#1; 1#3; 1#12; 0#1; 0#1; 0#1; 0#1; 0#1; 0#1];
   [9#128; 135#1024; -3#256; -57#4096; 45#4096; 0#1; 0#1; 0#1; 0#1; 0#1];
   [129#2048; 0#1; -117#1024; 207#16384; -135#16384; 15#64; 0#1; 0#1; 0#1; 0#1];
   [36#625; 0#1; 36#625; -288#15625; 4023#15625; -14592#78125; 33792#78125; 0#1; 0#1; 0#1];
   [51237#285719; 0#1; 4580136#2000033; -419616#2000033; -2586870#2000033; -8901120#2000033; 3840000#1294139; 30234375#22000363; 0#1; 0#1];
   [-1396#1647; 0#1; -19396#1281; 944#1281; 105447#10675; 494336#19215; -213085184#15852375; -2575625#380457; 530621#617625; 0#1]].
(* prince.py:105-106 *)
Definition Pr7_B : list Q :=
  [179#3240; 0#1; 0#1; 0#1; 88#375; 0#1; 2097152#7239375; 3125#21384; 285719#1215000; 61#1560].
(* prince.py:108-110 *)
Definition Pr7_E : list Q :=
  [2897#103680; 0#1; 1#2; 1#40; -163#375; -128#225; 1320448#7239375; 211625#684288; -2120083#38880000; 673#49920; 0#1].
(* prince.py:112-128 *)
Definition Pr7_P : list (list Q) :=
  [[1#1; -67#12; 392#27; -4205#216; 587#45; -280#81];
   [0#1; 0#1; 0#1; 0#1; 0#1; 0#1];
   [0#1; 0#1; 0#1; 0#1; 0#1; 0#1];
   [0#1; 0#1; 0#1; 0#1; 0#1; 0#1];
   [0#1; -432#25; 528#5; -5448#25; 23696#125; -896#15];
   [0#1; 0#1; 0#1; 0#1; 0#1; 0#1];
   [0#1; 524288#53625; -3670016#96525; 29360128#482625; -12058624#268125; 3670016#289575];
   [0#1; 3125#198; -59375#594; 1559375#7128; -59375#297; 175000#2673];
   [0#1; -16807#4500; 16807#675; -4823609#81000; 1025227#16875; -134456#6075];
   [0#1; 19764#302107; -160857#604214; -2003423#2416856; 3669821#1510535; -1233176#906321];
   [0#1; 45225#46478; -157380#23239; 844295#46478; -485844#23239; 198464#23239]].

(** ** Pr8, prince.py *)
Definition Pr8_order : nat := 8. (* prince.py:205 *)
Definition Pr8_order_secondary : nat := 6. (* prince.py:206 *)
Definition Pr8_n_stages : nat := 13. (* prince.py:207 *)
(* prince.py:208-208 *)
Definition Pr8_tanang : Q :=
  6#1.
(* prince.py:209-209 *)
Definition Pr8_stbrad : Q :=
  9#2.
(* prince.py:212-281 *)
Definition Pr8_A : list (list Q) :=
  [[0#1; 0#1; 0#1; 0#1; 0#1; 0#1; 0#1; 0#1; 0#1; 0#1; 0#1; 0#1; 0#1];
   [933333333333333333333333333333#10000000000000000000000000000000; 0#1; 0#1; 0#1; 0#1; 0#1; 0#1; 0#1; 0#1; 0#1; 0#1; 0#1; 0#1];
   [7#200; 21#200; 0#1; 0#1; 0#1; 0#1; 0#1; 0#1; 0#1; 0#1; 0#1; 0#1; 0#1];
   [7#50; -21#50; 14#25; 0#1; 0#1; 0#1; 0#1; 0#1; 0#1; 0#1; 0#1; 0#1; 0#1];
   [466666666666666666666666666667#10000000000000000000000000000000; 0#1; 186666666666666666666666666667#1000000000000000000000000000000; 466666666666666666666666666667#10000000000000000000000000000000; 0#1; 0#1; 0#1; 0#1; 0#1; 0#1; 0#1; 0#1; 0#1];
   [68967899659863945578231292517#125000000000000000000000000000; -84177694515306122448979591837#50000000000000000000000000000; 8034053465136054421768707483#6250000000000000000000000000; -51073625599793488824101068999#50000000000000000000000000000; 13428346506013119533527696793#10000000000000000000000000000; 0#1; 0#1; 0#1; 0#1; 0#1; 0#1; 0#1; 0#1];
   [312147906037414965986394557823#5000000000000000000000000000000; 0#1; 361299742319969032389075033#3125000000000000000000000000; -248173453254069484936831875607#1000000000000000000000000000000; 238002410087919096209912536443#500000000000000000000000000000; 69123134328358208955223880597#1000000000000000000000000000000; 0#1; 0#1; 0#1; 0#1; 0#1; 0#1; 0#1];
   [106350877192982456140350877193#2000000000000000000000000000000; 0#1; 1686878109452736318407960199#15625000000000000000000000000; -455448717948717948717948717949#10000000000000000000000000000000; 213141025641025641025641025641#10000000000000000000000000000000; 7238180428861500384346414159#400000000000000000000000000000; -30000638885701745279840314999#2000000000000000000000000000000; 0#1; 0#1; 0#1; 0#1; 0#1; 0#1];
   [466308628714643752237737200143#10000000000000000000000000000000; 0#1; 589926174413351732228314575591#10000000000000000000000000000000; -77136278385064278892855035029#2000000000000000000000000000000; 231207294594081206081229649243#10000000000000000000000000000000; 66504682211663496315072144531#5000000000000000000000000000000; -56191873784165359468938440581#5000000000000000000000000000000; -122386322651751569775273657731#10000000000000000000000000000000; 0#1; 0#1; 0#1; 0#1; 0#1];
   [272108843537414965986394557823#5000000000000000000000000000000; 0#1; 540333156097836021965644146011#1000000000000000000000000000000; 113688418211922452259942034977#1000000000000000000000000000000; 713352588752466984012721183007#10000000000000000000000000000000; 266871342610584511136988434687#50000000000000000000000000000000; 141741045931070379958169549861#1000000000000000000000000000000; -196761870671218451335856598037#500000000000000000000000000000; 0#1; 0#1; 0#1; 0#1; 0#1];
   [-25940248582906658528380592843#10000000000000000000000000000; 0#1; -88591198080838169657988987443#5000000000000000000000000000; -720291569558395826074056304001#100000000000000000000000000000; 149881506312855377166637034571#10000000000000000000000000000; 43242209202309167357886303883#62500000000000000000000000000; -71579553906147432099663790337#10000000000000000000000000000; 113296790773526385017400302977#50000000000000000000000000000; 32939234769385229272161942471#2500000000000000000000000000; 87029597178197949030802629589#20000000000000000000000000000; 0#1; 0#1; 0#1];
   [106825136567513030976007778711#50000000000000000000000000000; 0#1; 30681629365959254951349298603#2500000000000000000000000000; 114413252437566577073609922417#25000000000000000000000000000; -12836718543687090186778909671#1250000000000000000000000000; -37629577005440390399992522631#100000000000000000000000000000; 513017034156407434494186004831#100000000000000000000000000000; 481244669058742571216756392183#5000000000000000000000000000000; -103442766767566431388674762321#10000000000000000000000000000; -259772774629732852847083885323#100000000000000000000000000000; 255571177445599178571884809579#1000000000000000000000000000000; 0#1; 0#1];
   [-135769285555186849895417607979#100000000000000000000000000000; 0#1; -51848880697594401985846769119#10000000000000000000000000000; -944146275842569180247520769719#1000000000000000000000000000000; 2315809227161911032629605067#400000000000000000000000000; -35133252893728153033774016703#400000000000000000000000000000; -53269980917879320756691248069#10000000000000000000000000000; -329419214246872762413611365341#100000000000000000000000000000; 28499927232121346916609110017#4000000000000000000000000000; 105823546498322936130817132067#25000000000000000000000000000; -101048908671370078060301040023#250000000000000000000000000000; 452499466462306516458275969143#1000000000000000000000000000000; 0#1]].
(* prince.py:283-284 *)
Definition Pr8_C : list Q :=
  [0#1; 7#75; 7#50; 7#25; 7#25; 19#40; 19#40; 7#50; 2#25; 8#15; 4#5; 22#25; 1#1].
(* prince.py:286-295 *)
Definition Pr8_B : list Q :=
  [101794429109647960346134352579#10000000000000000000000000000000; 0#1; 0#1; 0#1; 342368385444252768240392979897#1000000000000000000000000000000; 0#1; -293579170210195254952533184107#1000000000000000000000000000000; -995353542504925310796528261447#10000000000000000000000000000000; 207437934572206346408597479637#1000000000000000000000000000000; 135755300310193653291374092451#250000000000000000000000000000; 107235531414217311653209089107#1000000000000000000000000000000; 72270369097143788501813193171#500000000000000000000000000000; 38331290683984373526250270207#1000000000000000000000000000000].
(* prince.py:297-305 *)
Definition Pr8_E : list Q :=
  [-693087687114485050031292475821#10000000000000000000000000000000; 0#1; 0#1; 0#1; -1491378921691039360927730185887#1000000000000000000000000000000; 0#1; 4073327783436378862570459081297#1000000000000000000000000000000; 8481058377001087364470195818907#10000000000000000000000000000000; -1899802077936637448089639636989#10000000000000000000000000000000; -887869777341841508726807945461#250000000000000000000000000000; 863585415305301997159453172379#1000000000000000000000000000000; -272270369097143788501813193171#500000000000000000000000000000; 61668709316015626473749729793#1000000000000000000000000000000; 0#1].
(* prince.py:307-372 *)
Definition Pr8_P : list (list Q) :=
  [[1#1; -141239093743887554093438640359#10000000000000000000000000000; 42008383097848229015730793423#500000000000000000000000000; -62770999366752746212117149827#250000000000000000000000000; 386512292414528095658571249453#1000000000000000000000000000; -145574427119244269139310717071#500000000000000000000000000; 212094704781436724106089186553#2500000000000000000000000000];
   [0#1; 0#1; 0#1; 0#1; 0#1; 0#1; 0#1];
   [0#1; 0#1; 0#1; 0#1; 0#1; 0#1; 0#1];
   [0#1; 0#1; 0#1; 0#1; 0#1; 0#1; 0#1];
   [0#1; 510665844292158893795819184009#100000000000000000000000000000; -400124279090280806878089311459#10000000000000000000000000000; 184440467426588995836723836551#1000000000000000000000000000; -378973592698221239000827838379#1000000000000000000000000000; 85384695309072409482652920837#250000000000000000000000000; -55878759056553325124208274617#500000000000000000000000000];
   [0#1; 0#1; 0#1; 0#1; 0#1; 0#1; 0#1];
   [0#1; -10375742813476985509397251817#5000000000000000000000000000; -992180312887292232371883540967#100000000000000000000000000000; 462799082458947267661866194021#5000000000000000000000000000; -107989748810194405272146083423#500000000000000000000000000; 101143723451453284255534739223#500000000000000000000000000; -134328786505898174657009595631#2000000000000000000000000000];
   [0#1; -42836772708397144318809389521#2000000000000000000000000000; 11271912832624299146181512947#50000000000000000000000000; -884829314979143198157611115581#1000000000000000000000000000; 78730428401646131782888937961#50000000000000000000000000; -129008703344712019545777930343#100000000000000000000000000; 396188374740802854662306442791#1000000000000000000000000000];
   [0#1; 157590267662526705686789233827#5000000000000000000000000000; -271413850918964647969857885217#1000000000000000000000000000; 952348654179583905315594876659#1000000000000000000000000000; -79637117675523975190141289601#50000000000000000000000000; 62897797301877231113818472173#50000000000000000000000000; -37745901138561751061022989217#100000000000000000000000000];
   [0#1; 482850767611133451223603182801#500000000000000000000000000000; 129274299904241623819239369537#10000000000000000000000000000; -100480323438077279181257364969#1000000000000000000000000000; 61458558870994900371372755463#250000000000000000000000000; -242964579882849927174983253853#1000000000000000000000000000; 842605575125419501995439500197#10000000000000000000000000000];
   [0#1; 835557991425411575752552757343#10000000000000000000000000000000; -76397817694155531077053817103#200000000000000000000000000000; 34193592342458696631246792243#20000000000000000000000000000; -528883927213581506454906269727#100000000000000000000000000000; 182736644274318791241209253631#25000000000000000000000000000; -332463729521741760719842416123#100000000000000000000000000000];
   [0#1; -633380888284421342020961449909#10000000000000000000000000000000; -109526815610176510133599623253#100000000000000000000000000000; 215476662403099774653624004451#25000000000000000000000000000; -230612339267248796358151679261#10000000000000000000000000000; 32468520751233838035719132097#1250000000000000000000000000; -12786877734077108707954223957#1250000000000000000000000000];
   [0#1; -284608939125612693786991431373#1000000000000000000000000000000; 53736114363848304225453599559#12500000000000000000000000000000; 260168628244223300025276730007#50000000000000000000000000000; -73442833310705690966124669367#5000000000000000000000000000; 154411838034484010111998278429#10000000000000000000000000000; -281867418276561980775261157799#50000000000000000000000000000];
   [0#1; 145711004722520681639298244677#500000000000000000000000000000; 438587473682482536753098062593#1000000000000000000000000000000; -424371044593114215778385327383#50000000000000000000000000000; 237789877586610534396939312211#10000000000000000000000000000; -65767931959225977240225293741#2500000000000000000000000000; 10285596433764097871932198271#1000000000000000000000000000]].

(** ** Pr9, prince.py *)
Definition Pr9_order : nat := 9. (* prince.py:449 *)
Definition Pr9_order_secondary : nat := 7. (* prince.py:450 *)
Definition Pr9_n_stages : nat := 17. (* prince.py:451 *)
(* prince.py:452-452 *)
Definition Pr9_tanang : Q :=
  15#2.
(* prince.py:453-453 *)
Definition Pr9_stbrad : Q :=
  23#5.
(* prince.py:456-608 *)
Definition Pr9_A : list (list Q) :=
  [[0#1; 0#1; 0#1; 0#1; 0#1; 0#1; 0#1; 0#1; 0#1; 0#1; 0#1; 0#1; 0#1; 0#1; 0#1; 0#1; 0#1];
   [12962962962962962962962962963#125000000000000000000000000000; 0#1; 0#1; 0#1; 0#1; 0#1; 0#1; 0#1; 0#1; 0#1; 0#1; 0#1; 0#1; 0#1; 0#1; 0#1; 0#1];
   [388888888888888888888888888889#10000000000000000000000000000000; 116666666666666666666666666667#1000000000000000000000000000000; 0#1; 0#1; 0#1; 0#1; 0#1; 0#1; 0#1; 0#1; 0#1; 0#1; 0#1; 0#1; 0#1; 0#1; 0#1];
   [38888888888888888888888888889#250000000000000000000000000000; -466666666666666666666666666667#1000000000000000000000000000000; 311111111111111111111111111111#500000000000000000000000000000; 0#1; 0#1; 0#1; 0#1; 0#1; 0#1; 0#1; 0#1; 0#1; 0#1; 0#1; 0#1; 0#1; 0#1];
   [518518518518518518518518518519#10000000000000000000000000000000; 0#1; 207407407407407407407407407407#1000000000000000000000000000000; 518518518518518518518518518519#10000000000000000000000000000000; 0#1; 0#1; 0#1; 0#1; 0#1; 0#1; 0#1; 0#1; 0#1; 0#1; 0#1; 0#1; 0#1];
   [35976001511715797430083144369#25000000000000000000000000000; -429081632653061224489795918367#100000000000000000000000000000; 279697656840513983371126228269#100000000000000000000000000000; -379589677140697548860814166937#100000000000000000000000000000; 112378522837706511175898931001#25000000000000000000000000000; 0#1; 0#1; 0#1; 0#1; 0#1; 0#1; 0#1; 0#1; 0#1; 0#1; 0#1; 0#1];
   [57813681027966742252456538171#500000000000000000000000000000; 0#1; -209484298770013055727341441627#5000000000000000000000000000000; -102048779829392074290033473707#100000000000000000000000000000; 29627065111758989310009718173#20000000000000000000000000000; 109848484848484848484848484849#1000000000000000000000000000000; 0#1; 0#1; 0#1; 0#1; 0#1; 0#1; 0#1; 0#1; 0#1; 0#1; 0#1];
   [601213282247765006385696040869#10000000000000000000000000000000; 0#1; 58038720538720538720538720539#500000000000000000000000000000; -408333333333333333333333333333#10000000000000000000000000000000; 187962962962962962962962962963#10000000000000000000000000000000; 47482112377574129456808806789#6250000000000000000000000000000; -620331469003684620014386165793#100000000000000000000000000000000; 0#1; 0#1; 0#1; 0#1; 0#1; 0#1; 0#1; 0#1; 0#1; 0#1];
   [150374818569669247009148486981#2000000000000000000000000000000; 0#1; 19286108747670644657398518999#6250000000000000000000000000; 51388512169946864755968600337#50000000000000000000000000000; -176293943981111874800251164949#250000000000000000000000000000; -69694634536499601685641631109#2500000000000000000000000000000; 285805153481527740360777028619#1000000000000000000000000000000; -74787164401338886607330625161#25000000000000000000000000000; 0#1; 0#1; 0#1; 0#1; 0#1; 0#1; 0#1; 0#1; 0#1];
   [35709609429978888106966924701#2000000000000000000000000000000; 0#1; 516426091974317668823733047791#100000000000000000000000000000000; -171840658648245842348302002463#50000000000000000000000000000000; 232372133623022296941501964109#100000000000000000000000000000000; 514201281710644115584844336227#1000000000000000000000000000000000; -433506924343872955710236185757#1000000000000000000000000000000000; -49666703884117450601109514267#25000000000000000000000000000000; 0#1; 0#1; 0#1; 0#1; 0#1; 0#1; 0#1; 0#1; 0#1];
   [-118757288815909505564677978471#100000000000000000000000000000; 0#1; 113239724969350324395658487817#1000000000000000000000000000000; 415212324887617856117414455329#10000000000000000000000000000000; 655529796136042083177053423077#1000000000000000000000000000000; -35921334344221182305981771601#25000000000000000000000000000000; 50120866241769657823310092071#10000000000000000000000000000000; -88487934915548380623853575047#125000000000000000000000000000; 143786921961965595659720627917#500000000000000000000000000000; 33214064067633105286205774023#20000000000000000000000000000; 0#1; 0#1; 0#1; 0#1; 0#1; 0#1; 0#1];
   [29326637612934925469041347559#1000000000000000000000000000000; 0#1; 14228023709859329686352505399#62500000000000000000000000000; 642188982905375335427504387651#10000000000000000000000000000000; 454015730358590118030630636463#10000000000000000000000000000000; -794683657147007110737301019097#1000000000000000000000000000000000; 4972247029661950409712709001#2000000000000000000000000000000; -7637749732660215621222772163#200000000000000000000000000000; -635233112974332282906394142683#1000000000000000000000000000000000; 19085658513444185311503915701#625000000000000000000000000000; 0#1; 0#1; 0#1; 0#1; 0#1; 0#1; 0#1];
   [-12176278536711024147827189401#200000000000000000000000000000; 0#1; -443438802229705377088167804351#100000000000000000000000000000000; 97184052482574110191941079351#2000000000000000000000000000000; -123883926446739678566391896451#1000000000000000000000000000000; -270270531489075422255584605643#50000000000000000000000000000000; 55595083735777338840087174121#25000000000000000000000000000000; 9946096922559635360545657587#250000000000000000000000000000; 400102754975348157308270345129#1000000000000000000000000000000000; 8718640110113786371281610909#62500000000000000000000000000; 27956289582392329542340374809#250000000000000000000000000000000; 29616413032193205054509622737#500000000000000000000000000000; 0#1; 0#1; 0#1; 0#1; 0#1];
   [-54147442204788723287261786771#5000000000000000000000000000; 0#1; -458555384056239216218818778683#10000000000000000000000000000; -26438689494374132167798557817#2000000000000000000000000000; 305914618343960445376558308999#10000000000000000000000000000; 190922815696523943781555810831#1000000000000000000000000000000; -188814404888067339077866227303#100000000000000000000000000000; 2120320047452681450999642799#100000000000000000000000000; 39593523129210857452032224201#25000000000000000000000000000; 50717035483462977469932823883#5000000000000000000000000000; -46952944851860889957150137327#125000000000000000000000000000; -42935757564857296045563543771#5000000000000000000000000000; 43828616142110570470423266751#2500000000000000000000000000; 0#1; 0#1; 0#1; 0#1];
   [123847409176679080375217053279#100000000000000000000000000000; 0#1; 109333898278372589827844780651#100000000000000000000000000000; 331536159352838127791365049203#1000000000000000000000000000000; -104968074969306530601478253043#50000000000000000000000000000; -632995160818675610148594925667#100000000000000000000000000000000; 426701326446042064152854093079#5000000000000000000000000000000; -356783297744873131792793750559#5000000000000000000000000000000; -9595203030587139849125414077#400000000000000000000000000000; -33036369315431829272414550153#20000000000000000000000000000; 66245576312291875410038570643#10000000000000000000000000000000; 158274616357353025449630677489#100000000000000000000000000000; 35453589704219972611152342181#250000000000000000000000000000; 467182052039254811752011582037#50000000000000000000000000000000; 0#1; 0#1; 0#1];
   [-34570976685429981296166957471#2000000000000000000000000000; 0#1; -851259795469259804679437273731#100000000000000000000000000000; -140275891247837684961805993661#50000000000000000000000000000; 175959502229156965358743845761#5000000000000000000000000000; 736701829077372132621075400047#10000000000000000000000000000000; -3114613676701734020916130937#2500000000000000000000000000; 634431710970183708662917963423#1000000000000000000000000000000; -299382194728825930237778557253#100000000000000000000000000000; 258384480400235896878583385841#10000000000000000000000000000; 95056382793035452246930282763#125000000000000000000000000000; -272531371870126046405092063507#10000000000000000000000000000; -766905838615669874875007702991#100000000000000000000000000000; -430717080246156504921654666097#10000000000000000000000000000000; 1560742678195840094608853993#250000000000000000000000000; 0#1; 0#1];
   [59588151775284197727788376873#2500000000000000000000000000; 0#1; 77738756188986200797865735259#10000000000000000000000000000; 257266456224187218683628421487#100000000000000000000000000000; -213650644666269814104752215077#5000000000000000000000000000; -684309506233548912384135730021#10000000000000000000000000000000; 65225574830254810423448150701#50000000000000000000000000000; 334387872500134107823468680391#100000000000000000000000000000; 36359447411460638447895722957#12500000000000000000000000000; -87966961317853459939221213091#2500000000000000000000000000; -99890744535759211065253046051#250000000000000000000000000000; 41896877336206606661700922323#1250000000000000000000000000; 248307880942053226108210591581#25000000000000000000000000000; 418890535438977240821677452707#5000000000000000000000000000000; -299324905754581292039809180251#50000000000000000000000000000; 988633847406948308075244574403#10000000000000000000000000000000; 0#1]].
(* prince.py:610-611 *)
Definition Pr9_C : list Q :=
  [0#1; 14#135; 7#45; 14#45; 14#45; 29#45; 29#45; 7#45; 3#4; 1#50; 13#15; 9#25; 2#21; 22#45; 7#11; 14#15; 1#1].
(* prince.py:613-625 *)
Definition Pr9_B : list Q :=
  [153899635237706180368959766433#5000000000000000000000000000000; 0#1; 0#1; 0#1; 0#1; 0#1; 0#1; 927611792928056326667152622109#10000000000000000000000000000000; 122968704959599330688571533231#10000000000000000000000000000000; 0#1; 77216259832560767754789962011#500000000000000000000000000000; 131490918184545408923544435653#500000000000000000000000000000; 27190326299229955107821437271#250000000000000000000000000000; 36779163552530693638783275279#6250000000000000000000000000000; 13013540099944286438948936639#50000000000000000000000000000; 429012449776118791099335675107#10000000000000000000000000000000; 144648243938292527657817312159#5000000000000000000000000000000].
(* prince.py:627-641 *)
Definition Pr9_E : list Q :=
  [-99044040390742243358608431481#625000000000000000000000000000; 0#1; 0#1; 0#1; -19#20; 0#1; 1#40; 3282067537372393266555807774651#10000000000000000000000000000000; 4610410597743072421533856372099#10000000000000000000000000000000; 1#4; -395236160271094822369278520569#2000000000000000000000000000000; 460615870831599283393776091537#500000000000000000000000000000; -261107338245073333222761084961#1000000000000000000000000000000; 1101828733894713141697739073563#50000000000000000000000000000000; -474133550652477344886652896083#1000000000000000000000000000000; 114477430208158262396442880029#10000000000000000000000000000000; 27956950981038067497136330591#1250000000000000000000000000000; 0#1].
(* prince.py:643-746 *)
Definition Pr9_P : list (list Q) :=
  [[1#1; -277735116893550678899410577323#10000000000000000000000000000; 786436839430605088434126703#3125000000000000000000000; -108626391924281399602886402221#100000000000000000000000000; 50671307984977108588059209171#20000000000000000000000000; -324230250171399947308061311167#100000000000000000000000000; 6657977653488222618129484043#3125000000000000000000000; -560407324409664217267823913703#1000000000000000000000000000];
   [0#1; 0#1; 0#1; 0#1; 0#1; 0#1; 0#1; 0#1];
   [0#1; 0#1; 0#1; 0#1; 0#1; 0#1; 0#1; 0#1];
   [0#1; 0#1; 0#1; 0#1; 0#1; 0#1; 0#1; 0#1];
   [0#1; -23739472975839810592168501141#2000000000000000000000000000; 102459915482709922665427835603#1000000000000000000000000000; -116095838290346893556824162957#1000000000000000000000000000; -26825599062262896053194867807#40000000000000000000000000; 97241860785834517462491777443#50000000000000000000000000; -23180653838603826272917412937#12500000000000000000000000; 757200909029681287626137199#1250000000000000000000000];
   [0#1; 0#1; 0#1; 0#1; 0#1; 0#1; 0#1; 0#1];
   [0#1; 132691776965844682509282397381#500000000000000000000000000000; -96239305883473270632919186797#25000000000000000000000000000; 198583488086398818369789716893#10000000000000000000000000000; -489425851614840465067296601841#10000000000000000000000000000; 19552502438575411565726284811#312500000000000000000000000; -200430477519427519559513402023#5000000000000000000000000000; 101865127346955930316274601813#10000000000000000000000000000];
   [0#1; 410881688594931446561283260961#1000000000000000000000000000000; 156010000516331407551199824847#5000000000000000000000000000; -124853850656337494829799217443#500000000000000000000000000; 778195589210511825395485214743#1000000000000000000000000000; -58600538960259603980013737327#50000000000000000000000000; 212633098703997522620813446519#250000000000000000000000000; -59632406030300813485750088091#250000000000000000000000000];
   [0#1; 414906689983933914089354123183#100000000000000000000000000000; -7525135376526503640316532873#125000000000000000000000000; 31340256450693611124013315901#100000000000000000000000000; -781911886672181247720231054571#1000000000000000000000000000; 101249775080717639184821281449#100000000000000000000000000; -328330355499780847632207088277#500000000000000000000000000; 16873659534049908981100683653#100000000000000000000000000];
   [0#1; 135043979487129440257398047653#5000000000000000000000000000; -19268761716685428930719818249#62500000000000000000000000; 144655177948042279851428814073#100000000000000000000000000; -87925043527596892864043183089#25000000000000000000000000; 460841657049002751224578802649#100000000000000000000000000; -307258687363984008871483884247#100000000000000000000000000; 815911656342806467356527481271#1000000000000000000000000000];
   [0#1; -6725475925072796910705483211#3125000000000000000000000000; 314196745583973862967039208679#10000000000000000000000000000; -1033311569012025316576070749#6250000000000000000000000; 83682861010061916683777434391#200000000000000000000000000; -138414395443889793418924452177#250000000000000000000000000; 370441653709359610572530943729#1000000000000000000000000000; -494908078424474697066587867263#5000000000000000000000000000];
   [0#1; 23066999450989358407920619263#2000000000000000000000000000; -118814083869203384405600072643#1000000000000000000000000000; 308134567500691900387880121103#1000000000000000000000000000; 116718176013094651537567503791#5000000000000000000000000000; -966772385163294883072158319407#1000000000000000000000000000; 28948721759999173675431771713#25000000000000000000000000; -415111121959905098621019319093#1000000000000000000000000000];
   [0#1; 107818271060171647762711308899#50000000000000000000000000000; 223094376381637869726414340883#10000000000000000000000000000; -53715172909019702406974249177#250000000000000000000000000; 21175674135374670623953868559#31250000000000000000000000; -5070133486675086626747201851#5000000000000000000000000; 731016153941917335279615104043#1000000000000000000000000000; -25513422382122620047033238193#125000000000000000000000000];
   [0#1; 508899586642482571660412314383#10000000000000000000000000000000; -742202087910459104358965739767#1000000000000000000000000000000; 442595830228471928946003912407#100000000000000000000000000000; -124465247279828531500574820871#10000000000000000000000000000; 36041156981985133677423727197#2000000000000000000000000000; -1011927186739172353002751057#78125000000000000000000000; 91246318009539722462398068161#25000000000000000000000000000];
   [0#1; -221500736072646133466397097477#50000000000000000000000000000; 621578560270965455283632655849#10000000000000000000000000000; -153838440182214052788647973697#500000000000000000000000000; 715128713595346851864396276583#1000000000000000000000000000; -105237695350236857071300254779#125000000000000000000000000; 121749370221171868515295547481#250000000000000000000000000; -13751915227169512613517103223#125000000000000000000000000];
   [0#1; 319873195675099914752833543441#500000000000000000000000000000; -892447331136320993314728274381#100000000000000000000000000000; 439375977273632452580211911017#10000000000000000000000000000; -50027698761437990796001818469#500000000000000000000000000; 113223500868691469540904428159#1000000000000000000000000000; -609041019096722296163008301721#10000000000000000000000000000; 60630145007420591960651985371#5000000000000000000000000000];
   [0#1; -68587303713182968689084668001#2000000000000000000000000000000; 51131996394755041261341292247#50000000000000000000000000000; -767553082732108617644153808883#100000000000000000000000000000; 287682707734889980917298956223#10000000000000000000000000000; -109060940026013616476247478449#2000000000000000000000000000; 487822504767962797310095764161#10000000000000000000000000000; -20379921296510292804406143467#1250000000000000000000000000];
   [0#1; 45079310103374101284304267947#1000000000000000000000000000000; -69985518616388790752567417627#50000000000000000000000000000; 14124495486561593440413499159#1250000000000000000000000000; -440393736681488335868754595851#10000000000000000000000000000; 856383538309449928529333409909#10000000000000000000000000000; -393144481067109747435062921901#5000000000000000000000000000; 135424753618004585911954738659#5000000000000000000000000000]].

(** ** Ts5, tsitouras.py *)
Definition Ts5_order : nat := 5. (* tsitouras.py:83 *)
Definition Ts5_order_secondary : nat := 4. (* tsitouras.py:84 *)
Definition Ts5_n_stages : nat := 6. (* tsitouras.py:85 *)
(* tsitouras.py:86-86 *)
Definition Ts5_tanang : Q :=
  3#1.
(* tsitouras.py:87-87 *)
Definition Ts5_stbrad : Q :=
  7#2.
(* tsitouras.py:90-90 *)
Definition Ts5_C : list Q :=
  [0#1; 161#1000; 327#1000; 9#10; 9800255409045097#10000000000000000; 1#1].
(* tsitouras.py:91-100 *)
Definition Ts5_A : list (list Q) :=
  [[0#1; 0#1; 0#1; 0#1; 0#1; 0#1];
   [161#1000; 0#1; 0#1; 0#1; 0#1; 0#1];
   [-8480655492357#1000000000000000; 335480655492357#1000000000000000; 0#1; 0#1; 0#1; 0#1];
   [1448576528552747#500000000000000; -254377939599003#40000000000000; 4362295432869581#1000000000000000; 0#1; 0#1; 0#1];
   [106517296568785179#20000000000000000; -1174888356406283#100000000000000; 1873884835722459#250000000000000; -369980265447021#4000000000000000; 0#1; 0#1];
   [293072772147321019#50000000000000000; -1292096931784711#100000000000000; 8159367898576159#1000000000000000; -71584973281401#1000000000000000; -1413452519703419#50000000000000000; 0#1]].
(* tsitouras.py:101-103 *)
Definition Ts5_B : list Q :=
  [9646076681806523#100000000000000000; 1#100; 1199724126036249#2500000000000000; 689504287051871#500000000000000; -3290069515436081#1000000000000000; 1162355262049887#500000000000000].
(* tsitouras.py:104-107 *)
Definition Ts5_E : list Q :=
  [890005526113#500000000000000; 816434459657#1000000000000000; -3940439005131#500000000000000; 144711007173263#1000000000000000; -116471433090511#200000000000000; 458082105929187#1000000000000000; -1#66].
(* tsitouras.py:108-115 *)
Definition Ts5_P : list (list Q) :=
  [[1#1; -1381853098637413#500000000000000; 14566277309109563#5000000000000000; -1316360622161277#1250000000000000];
   [0#1; 6584999999999999#50000000000000000; -1117#5000; 1017#10000];
   [0#1; 3930296236894751#1000000000000000; -1188206774426301#200000000000000; 2490627285651253#1000000000000000];
   [0#1; -3102769291733419#250000000000000; 15169094315141159#500000000000000; -8274051444622451#500000000000000];
   [0#1; 117216604426597#3125000000000; -55111815559229#625000000000; 592244024535241#12500000000000];
   [0#1; -13948263144598643#500000000000000; 813648683434921#12500000000000; -3487065786149661#100000000000000];
   [0#1; 3#2; -4#1; 5#2]].


