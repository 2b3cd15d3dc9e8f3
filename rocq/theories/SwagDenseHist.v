(** Dense output of SWAG in exact arithmetic, after a run. *)
From Coquelicot Require Import Coquelicot.
From Coq Require Import String ZArith Reals Lra Psatz QArith Qreals Bool Lia List Arith.
From Verif Require Import Arith Common Stiff RK HStart RKInit Ode RX RKReal RKInitReal NormReal Series OrderModel DenseReal Swag SwagArr SwagCo SwagGen SwagTop SwagReal Adams SwagHist SwagDense SwagDenseGen SwagDenseReal.
Import ListNotations.
Close Scope string_scope. Open Scope nat_scope. Open Scope R_scope.

(** *** real values of the table *)
Lemma npw_fin s i : npw (A := RX) (Fin s) i = Fin (s ^ (i + 1)).
Proof. induction i as [|i IH]; cbn [npw]; [f_equal; cbn; ring|]. rewrite IH, finmul. f_equal. cbn [Nat.add pow]. ring. Qed.
Lemma iqq_fin i : iqq (A := RX) i = Fin (1 / (INR (i + 1) * (INR (i + 1) + 1))).
Proof. unfold iqq. rewrite nofnat_RX, n1_RX, finadd, finmul, findiv; [reflexivity|]. pose proof (pos_INR (i + 1)). pose proof (not_0_INR (i + 1) ltac:(lia)). nra. Qed.
Lemma Wx_fin al ar s l i : (forall j, (1 <= j <= l)%nat -> al j = Fin (ar j)) -> Wx (A := RX) al (Fin (s - 1)) (row0 (A := RX) (Fin s)) l i = Fin (rWx ar s l i).
Proof.
  revert i. induction l as [|l IH]; intros i H.
  - cbn [Wx rWx]. unfold row0. rewrite npw_fin, iqq_fin, !finmul. f_equal. replace (i + 2)%nat with (S (i + 1)) by lia. cbn [pow]. unfold Rdiv. ring.
  - cbn [Wx rWx]. rewrite !IH by (intros; apply H; lia). rewrite H by lia. rewrite n1_RX, !finmul, finadd, finmul, finsub. reflexivity.
Qed.
Lemma gx_fin al ar s l : (forall j, (1 <= j < l)%nat -> al j = Fin (ar j)) -> gx (A := RX) al (Fin s) l = Fin (gxr ar s l).
Proof.
  intros H. destruct l as [|[|l]]; [reflexivity| |].
  - cbn [gx gxr]. rewrite half_RX, !finmul. reflexivity.
  - cbn [gx gxr]. rewrite n1_RX, finsub. apply Wx_fin. intros; apply H; lia.
Qed.
Lemma gdi_fin kmax (co : Co RX) ar k : codone kmax co k -> (1 <= k <= kmax)%nat -> (forall j, (j < k)%nat -> cellx (alpha co) j = Fin (ar j)) -> swag_gdi kmax co k = inl (Fin (Wr ar (k - 1) 1)).
Proof.
  intros C Hk H. destruct (swag_gdi_inv (fun i g => g = Fin (Wr ar (i - 1) (k + 1 - i))) kmax co k C Hk) as (r & E & P).
  - intros i Hi. apply W_fin. intros j Hj. apply H. lia.
  - intros i x Hi ->. rewrite (W_fin _ ar) by (intros j Hj; apply H; lia). rewrite H by lia. change (nopp RX (Fin (ar i))) with (Fin (- ar i)). rewrite finmul, finadd. f_equal.
    replace (S i - 1)%nat with (S (i - 1)) by lia. cbn [Wr]. replace (S (i - 1)) with i by lia. replace (k + 1 - S i)%nat with (k - i)%nat by lia. replace (k - i + 1)%nat with (k + 1 - i)%nat by lia. ring.
  - rewrite E, P. do 3 f_equal. lia.
Qed.

(** *** one output point *)
Record dense_data (kmax : nat) (n : nat) (F : R -> list R -> list R) (s : SSt RX) (ps : pts_t) (h : R) (k : nat) (yr : list R) : Prop := {
  dd_k : k = s_kold s; dd_ready : dense_ready kmax s; dd_t : s_t s = Fin (pt ps 0 + h);
  dd_y : s_y s = map Fin yr /\ length yr = n; dd_oy : s_yold s = map Fin (py ps 0) /\ length (py ps 0) = n;
  dd_co : coreal (s_co s) ps h k; dd_phi : forall i, (i <= k)%nat -> reals n (colx (s_phi s) i) (mdd F ((pt ps 0 + h, yr) :: ps) i) }.

Lemma dense_point kmax n F s ps h k yr d g x : dense_data kmax n F s ps h k yr -> d = 1 \/ d = -1 -> decr d ps -> 0 < d * h -> (k <= length ps)%nat ->
  exists D, swag_dense_impl kmax (Fin (pt ps 0)) s = inl (SDSwag D) /\ sd_kold D = k /\
    (length g = (k + 1)%nat -> exists yv g', sd_point D g (Fin x) = inl (yv, g') /\ length g' = (k + 1)%nat /\ reals n yv (fun q => peval (Pp F ps h k q yr) x)).
Proof.
  intros [Ek RD Et [Ey Ly] [Eo Lo] CR PH] Hd DC Hh Hkl. destruct (dense_impl_ok kmax (Fin (pt ps 0)) s RD) as (D & E & Eg & D1 & D2 & D3 & D4 & D5 & D6 & D7 & D8 & D9).
  exists D. split; [exact E|]. split; [congruence|]. intros Lg. pose proof (sdat_ready _ _ _ _ RD E) as SK. destruct RD as [Hk Lp C]. rewrite <- Ek in *.
  set (ar := fun j => h / (pt ps 0 + h - pt ps j)).
  assert (AL : forall j, (j < k)%nat -> cellx (alpha (s_co s)) j = Fin (ar j)) by (intros j Hj; apply (cr_alpha _ _ _ _ CR); exact Hj).
  assert (GD : sd_gdi D = Fin (Wr ar (k - 1) 1)). { rewrite (gdi_fin kmax (s_co s) ar k C Hk AL) in Eg. injection Eg; auto. }
  assert (Nh : h <> 0) by (intros ->; lra).
  pose proof (gdi_pos d F ps h k 0%nat yr Hd DC Hh ltac:(lia)) as GP. fold ar in GP.
  destruct (sd_point_ok D _ g (Fin x) SK ltac:(rewrite D5; exact Lg)) as (g' & Lg' & EP). rewrite D5 in *.
  eexists. exists g'. split; [exact EP|]. split; [exact Lg'|]. clear EP.
  rewrite D1, D2, D3, D4, Et, Ey, Eo, GD. rewrite !finsub. replace (pt ps 0 + h - pt ps 0) with h by lra. rewrite (findiv _ h Nh). set (sx := (x - pt ps 0) / h).
  rewrite !n1_RX, !finsub. rewrite !(Wx_fin _ ar) by (intros j Hj; apply AL; lia). rewrite !finmul, !finsub, findiv by lra. 
  set (sg := (rWx ar sx (k - 1) 1 - (sx - 1) * rWx ar sx (k - 1) 0) / Wr ar (k - 1) 1).
  assert (ESg : sg = sig_at ps h k sx) by reflexivity.
  match goal with |- context [lincomb _ ?c _] => assert (EC : c = map Fin (map (fun i => gxr ar sx i - pred0 (gxr ar sx) i - sg * (gr ar i - pred0 (gr ar) i)) (seq 0 (k + 1)))) end.
  { rewrite map_map. apply map_ext_in. intros i Hi. apply in_seq in Hi.
    assert (GG : forall j, (j <= k)%nat -> cellx (gg (s_co s)) j = Fin (gr ar j)) by (intros j Hj; rewrite (cd_g _ _ _ C) by lia; apply gref_fin; intros l Hl; apply AL; lia).
    assert (LG : length (gg (s_co s)) = (kmax + 1)%nat) by (apply (len_g _ _ (proj1 (cd_base _ _ _ C)))).
    rewrite D8, diff0_nth by (rewrite len_sl; lia). rewrite (gx_fin _ ar) by (intros l Hl; apply AL; lia). rewrite nth_sl by lia. cbn [Nat.add]. rewrite GG by lia.
    destruct i as [|i]; cbn [pred0].
    - rewrite n0_RX, !finsub, finmul, finsub. reflexivity.
    - rewrite (gx_fin _ ar) by (intros l Hl; apply AL; lia). rewrite nth_sl by lia. cbn [Nat.add]. rewrite GG by lia. rewrite !finsub, finmul, finsub. reflexivity. }
  rewrite EC. rewrite map_length, Ly.
  assert (RK : realsK n (sd_phi D) (fun i => mdd F ((pt ps 0 + h, yr) :: ps) i)).
  { intros i Hi. rewrite D6, len_sl in Hi by lia. rewrite D6, nth_sl by lia. cbn [Nat.add]. apply PH. lia. }
  assert (LP : length (sd_phi D) = (k + 1)%nat) by (rewrite D6, len_sl; lia).
  eapply reals_ext; [apply reals_add; [apply reals_scale; apply (lincomb_reals n _ _ _ RK)|apply reals_add; apply reals_scale; [apply (reals_intro n yr Ly)|apply (reals_intro n _ Lo)]]|].
  intros q Hq. cbv beta. rewrite LP. rewrite <- (U_poly d F ps h k q yr Hd DC Hh ltac:(lia) x). fold sx. unfold U_at. fold ar. rewrite <- ESg. f_equal. f_equal. apply rsum_ext. intros i Hi. rewrite nth_map_seq_gen by lia. reflexivity.
Qed.

(** *** the data after a step *)
Lemma accept_dense c d n F s ps h co phi p yp wt e knew x cl s' yr : lifts n F (s_fn c) -> ghost d n F s ps -> s_h s = Fin h -> 0 < d * h -> sinv c s -> trial_data c s co phi p yp wt e knew ->
  x = nadd RX (s_t s) (s_h s) -> accept_spec c s co phi p yp wt (s_k s) x (s_h s) cl s' -> s_y s' = map Fin yr -> length yr = n -> sinv c s' ->
  dense_data (s_kmax c) n F s' ps h (s_k s) yr.
Proof.
  intros HL GH Eh Hh SI TD Ex AS Ey Ly SI'. destruct (trial_real c d n F s ps h co phi p yp wt e knew GH Eh Hh SI TD) as (CR & PH & ST & RP & GG & EQ1 & EQ2).
  destruct GH as [G1 G2 [G3 G3'] G4 G5 G6 G7 G8 G9]. destruct (si_co _ _ SI) as (_ & Hk & _).
  set (t1 := pt ps 0 + h) in *. assert (Ex1 : x = Fin t1) by (rewrite Ex, G2, Eh; reflexivity).
  destruct AS as [A1 A2 A3 A4 A5 A6 A7 A8 A9 A10 A11 A12 A13 A14 A15].
  destruct (HL t1 yr Ly) as (Lgy & Egy).
  assert (P0 := PH 0%nat ltac:(lia)).
  assert (Eyp' : s_yp s' = map Fin (F t1 yr)) by (rewrite A8, Ex1, Ey; exact Egy).
  assert (RKk : forall i, (i <= s_k s)%nat -> forall q, nth q (F t1 yr) 0 - rsum i (fun l => sdd F ps t1 l q) = mdd F ((t1, yr) :: ps) i q).
  { intros i Hi q. unfold mdd. rewrite dd_cons, pback_cons. cbn [fst snd]. symmetry. apply newton_rem. intros j Hj E. pose proof (decr_new d ps h j G4 Hh ltac:(lia)) as X. fold t1 in X. rewrite E in X. replace (pt ps j - pt ps j) with 0 in X by lra. lra. }
  assert (Ck : reals n (colx (s_phi s') (s_k s)) (mdd F ((t1, yr) :: ps) (s_k s))).
  { rewrite A10, Eyp'. eapply reals_ext; [apply reals_sub; [apply (reals_intro n (F t1 yr) Lgy)|exact P0]|]. intros q Hq. cbn beta. cbn [rsum]. rewrite <- RKk by lia. ring. }
  constructor.
  - symmetry. exact A5.
  - constructor; [rewrite A5; exact Hk|exact (si_phi _ _ SI')|]. rewrite A5, A6. exact (td_done _ _ _ _ _ _ _ _ _ TD).
  - rewrite A1, Ex1. reflexivity.
  - auto.
  - rewrite A3. auto.
  - rewrite A6. exact CR.
  - intros i Hi. destruct (Nat.eq_dec i (s_k s)) as [->|N]; [exact Ck|]. rewrite A11 by lia. eapply reals_ext; [apply reals_add; [apply PH; lia|exact Ck]|]. intros q Hq. cbn beta. fold t1. rewrite <- !RKk by lia. ring.
Qed.

Lemma step_dense c tb d n F s t h ps fuel s' t' : lifts n F (s_fn c) -> scfg c tb d -> hinv c d s t h -> 0 < d * (tb - t) -> ghost d n F s ps ->
  smin t < Rabs (tb - t) -> swag_step fuel c s = IDone s' -> s_t s' = Fin t' -> t' <> t ->
  exists hs yr, t' = t + hs /\ 0 < d * hs /\ (1 <= s_kold s' <= length ps)%nat /\ s_y s' = map Fin yr /\ length yr = n /\ dense_data (s_kmax c) n F s' ps hs (s_kold s') yr.
Proof.
  intros HL C I Ha G Hfar E Et Nt.
  pose proof (step_cases c s fuel (sc_kmax _ _ _ C) (hi_s _ _ _ _ _ I)) as SC.
  rewrite (min_step_RX s t (hi_t _ _ _ _ _ I)), (hi_t _ _ _ _ _ I), (sc_tb _ _ _ C) in SC. fold (smin t) in SC.
  change (nabs RX (nsub RX (Fin tb) (Fin t))) with (Fin (Rabs (tb + - t))) in SC. replace (tb + - t) with (tb - t) in SC by lra. cbn [nleb RX xleb] in SC.
  destruct SC as [(B & S)|(B & SC)]; [apply Rleb_true in B; lra|].
  destruct SC as [(msg & S)|(B2 & SC)]; [rewrite E in S; discriminate|].
  destruct SC as [S|[(s1 & i1 & s2 & R & T & S)|(s1 & i1 & s2 & R & T & S)]]; rewrite E in S; try discriminate. injection S as <-.
  destruct (trial_h_RX c tb d s t h C (hi_t _ _ _ _ _ I) (hi_h _ _ _ _ _ I) (hi_d _ _ _ _ _ I) Ha) as (h0 & E0 & P1 & _). rewrite E0 in *.
  pose proof (started_hinv c d s t h h0 I P1) as I0. pose proof (started_ghost c d n F s ps (Fin h0 : num RX) G) as G0.
  destruct (rejects_RX _ _ _ _ _ _ _ _ _ _ C R I0) as (h1 & I1 & _).
  pose proof (hi_s _ _ _ _ _ I1) as SI. destruct (trial_accept _ _ _ _ _ (sc_kmax _ _ _ C) SI T) as (co & phi & p & yp & wt & e & knew & TD & _ & SI' & AS & _).
  assert (Et' : s_t s' = Fin (t + h1)) by (rewrite (as_t _ _ _ _ _ _ _ _ _ _ _ _ AS), (hi_t _ _ _ _ _ I1), (hi_h _ _ _ _ _ I1); reflexivity).
  assert (t' = t + h1) as -> by (rewrite Et in Et'; injection Et'; auto).
  assert (Nh : h1 <> 0) by (intros ->; apply Nt; lra).
  destruct (rejects_ghost c tb d (smin t) n F _ _ s1 i1 t h0 h1 ps C R I0 G0 (hi_h _ _ _ _ _ I1) Nh) as (G1 & D1 & K1 & _).
  destruct (accept_ghost c d n F s1 ps h1 co phi p yp wt e knew _ _ s' HL G1 (hi_h _ _ _ _ _ I1) D1 SI TD eq_refl AS) as (pr & yr & Ep & Lp & Ey & Ly & Np & Ny & G2).
  pose proof (accept_dense c d n F s1 ps h1 co phi p yp wt e knew _ _ s' yr HL G1 (hi_h _ _ _ _ _ I1) D1 SI TD eq_refl AS Ey Ly SI') as DD.
  exists h1, yr. split; [reflexivity|]. split; [exact D1|]. rewrite (as_kold _ _ _ _ _ _ _ _ _ _ _ _ AS). destruct (si_co _ _ SI) as (_ & Hk & _). split; [pose proof (gh_k _ _ _ _ _ G1); lia|]. auto.
Qed.
