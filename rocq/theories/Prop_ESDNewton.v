(** C54: how accurately the stages of an accepted step of the implicit solvers are solved. *)
From Coquelicot Require Import Coquelicot.
From Coq Require Import String ZArith Reals Lra Psatz QArith Qreals Bool Lia List Arith.
From Verif Require Import Arith Common Stiff RK HStart RKInit Ode RX RKReal RKInitReal NormReal Prop_Tol Series OrderThm OrderCheck GOrder OrderRK OrderModel OrderIRK Tableaux Classes
  Dense DenseReal DenseStep SpecCtl ESDIRK ESDCls ESDGen ESDReal ESDStep ESDTop QX Prop_ESD ESDLin ESDLin2 ESDLin3 ESDLin4 Prop_ESDLin ESDAcc ESDDense Prop_ESDDense SpecESD ESDCtl Prop_ESDCtl ESDNewton.
Import ListNotations.
Close Scope string_scope. Open Scope nat_scope. Open Scope R_scope.

(** ** specification (with ESDNewton: weights, wnorm, newton_path, observed, settled) *)
(** the class attribute kappa and the coefficients of the prediction *)
Definition rkappa (m : EMeth RX) : R := xval (em_kappa m).
Definition rAz (m : EMeth RX) (i l : nat) : R := xval (nth l (nth i (em_Az m) []) (Fin 0)).
(** finite tolerances *)
Definition tols_given (o : EOpts RX) : Prop := p_rtol o <> NaN /\ forall x, In x (tol_values (p_atol o)) -> exists a, x = Fin a.
(** dz is the correction of z in M z = h f(ts, psi + d z): what the linear solver returns for the (scaled) residual *)
Definition correction (c : ECfg RX) (L : list (list xr)) (Sc : option (list (list xr))) (ts h d : R) (psi z dz : list R) : Prop :=
  exists fv, x_fun c (Fin ts) (map Fin (radd psi (map (Rmult d) z))) = map Fin fv /\
    x_solve c L (mv Sc (vsub (map Fin (map (Rmult h) fv)) (mv (x_M c) (map Fin z)))) = Some (map Fin dz).
(** stage i of a step of size h from (t, y) with slopes ks *)
Record solved (m : EMeth RX) (c : ECfg RX) L Sc (al : list R) (rt tiny t h : R) (y : list R) (ks : list (list R)) (i : nat) (psi z0 z ds dz : list R) : Prop := {
  sv_psi : length psi = length y /\ forall q, (q < length y)%nat -> nth q psi 0 = nth q y 0 + h * rsum i (fun l => rA m i l * nth q (nth l ks []) 0);
  sv_start : length z0 = length y /\ forall q, (q < length y)%nat -> nth q z0 0 = h * rsum i (fun l => rAz m i l * nth q (nth l ks []) 0);
  sv_path : newton_path (correction c L Sc (t + rC m i * h) h (rd m) psi) (fun z dz => wnorm (weights al rt y (radd psi (map (Rmult (rd m)) z))) dz) z0 z ds;
  sv_last : correction c L Sc (t + rC m i * h) h (rd m) psi z dz;
  sv_count : (length ds < NEWTON_MAXITER)%nat;
  sv_settled : settled (rkappa m) tiny ds (wnorm (weights al rt y (radd psi (map (Rmult (rd m)) z))) dz);
  sv_slope : length z = length y /\ length dz = length y /\ map (Rmult h) (nth i ks []) = radd z dz
}.

(** ** proofs *)
Lemma esd_tried m o f t0 tb y0 c n v k v' : esd_after m o f t0 tb y0 c n v -> esd_step m c k v = OOk v' -> (forall msg, ostat v' <> OFailed msg) ->
  exists h y' e, tried m c (ost v) h (e_K (ost v')) y' e /\ e_t (ost v') = nadd RX (e_t (ost v)) h.
Proof.
  intros HA HS Hst. pose proof HA as (Args & s0 & HB & HH). pose proof Args as (Hm & _ & _ & Hsc & _).
  destruct (esd_step_cases _ _ _ _ _ _ _ _ _ _ _ HA HS) as (r & G & E1 & E2 & E3 & _ & _ & _ & LA & _ & I1 & Ah & [(D & I2 & Eo & St)|(_ & F1 & _)]); [|exfalso; exact (Hst _ F1)].
  unfold esc_ok in Hsc. destruct (esd_coefs (sc_or (p_sc o) (em_sc m))) as [[[[kb1 kb2] a] g]|] eqn:EC; [|contradiction].
  assert (CT : econtrolled (elaw_of m kb1 kb2 a g) m c s0).
  { destruct HB as [luok solve jac M c s HI _ _|luok solve jac M U nAE y1 yp1 J1 h1 c s HI _ _ _ _ _ _ _]; [exact (C53_controller RX m _ _ _ _ _ _ _ _ _ _ _ _ _ _ _ Hm HI EC)|exact (C53_controller_dae RX m _ _ _ _ _ _ _ _ _ _ _ _ _ _ _ _ _ _ Hm HI EC)]. }
  assert (Hr : ostat v = ORunning). { unfold esd_step, ostep in HS. destruct (ostat v) eqn:E; [reflexivity|discriminate HS..]. }
  destruct (CT n v HH Hr) as (p & _ & _ & C1).
  destruct (C1 k v' HS Hst) as (p' & P & _).
  { split; [intros E0|].
    - destruct I1 as (_ & _ & I3 & _). destruct LA as (_ & Hn & _). rewrite I3 in E0. lia.
    - destruct G as (Gt & _). rewrite Gt, E1. destruct I1 as ((x & Ex) & _). unfold tval in Ah. rewrite Ex in *. cbn [neqb RX xeqb]. unfold Reqb. destruct (Req_EM_T x tb); [exfalso; rewrite e in Ah; lra|reflexivity]. }
  destruct P as (ne & nn & a0 & h & K & y' & e & _ & _ & P1 & _ & P2 & _ & P3 & _). exists h, y', e. rewrite P3. split; [exact P1|exact P2].
Qed.
Lemma esd_init_tols (m : EMeth RX) o luok solve f jac M t0 y0 tb c s : esd_init m o luok solve f jac M t0 y0 tb = inl (c, s) ->
  x_n c = length y0 /\ exists isf, validate_tol isf (p_rtol o) (p_atol o) y0 = inl (x_rtol c, x_atol c).
Proof.
  unfold esd_init. destruct (nleb RX _ _); [discriminate|]. destruct (validate_tol _ _ _ _) as [[rt at_]|] eqn:EV; [|discriminate].
  destruct (esd_coefs _) as [[[[kb1 kb2] al] gg]|]; [|discriminate]. destruct (negb _); [discriminate|]. destruct (match jac with JacConst _ => _ | JacFun _ => _ end) as [[J0 jc] xj].
  destruct (negb _); [discriminate|]. destruct (solve _ _); [|discriminate]. destruct (esd_first _ _ _ _ _); [|discriminate].
  intros H. apply inl_pair_inj in H. destruct H as [<- _]. cbn [x_atol x_n x_rtol]. split; [reflexivity|]. eexists. exact EV.
Qed.
Lemma esd_built_tols m o f t0 tb y0 c s : tols_given o -> esd_built m o f t0 tb y0 c s -> exists al rt, tols c al rt.
Proof.
  intros (HN & HA) HB.
  assert (G : x_n c = length y0 /\ exists isf, validate_tol isf (p_rtol o) (p_atol o) y0 = inl (x_rtol c, x_atol c)).
  { destruct HB as [luok solve jac M c0 s0 HI _ _|luok solve jac M U nAE y1 yp1 J1 h1 c0 s0 HI _ _ _ _ _ _ _]; [exact (esd_init_tols _ _ _ _ _ _ _ _ _ _ _ _ HI)|].
    unfold esd_init_dae in HI. match type of HI with (match ?x with inl _ => _ | inr _ => _ end) = _ => destruct x as [[c1 s1]|e] eqn:EI; [|discriminate HI] end.
    cbv zeta in HI. destruct (esd_first _ _ _ _ _); [|discriminate HI]. apply inl_pair_inj in HI. destruct HI as [<- _]. exact (esd_init_tols _ _ _ _ _ _ _ _ _ _ _ _ EI). }
  destruct G as (En & isf & HV).
  assert (HN2 : no_nan (tol_values (p_atol o))) by (apply Forall_forall; intros x Hx; destruct (HA x Hx) as (a & ->); discriminate).
  pose proof (C16_validated _ _ _ _ _ _ HN HN2 HV) as (G & SF & _). destruct G as [(r & Er & Hr) G].
  assert (Hrp : 0 <= r). { assert (0 < floor_rtol) by (unfold floor_rtol; apply Rmult_lt_0_compat; [lra|apply Rinv_0_lt_compat, pow_lt; lra]). lra. }
  assert (HA' : forall x, In x (tol_values (x_atol c)) -> exists a, x = Fin a /\ floor_atol <= a).
  { intros x Hx. rewrite Forall_forall in G. specialize (G x Hx). destruct x as [a| | |]; simpl in G; try tauto; [exists a; auto|]. exfalso. revert HA HV Hx. clear. intros HA HV Hx.
    unfold validate_tol in HV. destruct (p_atol o) as [a|l]; cbn [negb tol_values] in *.
    - destruct (nltb RX a n0); [discriminate|]. destruct isf; [|discriminate]. cbn [negb] in HV. destruct (nltb RX (p_rtol o) n0); [discriminate|].
      apply inl_inv, pair_equal_spec in HV. destruct HV as [_ E]. rewrite <- E in Hx. cbn [tol_values] in Hx. destruct Hx as [Hx|[]]. unfold npmax in Hx. rewrite tiny_RX in Hx. destruct (HA a ltac:(left; reflexivity)) as (b & ->).
      cbn in Hx. destruct (Rleb _ b); congruence.
    - destruct (Nat.eqb _ _); [|discriminate]. cbn [negb] in HV. destruct (existsb _ l); [discriminate|]. destruct isf; [|discriminate]. cbn [negb] in HV. destruct (nltb RX (p_rtol o) n0); [discriminate|].
      apply inl_inv, pair_equal_spec in HV. destruct HV as [_ E]. rewrite <- E in Hx. cbn [tol_values] in Hx. apply in_map_iff in Hx. destruct Hx as (a & Hx & Ha). unfold npmax in Hx. rewrite tiny_RX in Hx.
      destruct (HA a Ha) as (b & ->). cbn in Hx. destruct (Rleb _ b); congruence. }
  destruct (bcast_fin (x_atol c) (length y0) HA') as (al & EA & LA & FA).
  { destruct (p_atol o), (x_atol c); simpl in SF; tauto. }
  exists al, r. constructor; [rewrite En; exact EA|rewrite En; exact LA| |exact Er|exact Hrp].
  eapply Forall_impl; [|exact FA]. intros a Ha. assert (0 < floor_atol) by exact sqrt_tiny_pos. lra.
Qed.
Lemma kappa_real m : In m (@esd_all RX) -> em_kappa m = Fin (rkappa m) /\ 0 < rkappa m.
Proof.
  intros Hm. unfold esd_all in Hm. cbn [In] in Hm.
  assert (L : forall q, @lit RX q = Fin (Q2R q)) by (intros; reflexivity).
  repeat (destruct Hm as [<-|Hm]; [unfold rkappa; cbn [em_kappa TRBDF2_m TRX2_m KC3I_m KC4I_m KC4Ia_m Kv3I_m];
    try rewrite l2_RX; try rewrite L; (split; [reflexivity|]); cbn [xval]; unfold q2v, TRBDF2_kappa, TRX2_kappa, KC3I_kappa, KC4I_kappa, KC4Ia_kappa, Kv3I_kappa, Q2R; cbn [fst snd Qnum Qden]; lra|]).
  contradiction.
Qed.
Lemma newton_path_impl (P Q : list R -> list R -> Prop) sz z0 z ds : (forall z dz, P z dz -> Q z dz) -> newton_path P sz z0 z ds -> newton_path Q sz z0 z ds.
Proof. intros H N. induction N as [|z ds dz N IH C]; constructor; auto. Qed.
Lemma nisfin_F (v : list xr) : forallb (@nisfin RX) v = true -> Forall isF v.
Proof. intros H. rewrite forallb_forall in H. apply Forall_forall. intros x Hx. specialize (H x Hx). destruct x as [a| | |]; [eexists; reflexivity|cbn in H; discriminate H..]. Qed.
Lemma corr_correction m c L Sc g psi ts h d z dz : em_d m = Fin d -> g_t g = Fin ts -> g_h g = Fin h -> g_psi g = map Fin psi ->
  rcorr m c L Sc g z dz -> correction c L Sc ts h d psi z dz.
Proof.
  intros Ed Et Eh Ep (C1 & C2). apply nisfin_F, all_reals in C1. destruct C1 as (fv & Ef). exists fv.
  unfold residual in C2. rewrite Ef, Eh, vscale_real in C2. unfold value, arg in Ef. rewrite Ed, Et, Ep, vscale_real, vadd_real in Ef. split; [exact Ef|exact C2].
Qed.
Lemma row_real (ws : list xr) (ks : list (list R)) n i : allfin ws -> Forall (fun k => length k = n) ks -> (i <= length ks)%nat ->
  reals n (@lincomb RX n (firstn i ws) (firstn i (map (map Fin) ks))) (fun q => rsum i (fun l => xval (nth l ws (Fin 0)) * nth q (nth l ks []) 0)).
Proof.
  intros Hw HK Hi. destruct (all_reals _ Hw) as [wr ->]. rewrite !firstn_map. eapply reals_ext.
  - apply lincomb_reals, realsK_fin, Forall_firstn'. exact HK.
  - intros q Hq. cbn beta. rewrite map_length, firstn_length, Nat.min_l by lia. apply rsum_ext. intros l Hl. rewrite !nth_firstn by exact Hl. rewrite (map_nth Fin). reflexivity.
Qed.

Section Run.
Variables (m : EMeth RX) (o : EOpts RX) (f : xr -> list xr -> list xr) (t0 tb : R) (y0 : list xr) (c : ECfg RX) (n : nat) (v : OSolver RX (ES RX)) (k : nat) (v' : OSolver RX (ES RX)) (y : list R).
(** C54, nonlinear problems with or without a mass matrix, differential-algebraic problems: the stages of every accepted step *)
Theorem C54_stages : esd_after m o f t0 tb y0 c n v -> esd_step m c k v = OOk v' -> (forall msg, ostat v' <> OFailed msg) -> e_y (ost v) = map Fin y ->
  x_linear c = false -> tols_given o ->
  exists t h ks al rt tiny J hl L Sc, e_t (ost v) = Fin t /\ e_t (ost v') = Fin (t + h) /\ h <> 0 /\ e_K (ost v') = map (map Fin) ks /\ length ks = em_stages m /\
    bcast (x_atol c) (length y0) = map Fin al /\ length al = length y /\ Forall (fun a => 0 < a) al /\ x_rtol c = Fin rt /\ 0 <= rt /\ x_tiny c = Fin tiny /\ 0 < tiny /\
    at_hand c (ost v) J /\ in_use m c J hl L Sc /\ up_to_date c (Fin h : num RX) hl /\
    forall i, (1 <= i < em_stages m)%nat -> exists psi z0 z ds dz, solved m c L Sc al rt tiny t h y ks i psi z0 z ds dz.
Proof.
  intros HA HS Hst Ey Hl Ho. pose proof HA as (Args & s0 & HB & _). destruct (esd_built_tols _ _ _ _ _ _ _ _ Ho HB) as (al & rt & HT).
  destruct (esd_made _ _ _ _ _ _ _ _ _ _ _ _ HA HS Hst Ey) as (t & h & ks & y1 & cd0 & AS & Et & Eo & Et1 & Ly & Hn & RT & _ & _).
  destruct (esd_step_cases _ _ _ _ _ _ _ _ _ _ _ HA HS) as (r & G & _ & _ & _ & _ & _ & En & LA & _).
  destruct (esd_tried _ _ _ _ _ _ _ _ _ _ _ HA HS Hst) as (h' & y' & e & TR & Et2).
  assert (Htin : x_tiny c = Fin (cte r) /\ 0 < cte r) by (destruct G as (_ & _ & _ & _ & _ & _ & _ & G1 & G2 & _); auto). destruct Htin as (Htin & Htp).
  assert (Eh : h' = Fin h).
  { rewrite Et2, Et in Et1. cbn [nadd RX] in Et1. assert (F : isF h') by (apply (xadd_F (Fin t) h'); exists (t + h); exact Et1). destruct F as (hr & ->). cbn [xadd] in Et1. injection Et1 as E. f_equal. lra. }
  subst h'. destruct AS as [Hh A2 A3 A4 A5 A6 A7 A8 A9 A10 A11 A12]. destruct Args as (Hm & _). destruct (kappa_real m Hm) as (Hk & _).
  destruct TR as (J & hl & L & Sc & psi & z & rr & nn & AH & IU & UD & SG & LK & _). rewrite A5, Et, Ey in SG.
  assert (Hsol : forall b x, x_solve c L b = Some x -> length x = x_n c) by (intros b x Hx; destruct LA as (_ & _ & _ & HSo & _); apply (HSo _ _ _ Hx)).
  exists t, h, ks, al, rt, (cte r), J, hl, L, Sc. split; [exact Et|]. split; [exact Et1|]. split; [exact Hh|]. split; [exact A5|]. split; [exact A6|].
  split; [rewrite <- En; exact (tl_a _ _ _ HT)|]. split; [rewrite Ly; exact (tl_l _ _ _ HT)|]. split; [exact (tl_p _ _ _ HT)|]. split; [exact (tl_r _ _ _ HT)|]. split; [exact (tl_rp _ _ _ HT)|]. split; [exact Htin|]. split; [exact Htp|]. split; [exact AH|]. split; [exact IU|]. split; [exact UD|].
  intros i Hi. destruct (staged_stage _ _ _ _ _ _ _ _ _ _ _ _ _ SG i ltac:(rewrite map_length, A6; exact Hi)) as (z' & r' & n' & CV & EK).
  set (g := stage m (Fin t : num RX) (Fin h) (map Fin y) i (firstn i (map (map Fin) ks))) in *.
  assert (RA : Forall allfin (em_A m)) by exact (rt_A m RT). assert (RAz : Forall allfin (em_Az m)) by exact (rt_Az m RT).
  assert (ROW : forall X : list (list xr), Forall allfin X -> allfin (nth i X [])).
  { intros X HX. destruct (Nat.lt_ge_cases i (length X)) as [Hlt|Hge]; [rewrite Forall_forall in HX; apply HX, nth_In, Hlt|rewrite nth_overflow by exact Hge; exact (Forall_nil _)]. }
  assert (Hil : (i <= length ks)%nat) by lia.
  pose proof (row_real _ _ _ i (ROW _ RA) A7 Hil) as R1. pose proof (row_real _ _ _ i (ROW _ RAz) A7 Hil) as R2.
  assert (RP : reals (x_n c) (g_psi g) (fun q => nth q y 0 + h * rsum i (fun l => rA m i l * nth q (nth l ks []) 0))).
  { unfold g, stage. cbn [g_psi]. rewrite map_length, Ly. apply reals_add; [apply reals_intro; exact Ly|]. apply reals_scale. exact R1. }
  destruct RP as (psr & Epsi & Lpsi & Npsi).
  assert (RZ : reals (x_n c) (predicted m (Fin h : num RX) (map Fin y) i (firstn i (map (map Fin) ks))) (fun q => h * rsum i (fun l => rAz m i l * nth q (nth l ks []) 0))).
  { unfold predicted. rewrite map_length, Ly. apply reals_scale. exact R2. }
  destruct RZ as (z0 & Ez0 & Lz0 & Nz0).
  pose proof (eq_ind _ (fun p => converges m c L Sc g [] p z' r' n') CV _ Ez0) as CV'. cbv beta in CV'. clear CV. rename CV' into CV.
  assert (Lk : length (nth i ks []) = x_n c) by (rewrite Forall_forall in A7; apply A7, nth_In; lia).
  assert (Ez' : z' = map Fin (map (Rmult h) (nth i ks []))).
  { assert (Q : map Fin (nth i ks []) = map (fun a => ndiv RX a (Fin h)) z'). { rewrite <- EK. symmetry. exact (map_nth (map Fin) ks [] i). }
    revert Q. generalize (nth i ks []). clear - Hh. revert z'. induction z' as [|x z' IH]; intros [|b kl] H; cbn [map] in *; try discriminate H; [reflexivity|]. injection H as H1 H2. f_equal; [|apply IH; exact H2].
    cbn [ndiv RX] in H1. assert (FX : isF x) by (apply (xdiv_F x (Fin h)); eexists; symmetry; exact H1). destruct FX as [x' ->]. cbn [xdiv] in H1. destruct (Req_EM_T h 0); [contradiction|]. injection H1 as ->. f_equal. field. exact Hh. }
  assert (FZ : Forall isF z') by (rewrite Ez'; apply Forall_forall; intros x Hx; apply in_map_iff in Hx; destruct Hx as (b & <- & _); eexists; reflexivity).
  destruct (conv_real m c L Sc g al rt (rkappa m) (cte r) (rd m) y psr HT Hk (rt_d m RT) Htin Htp eq_refl Ly Epsi Lpsi Hn Hsol z0 _ _ _ _ _ CV Hl FZ ltac:(rewrite map_length; exact Lz0) z0 [] eq_refl eq_refl (Forall_nil _)
      (np_start _ _ _) ltac:(unfold NEWTON_MAXITER; cbn [length]; lia)) as (zl & dl & dz & N1 & N2 & N3 & N4 & N5 & N6 & N7 & N8).
  assert (Egt : g_t g = Fin (t + rC m i * h)).
  { unfold g, stage. cbn [g_t]. rewrite n0_RX. unfold rC. destruct (all_reals _ (rt_C m RT)) as (cr & Ec). change (num RX) with xr in *. rewrite Ec, (map_nth Fin). reflexivity. }
  assert (CC : forall z1 dz1, rcorr m c L Sc g z1 dz1 -> correction c L Sc (t + rC m i * h) h (rd m) psr z1 dz1) by (intros z1 dz1; apply (corr_correction m); [exact (rt_d m RT)|exact Egt|reflexivity|exact Epsi]).
  exists psr, z0, zl, dl, dz. constructor.
  - rewrite Ly. split; [exact Lpsi|exact Npsi].
  - rewrite Ly. split; [exact Lz0|exact Nz0].
  - eapply newton_path_impl; [exact CC|exact N1].
  - apply CC, N2.
  - exact N3.
  - exact N8.
  - rewrite Ly. split; [exact N5|]. split; [exact N6|]. apply Fmap_inj. rewrite <- Ez'. exact N7.
Qed.
End Run.

(** C54: if the last correction contracts the distance to zs by a factor theta, then the stage is within
    theta / (1 - theta) times that correction of zs; unless the correction was negligible, within kappa if theta is not
    larger than the observed contraction *)
Theorem C54_error m c L Sc al rt tiny t h y ks i psi z0 z ds dz : solved m c L Sc al rt tiny t h y ks i psi z0 z ds dz ->
  y <> [] -> length al = length y -> Forall (fun a => 0 < a) al -> 0 <= rt ->
  let w := weights al rt y (radd psi (map (Rmult (rd m)) z)) in
  forall zs th, length zs = length y -> 0 <= th < 1 ->
    wnorm w (map2 Rminus (map (Rmult h) (nth i ks [])) zs) <= th * wnorm w (map2 Rminus z zs) ->
    wnorm w (map2 Rminus (map (Rmult h) (nth i ks [])) zs) <= th / (1 - th) * wnorm w dz /\
    (wnorm w dz <= tiny \/ (th <= observed (rkappa m) (wnorm w dz :: ds) -> wnorm w (map2 Rminus (map (Rmult h) (nth i ks [])) zs) < rkappa m)).
Proof.
  intros [(S1 & S2) _ S4 S5 S6 S7 (S8 & S9 & S10)] Hy La E5 E7 w zs th Lzs Hth HC. rewrite S10 in *.
  set (u := radd psi (map (Rmult (rd m)) z)) in *. fold w in S7.
  assert (Lu : length u = length y) by (unfold u; rewrite radd_len; [exact S1|rewrite map_length; lia]).
  assert (Wp : Forall (fun x => 0 < x) w) by (apply weights_pos; assumption). assert (Lw : length w = length y) by (apply weights_len; [exact La|exact Lu]).
  (* |z - zs| <= |z + dz - zs| + |dz| *)
  assert (TR : wnorm w (map2 Rminus z zs) <= wnorm w (map2 Rminus (radd z dz) zs) + wnorm w dz).
  { clearbody w u. unfold wnorm. set (A1 := map2 Rdiv (map2 Rminus (radd z dz) zs) w). set (B1 := map2 Rdiv dz w).
    assert (L1 : length A1 = length y). { unfold A1. rewrite m2len; rewrite m2len; rewrite ?radd_len; lia. }
    assert (L2 : length B1 = length y). { unfold B1. rewrite m2len; lia. }
    assert (EQ : map2 Rdiv (map2 Rminus z zs) w = radd A1 (map (Rmult (-1)) B1)).
    { unfold A1, B1. revert S8 S9 Lzs Lw. generalize (length y). clear. intros n H1 H2 H3 H4. revert n dz zs w H1 H2 H3 H4. unfold radd. induction z as [|a z IH]; intros n [|b dz] [|e zs] [|g w] H1 H2 H3 H4; cbn [length] in *; subst n; try discriminate; [reflexivity|].
      cbn [map2 map]. f_equal; [unfold Rdiv; ring|]. injection H2 as H2. injection H3 as H3. injection H4 as H4. apply (IH (length z)); auto. }
    rewrite EQ. eapply Rle_trans; [apply rms_triangle|].
    - intros E. rewrite E in L1. destruct y; [congruence|discriminate].
    - rewrite map_length. congruence.
    - rewrite rms_scale. replace (Rabs (-1)) with 1 by (rewrite Rabs_left; lra). lra. }
  set (e := wnorm w (map2 Rminus (radd z dz) zs)) in *. set (dd := wnorm w dz) in *. assert (He : e * (1 - th) <= th * dd) by nra.
  assert (Hdd : 0 <= dd) by apply rms_nonneg. assert (H0 : 0 <= e) by apply rms_nonneg.
  split.
  - apply Rmult_le_reg_r with (1 - th); [lra|]. replace (th / (1 - th) * dd * (1 - th)) with (th * dd) by (field; lra). exact He.
  - destruct S7 as [S7|(N1 & N2 & N3)]; [auto|]. right. intros Hr. set (r1 := observed (rkappa m) (dd :: ds)) in *. apply Rmult_lt_reg_r with (1 - r1); [lra|]. apply Rle_lt_trans with (dd * r1); [|lra].
    assert (e * (1 - r1) <= e * (1 - th)) by (apply Rmult_le_compat_l; lra). assert (th * dd <= r1 * dd) by (apply Rmult_le_compat_r; lra). lra.
Qed.

(** the matrix is real if it could be factorised *)
Lemma msub_F n (X J : list (list xr)) (a : xr) : mshape n X -> mshape n J -> (0 < n)%nat -> Forall (fun r : list xr => Forall isF r) (@msub RX X a J) -> isF a /\ Forall (fun r : list xr => Forall isF r) J.
Proof.
  intros (LX & SX) (LJ & SJ) Hn. unfold msub.
  assert (ROW : forall x j : list xr, length x = n -> length j = n -> Forall isF (map2 (fun b e => @nsub RX b (nmul RX a e)) x j) -> isF a /\ Forall isF j).
  { intros x j L1 L2. assert (G : forall x j : list xr, length x = length j -> Forall isF (map2 (fun b e => @nsub RX b (nmul RX a e)) x j) -> Forall (fun e => isF a /\ isF e) j).
    { clear. induction x as [|b x IH]; intros [|e j] L H; cbn [map2] in *; try discriminate; [constructor|]. inversion H as [|? ? H1 H2]; subst. injection L as L. constructor; [|apply IH; auto].
      apply xmul_F. change (isF (xsub b (xmul a e))) in H1. destruct b as [b| | |], (xmul a e) as [z| | |]; cbn [xsub xadd xopp] in H1; first [eexists; reflexivity|destruct H1 as (? & H1); discriminate H1]. }
    intros H. specialize (G x j ltac:(congruence) H). split; [|eapply Forall_impl; [|exact G]; intros e He; apply He]. destruct j as [|e j]; [cbn in L2; lia|]. inversion G as [|? ? G1 G2]; subst. apply G1. }
  revert X LX SX LJ SJ. assert (Hk : forall k (X : list (list xr)), length X = k -> Forall (fun r : list xr => length r = n) X -> forall J : list (list xr), length J = k -> Forall (fun r : list xr => length r = n) J ->
    Forall (fun r : list xr => Forall isF r) (map2 (map2 (fun b e => @nsub RX b (nmul RX a e))) X J) -> Forall (fun r : list xr => isF a /\ Forall isF r) J).
  { clear - ROW. induction k as [|k IH]; intros [|x X] LX SX [|j J] LJ SJ H; cbn [length map2] in *; try discriminate; [constructor|]. inversion H as [|? ? H1 H2]; subst. inversion SX; subst. inversion SJ; subst.
    constructor; [apply (ROW x); auto|]. apply (IH X); auto. }
  intros X LX SX LJ SJ H. specialize (Hk n X LX SX J LJ SJ H). split; [|eapply Forall_impl; [|exact Hk]; intros e He; apply He].
  destruct J as [|j J]; [cbn in LJ; lia|]. inversion Hk as [|? ? G1 G2]; subst. apply G1.
Qed.
Lemma solve_any m d M J c : em_d m = Fin (rd m) -> x_dae c = None -> x_n c = d -> x_M c = option_map (map (map Fin)) M ->
  (forall X, M = Some X -> rshape d X) -> rshape d J -> exact_solve d (x_solve c) ->
  forall h Sc L b x, (Sc, L) = iteration_matrix m c (map (map Fin) J) (Fin h) -> length b = d ->
    x_solve c L (mv Sc (map Fin b)) = Some x ->
    exists x', x = map Fin x' /\ length x' = d /\ forall q, (q < d)%nat -> rmv_opt d M x' q - h * rd m * rmv d J x' q = nth q b 0.
Proof.
  intros Ed ED En EM HM HJ HS h Sc L b x HI Hb E. unfold iteration_matrix in HI. rewrite ED, EM, En, Ed in HI.
  injection HI as -> ->. cbn [mv] in E. rewrite mat_of_fin in E. change (nmul RX (Fin h) (Fin (rd m))) with (Fin (h * rd m)) in E.
  change (num RX) with xr in *. rewrite msub_fin in E.
  destruct (HS (rmsub (rmat_of d M) (h * rd m) J) b x) as (x' & E1 & E2 & E3); [apply rmsub_shape; [apply rmat_of_shape; exact HM|exact HJ]|exact Hb|exact E|].
  exists x'. split; [exact E1|]. split; [exact E2|]. intros q Hq. rewrite <- (E3 q Hq).
  rewrite rmv_msub by (first [exact Hq|exact HJ|apply rmat_of_shape; exact HM]). rewrite rmv_mat_of by exact Hq. reflexivity.
Qed.
Lemma at_hand_shape m c (s : ES RX) J : la_ok m c -> einv m c s -> at_hand c s J -> mshape (x_n c) J.
Proof. intros (_ & _ & _ & _ & _ & HJ & _) (_ & _ & _ & _ & I5 & _) [(-> & _)|(jac & k & E1 & _ & ->)]; [exact I5|]. exact (HJ _ _ _ _ E1). Qed.
Lemma radd_nth (a b : list R) q : length a = length b -> nth q (radd a b) 0 = nth q a 0 + nth q b 0.
Proof. unfold radd. revert b q. induction a as [|x a IH]; intros [|z b] [|q] H; cbn [map2 nth length] in *; try discriminate; try ring. apply IH. lia. Qed.

Section Defect.
Variables (m : EMeth RX) (o : EOpts RX) (f : xr -> list xr -> list xr) (t0 tb : R) (y0 : list xr) (c : ECfg RX) (n : nat) (v : OSolver RX (ES RX)) (k : nat) (v' : OSolver RX (ES RX)) (y : list R) (M : option (list (list R))).
(** C54, problems that are not differential-algebraic, linear systems solved exactly: the slope of every stage is the
    linearisation of f at a point u near the point u1 of the stage, with the Jacobian in use *)
Theorem C54_slopes : esd_after m o f t0 tb y0 c n v -> esd_step m c k v = OOk v' -> (forall msg, ostat v' <> OFailed msg) -> e_y (ost v) = map Fin y ->
  x_linear c = false -> tols_given o -> x_dae c = None -> x_M c = option_map (map (map Fin)) M -> (forall X, M = Some X -> rshape (length y0) X) -> exact_solve (length y0) (x_solve c) ->
  exists t h ks al rt tiny J hl, e_t (ost v) = Fin t /\ e_t (ost v') = Fin (t + h) /\ e_K (ost v') = map (map Fin) ks /\
    bcast (x_atol c) (length y0) = map Fin al /\ x_rtol c = Fin rt /\ x_tiny c = Fin tiny /\
    at_hand c (ost v) (map (map Fin) J) /\ rshape (length y0) J /\ (x_jac_each c = true -> hl = h) /\
    forall i, (1 <= i < em_stages m)%nat -> exists u u1 fv ds dz, length u = length y0 /\ length u1 = length y0 /\ length dz = length y0 /\
      (forall q, (q < length y0)%nat -> nth q u1 0 = nth q y 0 + h * rsum (S i) (fun l => rA m i l * nth q (nth l ks []) 0)) /\
      f (Fin (t + rC m i * h)) (map Fin u) = map Fin fv /\ u1 = radd u (map (Rmult (rd m)) dz) /\ settled (rkappa m) tiny ds (wnorm (weights al rt y u) dz) /\
      forall q, (q < length y0)%nat -> h * rmv_opt (length y0) M (nth i ks []) q = h * nth q fv 0 + hl * rmv (length y0) J (map (Rmult (rd m)) dz) q.
Proof.
  intros HA HS Hst Ey Hl Ho HD EM HM HX.
  destruct (C54_stages _ _ _ _ _ _ _ _ _ _ _ _ HA HS Hst Ey Hl Ho) as (t & h & ks & al & rt & tiny & J & hl & L & Sc & E1 & E2 & Hh & E3 & Lks & E4 & La & E5 & E6 & E7 & E8 & E9 & AH & IU & UD & HI).
  destruct (esd_made _ _ _ _ _ _ _ _ _ _ _ _ HA HS Hst Ey) as (t' & h' & ks' & y1' & cd' & AS & _ & _ & _ & Ly & Hn & RT & _).
  destruct (esd_step_cases _ _ _ _ _ _ _ _ _ _ _ HA HS) as (r & _ & _ & _ & _ & _ & Ef & En & LA & _ & I1 & _).
  pose proof (at_hand_shape _ _ _ _ LA I1 AH) as SJ. destruct IU as (IL & IU). rewrite HD in IU. destruct IU as (ISc & IU).
  assert (FL : mfin L) by (destruct LA as (_ & _ & HL & _); exact (HL _ IL)).
  assert (SM : mshape (x_n c) (mat_of (x_n c) (x_M c))).
  { unfold mat_of. destruct (x_M c) as [X|] eqn:EX; [|apply eye_shape]. destruct LA as (_ & _ & _ & _ & _ & _ & HMs & _). apply HMs. exact EX. }
  rewrite IU in FL. destruct (msub_F _ _ _ _ SM SJ Hn FL) as (Fa & FJ). destruct (all_realsK _ FJ) as (Jr & EJ). subst J.
  assert (Fh : exists hr, hl = Fin hr) by (apply (xmul_F hl (em_d m)); exact Fa). destruct Fh as (hr & ->).
  assert (SJr : rshape (x_n c) Jr).
  { destruct SJ as (S1 & S2). rewrite map_length in S1. split; [exact S1|]. rewrite Forall_map in S2. eapply Forall_impl; [|exact S2]. intros a Ha. exact (eq_trans (eq_sym (map_length Fin a)) Ha). }
  rewrite <- En in *. exists t, h, ks, al, rt, tiny, Jr, hr. split; [exact E1|]. split; [exact E2|]. split; [exact E3|]. split; [exact E4|]. split; [exact E6|]. split; [exact E8|].
  split; [exact AH|]. split; [exact SJr|]. split; [intros F; destruct UD as (_ & UD); specialize (UD F); injection UD as UD; exact UD|].
  intros i Hi. destruct (HI i Hi) as (psi & z0 & z & ds & dz & [(S1 & S2) _ S4 (fv & S5a & S5b) S6 S7 (S8 & S9 & S10)]). rewrite Ly in *.
  set (u := radd psi (map (Rmult (rd m)) z)) in *.
  assert (Lu : length u = x_n c) by (unfold u; rewrite radd_len; [exact S1|rewrite map_length; lia]).
  assert (Lfv : length fv = x_n c). { destruct LA as (_ & _ & _ & _ & Hf & _). pose proof (Hf (Fin (t + rC m i * h)) (map Fin u)) as Q. change (num RX) with xr in *. rewrite S5a, map_length in Q. exact Q. }
  assert (Lki : length (nth i ks []) = x_n c) by (apply (f_equal (@length R)) in S10; rewrite map_length, radd_len in S10; lia).
  exists u, (radd u (map (Rmult (rd m)) dz)), fv, ds, dz. split; [exact Lu|]. split; [rewrite radd_len; [exact Lu|rewrite map_length; lia]|]. split; [exact S9|].
  assert (NK : forall q, h * nth q (nth i ks []) 0 = nth q z 0 + nth q dz 0). { intros q. rewrite <- radd_nth by lia. rewrite <- S10. rewrite nth_map0 by ring. reflexivity. }
  split; [|split; [rewrite <- Ef; exact S5a|split; [reflexivity|split; [exact S7|]]]].
  - intros q Hq. rewrite radd_nth by (rewrite map_length; lia). unfold u. rewrite radd_nth by (rewrite map_length; lia). rewrite !nth_map0 by ring. rewrite S2 by exact Hq. cbn [rsum].
    rewrite (rt_diag m RT i) by lia. pose proof (NK q). nra.
  - intros q Hq.
    assert (RS : exists b, vsub (map Fin (map (Rmult h) fv)) (mv (x_M c) (map Fin z)) = map Fin b /\ length b = x_n c /\ forall q, (q < x_n c)%nat -> nth q b 0 = h * nth q fv 0 - rmv_opt (x_n c) M z q).
    { assert (MZ : exists mz, @mv RX (x_M c) (map Fin z) = map Fin mz /\ length mz = x_n c /\ forall q, (q < x_n c)%nat -> nth q mz 0 = rmv_opt (x_n c) M z q).
      { rewrite EM. destruct M as [X|]; cbn [option_map]; [|exists z; cbn [mv rmv_opt]; auto]. destruct (mv_fin (x_n c) X z (HM X eq_refl) S8) as (rr & Q1 & Q2 & Q3). exists rr. auto. }
      destruct MZ as (mz & Q1 & Q2 & Q3). rewrite Q1. destruct (vsub_fin (map (Rmult h) fv) mz ltac:(rewrite map_length; lia)) as (b & B1 & B2 & B3). exists b. split; [exact B1|].
      rewrite map_length in B2. split; [lia|]. intros p Hp. rewrite B3, Q3, nth_map0 by (first [exact Hp|ring|rewrite map_length; lia]). reflexivity. }
    destruct RS as (b & B1 & B2 & B3). rewrite B1 in S5b.
    assert (IT : (Sc, L) = iteration_matrix m c (map (map Fin) Jr) (Fin hr)) by (unfold iteration_matrix; rewrite HD, ISc, IU; reflexivity).
    destruct (solve_any m (x_n c) M Jr c (rt_d m RT) HD eq_refl EM HM SJr HX hr Sc L b _ IT B2 S5b) as (x' & X1 & X2 & X3). apply Fmap_inj in X1. subst x'.
    specialize (X3 q Hq). rewrite (B3 q Hq) in X3.
    assert (O1 : h * rmv_opt (x_n c) M (nth i ks []) q = rmv_opt (x_n c) M z q + rmv_opt (x_n c) M dz q).
    { rewrite (rmv_opt_lin (x_n c) M z dz (nth i ks []) (/ h) (/ h) q Hq); [field; exact Hh|]. intros l Hll. pose proof (NK l) as Q. apply Rmult_eq_reg_l with h; [|exact Hh]. rewrite Q. field. exact Hh. }
    assert (O2 : rmv (x_n c) Jr (map (Rmult (rd m)) dz) q = rd m * rmv (x_n c) Jr dz q).
    { rewrite (rmv_lin (x_n c) Jr dz dz (map (Rmult (rd m)) dz) (rd m) 0 q); [ring|]. intros l _. rewrite nth_map0 by ring. ring. }
    rewrite O1, O2. lra.
Qed.
End Defect.

(** ** the hypotheses can be met: y' = -y^2, any of the six classes; every linear system is solved exactly *)
Definition square_x : xr -> list xr -> list xr := fun _ y => match y with [Fin a] => [Fin (- (a * a))] | _ => [NaN] end.
Definition square_xj : nat -> xr -> list xr -> list (list xr) := fun _ _ y => match y with [Fin a] => [[Fin (- 2 * a)]] | _ => [[NaN]] end.
Example C54_case m : In m esd_all -> exists c s, esd_after m lam_opts square_x 0 1 (map Fin [1]) c 0 (onew s) /\ e_y s = map Fin [1] /\
  x_linear c = false /\ tols_given lam_opts /\ x_dae c = None /\ x_M c = option_map (map (map Fin)) None /\ exact_solve 1 (x_solve c).
Proof.
  intros Hm. assert (HAr : esd_args m lam_opts 0 1 (map Fin [1])).
  { split; [exact Hm|]. split; [lra|]. split; [discriminate|]. split; [|split; [discriminate|intros E; injection E; discriminate]].
    cbn [p_sc lam_opts sc_or]. rewrite (proj2 (proj2 (esd_all_C m Hm))). apply esc_names. auto. }
  assert (HI : exists c s, esd_init m lam_opts lu_r solve_r square_x (@JacFun RX square_xj) None (Fin 0) (map Fin [1]) (Fin 1) = inl (c, s) /\
     x_linear c = false /\ x_dae c = None /\ x_M c = None /\ x_solve c = solve_r /\ e_y s = map Fin [1]).
  { assert (HV : exists p, validate_tol true (Fin (1/1000)) (Scalar (Fin (1/1000000))) (map Fin [1]) = inl p).
    { unfold validate_tol. rewrite n0_RX. cbn [negb nltb RX xltb]. unfold Rltb.
      destruct (Rlt_dec (1/1000000) 0); [lra|]. destruct (Rlt_dec (1/1000) 0); [lra|]. eexists. reflexivity. }
    destruct HV as [[rt at_] HV]. unfold esd_init. cbn [p_max_step p_rtol_is_float p_rtol p_atol lam_opts]. rewrite HV, n0_RX. cbn [nleb RX xleb].
    destruct HAr as (_ & _ & _ & Hsc & _). unfold esc_ok in Hsc. cbv zeta.
    destruct (esd_coefs (sc_or (p_sc lam_opts) (em_sc m))) as [[[[kb1 kb2] al] gg]|]; [|contradiction].
    rewrite (esd_class_ok_all m Hm). cbn [negb].
    assert (EM : @mat_of RX 1 None = [[Fin 1]]) by (cbn [mat_of length map]; rewrite eye_fin; reflexivity).
    match goal with |- context [@mat_of RX ?a ?b] => change (@mat_of RX a b) with (@mat_of RX 1 None) end. rewrite EM. cbn [lu_r forallb xfin andb negb map square_x solve_r].
    destruct (Req_EM_T 1 0); [lra|]. unfold esd_first. cbn [p_first_step lam_opts]. rewrite n0_RX. cbn [nleb RX xleb nltb nabs nsub]. unfold xsub. cbn [xopp xadd xabs xltb]. unfold Rleb, Rltb.
    destruct (Rle_dec (1/2) 0); [lra|]. destruct (Rlt_dec (Rabs (1 + - 0)) (1/2)) as [H|H]; [exfalso; rewrite Rabs_pos_eq in H; lra|]. eexists. eexists. split; [reflexivity|]. repeat split. }
  destruct HI as (c & s & HI & C1 & C2 & C3 & C4 & C5). exists c, s.
  split; [|split; [exact C5|split; [exact C1|split; [|split; [exact C2|split; [exact C3|rewrite C4]]]]]].
  - split; [exact HAr|]. exists s. split; [|constructor]. eapply EB_ode; [exact HI| |intros M' E; discriminate E].
    split; [|split; [|split]].
    + intros t [|[] [|]]; reflexivity.
    + intros kk t yy. unfold square_xj. destruct yy as [|[a| | |] [|]]; (split; [reflexivity|]; constructor; [reflexivity|constructor]).
    + intros X HX. unfold lu_r in HX. rewrite forallb_forall in HX. apply Forall_forall. intros r Hr. apply Forall_forall. intros x Hx. specialize (HX r Hr). rewrite forallb_forall in HX. specialize (HX x Hx).
      destruct x; try discriminate HX. eexists. reflexivity.
    + intros L b x E. unfold solve_r in E. destruct L as [|[|[a| | |] [|]] [|]]; try discriminate E. destruct b as [|[b| | |] [|]]; try discriminate E. destruct (Req_EM_T a 0); [discriminate E|]. injection E as <-.
      split; [constructor; [eexists; reflexivity|constructor]|reflexivity].
  - split; [discriminate|]. intros x [<-|[]]. eexists. reflexivity.
  - intros L b x [HL HF] Hb E. destruct L as [|row [|]]; try discriminate HL. inversion_clear HF as [|? ? H1 _]. destruct row as [|a [|]]; try discriminate H1. destruct b as [|b [|]]; try discriminate Hb.
    cbn [map solve_r] in E. destruct (Req_EM_T a 0); [discriminate E|]. injection E as <-. exists [b / a]. split; [reflexivity|]. split; [reflexivity|]. intros q Hq. replace q with 0%nat by lia.
    unfold rmv. cbn [rsum nth]. field. assumption.
Qed.
