(** C55: the dense output of the implicit (ESDIRK) classes along whole runs. *)
From Coq Require Import String Reals Lra Psatz QArith Qreals Bool Lia List Arith.
From Verif Require Import Arith Common Stiff RK HStart RKInit RX SpecRK Tableaux Classes Ode RKReal RKInitReal Series Trees OrderThm OrderCheck OrderRK OrderModel GOrder GDense OrderIRK OrderIRKTab RKSpecProofs DenseJoin
  ESDIRK ESDCls ESDGen ESDReal ESDStep ESDInv ESDTop Prop_ESD ESDLin ESDLin2 ESDLin3 ESDLin4 Prop_ESDLin ESDAcc ESDDense Prop_ESDDense Smooth Prop_IRK Prop_IRKDense UOrder UOrder2 GlobalRK GlobalPoly GlobalRun GlobalRunN Prop_Global GlobalIRK Prop_GlobalIRK.
Import ListNotations.
Close Scope string_scope. Open Scope nat_scope. Open Scope R_scope.

(** the dense output of the step that led from v to v' exists and is within [bound] of Y everywhere in the step *)
Definition dense_within (m : EMeth RX) (ip : esd_interp RX) (c : ECfg RX) (d : nat) (Y : R -> list R) (v v' : OSolver RX (ES RX)) (bound : R) : Prop :=
  exists x x1 D, e_t (ost v) = Fin x /\ e_t (ost v') = Fin x1 /\ esd_dense_output m ip (x_dir c) v' = inl D /\
    forall th, 0 <= th <= 1 -> exists r, esd_call D (Fin (x + th * (x1 - x))) = map Fin r /\ length r = d /\ close d r (Y (x + th * (x1 - x))) bound.

Lemma esd_dense_pos m ip p e : In (m, ip, p, e) esd_dense_orders -> 0 <= Q2R e.
Proof.
  intros H. unfold esd_dense_orders in H.
  repeat (destruct H as [E|H]; [apply (f_equal (fun p : EMeth RX * esd_interp RX * nat * Q => snd p)) in E; cbn [snd] in E; rewrite <- E; unfold Q2R; cbn [Qnum Qden]; apply Rmult_le_pos; [apply IZR_le; lia|apply Rlt_le, Rinv_0_lt_compat, IZR_lt; reflexivity]|]). destruct H.
Qed.

(** Any right-hand side that is Lipschitz in y and smooth along Y: in every step of every run that starts on Y, makes
    steps of at most H and solves the stage equations up to dl, the interpolant the class declares is within
    C (eps + dl + H^p + e H) of Y; e is the residual of its own order conditions (0 or below 1e-12). *)
Theorem C55_dense m p eps pe epse ip e d G lo hi Y : In (m, p, eps, pe, epse) implicit_orders -> In (m, ip, p, e) esd_dense_orders ->
  solution_on d G lo hi Y -> smooth_along p d G lo hi Y -> lipschitz_global d G ->
  exists C del, 0 <= C /\ 0 < del /\ forall H dl, 0 <= H < del -> 0 <= dl -> forall o f t0 tb c s v v' k,
    esd_args m o t0 tb (map Fin (Y t0)) -> esd_built m o f t0 tb (map Fin (Y t0)) c s -> e_y s = map Fin (Y t0) -> lo <= t0 <= hi -> lo <= tb <= hi ->
    good_run m c d G H dl (onew s) v -> esd_step m c k v = OOk v' -> (forall msg, ostat v' <> OFailed msg) ->
    (forall x1 x2, e_t (ost v) = Fin x1 -> e_t (ost v') = Fin x2 -> Rabs (x2 - x1) <= H) ->
    (forall x1 x2 y ks, e_t (ost v) = Fin x1 -> e_t (ost v') = Fin x2 -> e_y (ost v) = map Fin y -> e_K (ost v') = map (map Fin) ks ->
       stages_within d (em_stages m) (rA m) (rC m) G x1 (x2 - x1) y dl ks) ->
    dense_within m ip c d Y v v' (C * (Q2R eps + dl + H ^ p + Q2R e * H)).
Proof.
  intros Hm Hip HY HS (L & HL0 & HL). destruct (classes_near _ _ _ _ _ Hm) as (HV & _ & _). destruct (implicit_orders_pos _ _ _ _ _ Hm) as (Hp & He). pose proof (esd_dense_pos _ _ _ _ Hip) as Hed.
  destruct (coef_bound (em_stages m) (rA m) (rA m) (rC m) (rB m) (rB m)) as (W & W1 & _ & W3 & W4 & _).
  destruct (global_error_irk d p G lo hi Y HY HS (em_stages m) (rA m) (rB m) (rC m) W L (Q2R eps) HL0 HL W1 W4 W3 He HV Hp) as (C & del & HC & Hd & H1).
  destruct (esd_value _ _ _ _ Hip) as (b & Hb & HD & HVal).
  destruct (idense_error d p G lo hi Y HY HS (em_stages m) (rA m) (rC m) W L HL0 HL W1 W3 b (Q2R e) Hb Hed HD) as (C2 & del2 & HC2 & Hd2 & H2).
  exists (C2 * (C + 1)), (Rmin 1 (Rmin del del2)). split; [apply Rmult_le_pos; lra|]. split; [repeat apply Rmin_case; lra|].
  intros H dl (H0 & HH) Hdl o f t0 tb c s v v' k Args HB Ey Hlo Hhi HG HSt Hnf Hsh Hst.
  assert (B0 : H < 1) by (eapply Rlt_le_trans; [exact HH|apply Rmin_l]).
  assert (B1 : H < del) by (eapply Rlt_le_trans; [exact HH|eapply Rle_trans; [apply Rmin_r|apply Rmin_l]]).
  assert (B2 : H < del2) by (eapply Rlt_le_trans; [exact HH|eapply Rle_trans; [apply Rmin_r|apply Rmin_r]]).
  pose proof (Y_len d G lo hi Y HY t0 Hlo) as LY0.
  destruct (good_ipath m o f d G lo hi Y t0 tb c s H dl v Args HB Ey LY0 Hlo Hhi HG) as (x & yr & Q1 & Q2 & Q3 & Q4 & Q5 & Q6).
  destruct (H1 H dl t0 x yr (conj H0 B1) Hdl Hlo Q6) as (_ & Hx & Hcl).
  destruct (good_history _ _ _ _ _ _ _ _ HG) as (n & Hn).
  assert (HA : esd_after m o f t0 tb (map Fin (Y t0)) c n v) by (split; [exact Args|]; exists s; auto).
  destruct (esd_made _ _ _ _ _ _ _ _ _ _ _ _ HA HSt Hnf Q2) as (t & h & ks & y1 & cd' & AS & Et & _ & Et1 & _). 
  change (num RX) with xr in *. rewrite Q1 in Et. injection Et as <-. destruct AS as [_ _ _ _ A5 _ _ _ _ _ _ _].
  destruct (HVal _ _ _ _ _ _ _ _ _ _ _ _ _ _ HA HSt Hnf Q1 Q2 Et1 A5) as (_ & D & ED & EC).
  exists x, (x + h), D. split; [exact Q1|]. split; [exact Et1|]. split; [exact ED|]. intros th Hth.
  change (num RX) with xr in *. rewrite EC. rewrite map_length, LY0. eexists. split; [reflexivity|]. split; [apply ind_len|].
  specialize (Hsh _ _ Q1 Et1). specialize (Hst _ _ _ _ Q1 Et1 Q2 A5). replace (x + h - x) with h in * by ring.
  set (E0 := C * (Q2R eps + dl + H ^ p)) in *. assert (HHp : 0 <= H ^ p) by (apply pow_le; auto). assert (HE0 : 0 <= E0) by (unfold E0; apply Rmult_le_pos; lra).
  pose proof (H2 x h yr E0 dl ks th Hx ltac:(lra) HE0 Hcl Hst Hdl Hth) as X. eapply close_le; [exact X|].
  rewrite Rmult_assoc. apply Rmult_le_compat_l; [auto|].
  assert (Hh0 : 0 <= Rabs h) by apply Rabs_pos.
  assert (P1 : Rabs h * dl <= dl) by (rewrite <- (Rmult_1_l dl) at 2; apply Rmult_le_compat_r; lra).
  assert (P2 : Q2R e * Rabs h <= Q2R e * H) by (apply Rmult_le_compat_l; auto).
  assert (P3 : Rabs h ^ S p <= H ^ p).
  { cbn [pow]. rewrite <- (Rmult_1_l (H ^ p)). apply Rmult_le_compat; [auto|apply pow_le; auto|lra|apply pow_incr; auto]. }
  assert (P4 : 0 <= Q2R e * H) by (apply Rmult_le_pos; auto). assert (P5 : 0 <= C * (Q2R e * H)) by (apply Rmult_le_pos; auto).
  replace ((C + 1) * (Q2R eps + dl + H ^ p + Q2R e * H)) with (E0 + C * (Q2R e * H) + (Q2R eps + dl + H ^ p + Q2R e * H)) by (unfold E0; ring). lra.
Qed.

(** y' = J y + g(t), constant Jacobian, exact linear solves: nothing is assumed about the stage equations *)
Theorem C55_dense_linear m p eps pe epse ip e d J F lo hi Y : In (m, p, eps, pe, epse) implicit_orders -> In (m, ip, p, e) esd_dense_orders ->
  (exists g, linear_rhs d J g F) -> solution_on d F lo hi Y -> smooth_along p d F lo hi Y ->
  exists C del, 0 <= C /\ 0 < del /\ forall H, 0 <= H < del -> forall o f t0 tb c s v v' k,
    esd_args m o t0 tb (map Fin (Y t0)) -> linear_problem m o f d None J F t0 tb (Y t0) c s -> lo <= t0 <= hi -> lo <= tb <= hi ->
    short_run m c H (onew s) v -> esd_step m c k v = OOk v' -> (forall msg, ostat v' <> OFailed msg) ->
    (forall x1 x2, e_t (ost v) = Fin x1 -> e_t (ost v') = Fin x2 -> Rabs (x2 - x1) <= H) ->
    dense_within m ip c d Y v v' (C * (Q2R eps + H ^ p + Q2R e * H)).
Proof.
  intros Hm Hip (g & Hlin) HY HS. destruct (C55_dense m p eps pe epse ip e d F lo hi Y Hm Hip HY HS (linear_lipschitz _ _ _ _ Hlin)) as (C & del & HC & Hd & H1).
  exists C, del. split; [auto|]. split; [auto|]. intros H HH o f t0 tb c s v v' k Args HP Hlo Hhi HR HSt Hnf Hsh. destruct (linear_start _ _ _ _ _ _ _ _ _ _ _ Args HP) as (Ey & LF).
  pose proof (short_good _ _ _ _ _ _ _ _ _ _ _ _ _ _ _ Args HP (solved_none _ _ LF) HR) as G1.
  assert (Hst : forall x1 x2 y ks, e_t (ost v) = Fin x1 -> e_t (ost v') = Fin x2 -> e_y (ost v) = map Fin y -> e_K (ost v') = map (map Fin) ks ->
       stages_within d (em_stages m) (rA m) (rC m) F x1 (x2 - x1) y 0 ks).
  { intros x1 x2 y ks E1 E2 Ey1 EK. exact (good_stages _ _ _ _ _ _ _ _ _ _ _ _ _ _ _ _ _ Args HP (solved_none _ _ LF) HR HSt Hnf _ _ _ _ E1 E2 Ey1 EK). }
  pose proof (H1 H 0 HH (Rle_refl 0) o f t0 tb c s v v' k Args (linear_built _ _ _ _ _ _ _ _ _ _ _ _ HP) Ey Hlo Hhi G1 HSt Hnf Hsh Hst) as X.
  rewrite Rplus_0_r in X. exact X.
Qed.
(** with the option max_step = ms (which C33 allows to be exceeded by 1%) *)
Theorem C55_dense_max_step m p eps pe epse ip e d J F lo hi Y : In (m, p, eps, pe, epse) implicit_orders -> In (m, ip, p, e) esd_dense_orders ->
  (exists g, linear_rhs d J g F) -> solution_on d F lo hi Y -> smooth_along p d F lo hi Y ->
  exists C del, 0 <= C /\ 0 < del /\ forall ms, 0 <= ms < del -> forall o f t0 tb c s n v v' k, p_max_step o = Fin ms ->
    esd_args m o t0 tb (map Fin (Y t0)) -> linear_problem m o f d None J F t0 tb (Y t0) c s -> lo <= t0 <= hi -> lo <= tb <= hi ->
    ohist eview (x_tb c) (x_dir c) (esd_impl m c) (onew s) n v -> esd_step m c k v = OOk v' -> (forall msg, ostat v' <> OFailed msg) ->
    dense_within m ip c d Y v v' (C * (Q2R eps + ms ^ p + Q2R e * ms)).
Proof.
  intros Hm Hip Hlin HY HS. destruct (C55_dense_linear m p eps pe epse ip e d J F lo hi Y Hm Hip Hlin HY HS) as (C & del & HC & Hd & H1). destruct (implicit_orders_pos _ _ _ _ _ Hm) as (_ & He). pose proof (esd_dense_pos _ _ _ _ Hip) as Hed.
  set (a := (101/100) ^ p). assert (Ha : 1 <= a) by (apply pow_R1_Rle; lra).
  exists (C * (a + 2)), (del * (100/101)). split; [apply Rmult_le_pos; lra|]. split; [lra|]. intros ms Hms0 o f t0 tb c s n v v' k Hms Args HP Hlo Hhi HH HSt Hnf.
  pose proof (linear_built _ _ _ _ _ _ _ _ _ _ _ _ HP) as HB.
  assert (HA : esd_after m o f t0 tb (map Fin (Y t0)) c n v) by (split; [exact Args|exists s; auto]).
  assert (Hsh : forall x1 x2, e_t (ost v) = Fin x1 -> e_t (ost v') = Fin x2 -> Rabs (x2 - x1) <= 101/100 * ms).
  { intros x1 x2 E1 E2. apply Rlt_le. exact (C33_within_one_percent _ _ _ _ _ _ _ _ _ _ _ _ _ _ HA HSt Hms E1 E2). }
  destruct (H1 (101/100 * ms) ltac:(lra) o f t0 tb c s v v' k Args HP Hlo Hhi (max_step_short _ _ _ _ _ _ _ _ _ _ _ Args HB Hms HH) HSt Hnf Hsh) as (x & x1 & D & Q1 & Q2 & Q3 & Q4).
  exists x, x1, D. split; [exact Q1|]. split; [exact Q2|]. split; [exact Q3|]. intros th Hth. destruct (Q4 th Hth) as (r & R1 & R2 & R3). exists r. split; [exact R1|]. split; [exact R2|].
  eapply close_le; [exact R3|]. rewrite Rpow_mult_distr. fold a. rewrite Rmult_assoc. apply Rmult_le_compat_l; [auto|].
  assert (P : 0 <= ms ^ p) by (apply pow_le; lra). assert (P2 : 0 <= Q2R e * ms) by (apply Rmult_le_pos; lra). nra.
Qed.
(** every implicit class has such an interpolant, of the order of the method *)
Theorem C55_dense_complete m : In m esd_all -> exists p eps pe epse ip e, In (m, p, eps, pe, epse) implicit_orders /\ In (m, ip, p, e) esd_dense_orders.
Proof.
  intros Hm. destruct (C21_esdirk_complete m Hm) as (ip & p & e & H1 & H2).
  assert (HI : exists p eps pe epse, In (m, p, eps, pe, epse) implicit_orders /\ em_order m = p).
  { unfold esd_all in Hm. cbn [In] in Hm. decompose [or] Hm; subst; try contradiction; repeat eexists; unfold implicit_orders; cbn [In]; eauto 10. }
  destruct HI as (p' & eps & pe & epse & HI & E). exists p', eps, pe, epse, ip, e. split; [exact HI|]. rewrite <- E, H2. exact H1.
Qed.
