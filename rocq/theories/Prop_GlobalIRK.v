(** C55: convergence of the implicit (ESDIRK) classes. *)
From Coq Require Import String Reals Lra Psatz QArith Qreals Bool Lia List Arith.
From Verif Require Import Arith Common Stiff RK HStart RKInit RX SpecRK Tableaux Classes Ode RKReal RKInitReal Series Trees OrderThm OrderCheck OrderRK OrderModel GOrder OrderIRK OrderIRKTab RKSpecProofs
  ESDIRK ESDCls ESDGen ESDReal ESDStep ESDInv ESDTop Prop_ESD ESDLin ESDLin2 ESDLin3 ESDLin4 Prop_ESDLin ESDAcc Prop_ESDDense Smooth Prop_IRK UOrder UOrder2 GlobalRK GlobalPoly GlobalRun GlobalRunN Prop_Global GlobalIRK.
Import ListNotations.
Close Scope string_scope. Open Scope nat_scope. Open Scope R_scope.

(** ** specification *)
(** the state of the solver is within [bound] of Y in all components, between t0 and tb, and at tb
    when it is finished *)
Definition tracked_i (d : nat) (Y : R -> list R) (t0 tb : R) (v : OSolver RX (ES RX)) (bound : R) : Prop :=
  exists x yr, e_t (ost v) = Fin x /\ e_y (ost v) = map Fin yr /\ length yr = d /\ within t0 tb x /\
    (ostat v = OFinished -> x = tb) /\ close d yr (Y x) bound.
(** the states after any number of step() calls whose successful steps are at most H long *)
Inductive short_run (m : EMeth RX) (c : ECfg RX) (H : R) (v0 : OSolver RX (ES RX)) : OSolver RX (ES RX) -> Prop :=
| sr_start : short_run m c H v0 v0
| sr_step v1 v2 k : short_run m c H v0 v1 -> esd_step m c k v1 = OOk v2 ->
    (forall x1 x2, e_t (ost v1) = Fin x1 -> e_t (ost v2) = Fin x2 -> Rabs (x2 - x1) <= H) -> short_run m c H v0 v2.
(** ... and whose slopes (K after the step) satisfy the stage equations of y' = G(t, y) up to dl *)
Inductive good_run (m : EMeth RX) (c : ECfg RX) (d : nat) (G : R -> list R -> list R) (H dl : R) (v0 : OSolver RX (ES RX)) : OSolver RX (ES RX) -> Prop :=
| gr_start : good_run m c d G H dl v0 v0
| gr_step v1 v2 k : good_run m c d G H dl v0 v1 -> esd_step m c k v1 = OOk v2 ->
    (forall x1 x2, e_t (ost v1) = Fin x1 -> e_t (ost v2) = Fin x2 -> Rabs (x2 - x1) <= H) ->
    (forall x1 x2 y ks, (forall msg, ostat v2 <> OFailed msg) -> e_t (ost v1) = Fin x1 -> e_t (ost v2) = Fin x2 -> e_y (ost v1) = map Fin y -> e_K (ost v2) = map (map Fin) ks ->
       stages_within d (em_stages m) (rA m) (rC m) G x1 (x2 - x1) y dl ks) ->
    good_run m c d G H dl v0 v2.
(** M (absent: the identity) is regular and G = M^-1 F *)
Definition solved_for (d : nat) (M : option (list (list R))) (F G : R -> list R -> list R) : Prop :=
  (forall u v, length u = d -> length v = d -> (forall q, (q < d)%nat -> rmv_opt d M u q = rmv_opt d M v q) -> u = v) /\
  forall t y, length y = d -> length (G t y) = d /\ forall q, (q < d)%nat -> rmv_opt d M (G t y) q = nth q (F t y) 0.

(** ** proofs *)
Lemma good_history m c d G H dl v0 v : good_run m c d G H dl v0 v -> exists n, ohist eview (x_tb c) (x_dir c) (esd_impl m c) v0 n v.
Proof. induction 1 as [|v1 v2 k _ (n & IH) HS _ _]; [exists 0%nat; constructor|]. exists (S n). econstructor; [exact IH|exact HS]. Qed.
Lemma short_history m c H v0 v : short_run m c H v0 v -> exists n, ohist eview (x_tb c) (x_dir c) (esd_impl m c) v0 n v.
Proof. induction 1 as [|v1 v2 k _ (n & IH) HS _]; [exists 0%nat; constructor|]. exists (S n). econstructor; [exact IH|exact HS]. Qed.

Lemma good_ipath m o f d G lo hi Y t0 tb c s H dl v : esd_args m o t0 tb (map Fin (Y t0)) -> esd_built m o f t0 tb (map Fin (Y t0)) c s -> e_y s = map Fin (Y t0) -> length (Y t0) = d ->
  lo <= t0 <= hi -> lo <= tb <= hi -> good_run m c d G H dl (onew s) v ->
  exists x yr, e_t (ost v) = Fin x /\ e_y (ost v) = map Fin yr /\ length yr = d /\ within t0 tb x /\ (ostat v = OFinished -> x = tb) /\
    ipath d (em_stages m) (rA m) (rB m) (rC m) G lo hi Y H dl t0 x yr.
Proof.
  intros Args HB Ey0 Ly0 Hlo Hhi HG.
  destruct (esd_built_good _ _ _ _ _ _ _ _ Args HB) as (r & Hr & Etb & Hdir & _ & _ & _ & En & _ & _ & Et0 & _).
  assert (Hcd : x_dir c = Fin (cd r) /\ (cd r = 1 \/ cd r = -1)) by (destruct Hr as (_ & H1 & H2 & _); auto). destruct Hcd as (Edir & Hcd).
  assert (HA : forall w, good_run m c d G H dl (onew s) w -> exists n, esd_after m o f t0 tb (map Fin (Y t0)) c n w).
  { intros w Hw. destruct (good_history _ _ _ _ _ _ _ _ Hw) as (n & Hn). exists n. split; [exact Args|]. exists s. auto. }
  assert (Q : exists x yr, e_t (ost v) = Fin x /\ e_y (ost v) = map Fin yr /\ length yr = d /\ (0 <= cd r * (x - t0) /\ 0 <= cd r * (tb - x)) /\ (ostat v = OFinished -> x = tb) /\
    ipath d (em_stages m) (rA m) (rB m) (rC m) G lo hi Y H dl t0 x yr).
  2:{ destruct Q as (x & yr & Q1 & Q2 & Q3 & Q4 & Q5 & Q6). exists x, yr. repeat (split; [assumption|]). split; [|split; assumption].
      unfold within. destruct Hcd as [Z|Z]; rewrite Z in *; [left|right]; lra. }
  induction HG as [|v1 v2 k HG IH HS Hsh Hst].
  - exists t0, (Y t0). cbn [ost onew ostat]. split; [exact Et0|]. split; [exact Ey0|]. split; [exact Ly0|]. split; [split; [replace (t0 - t0) with 0 by ring; lra|lra]|]. split; [discriminate|constructor].
  - destruct IH as (x & yr & Ex & Ey & Ly & Hx & _ & HP). destruct (HA _ HG) as (n & Hn).
    destruct (esd_step_cases _ _ _ _ _ _ _ _ _ _ _ Hn HS) as (r2 & Hr2 & E1 & _ & _ & _ & _ & _ & LA & _ & I1 & Ah & HC).
    assert (Er : cd r2 = cd r) by (destruct Hr2 as (_ & H1 & _); rewrite Edir in H1; injection H1; auto). rewrite Er in *.
    assert (Tx : tval (ost v1) = x) by (unfold tval; rewrite Ex; reflexivity). rewrite Tx in *.
    destruct HC as [(D & I2 & Eo & St)|(_ & Ef & Et & Ey' & _)].
    + assert (Hnf : forall msg, ostat v2 <> OFailed msg) by (intros msg E; destruct St as [(St & _)|(St & _)]; rewrite E in St; discriminate).
      destruct (esd_made _ _ _ _ _ _ _ _ _ _ _ _ Hn HS Hnf Ey) as (t & h & ks & y1 & cd' & AS & Et & _ & Et1 & Lyn & Hn0 & RT & Ed' & Hd').
      change (num RX) with xr in *. rewrite Ex in Et. injection Et as <-. rewrite Edir in Ed'. injection Ed' as <-.
      destruct AS as [_ _ _ _ A5 A6 A7 _ _ A10 A11 A12].
      specialize (Hsh _ _ Ex Et1). specialize (Hst _ _ _ _ Hnf Ex Et1 Ey A5). replace (x + h - x) with h in * by ring.
      assert (T2 : tval (ost v2) = x + h) by (unfold tval; rewrite Et1; reflexivity). rewrite T2 in *.
      assert (Hin : 0 <= cd r * (x + h - t0) /\ 0 <= cd r * (tb - (x + h))).
      { split; [replace (cd r * (x + h - t0)) with (cd r * (x - t0) + cd r * h) by ring; lra|]. destruct St as [(_ & St)|(_ & St)]; [lra|rewrite St; replace (tb - tb) with 0 by ring; lra]. }
      assert (Ey2 : y1 = rpoint d yr h (lcomb (em_stages m) (rB m) ks)).
      { assert (Nd : x_n c = d) by lia. apply nth_eq_list; [rewrite rpoint_length; lia|]. intros q Hq. rewrite A12 by lia. unfold rpoint. rewrite nth_map_seq by lia. reflexivity. }
      exists (x + h), y1. split; [exact Et1|]. split; [exact A10|]. split; [rewrite Ey2; apply rpoint_length|]. split; [exact Hin|].
      split; [intros E; destruct St as [(St & _)|(_ & St)]; [rewrite E in St; discriminate|exact St]|].
      rewrite Ey2. replace h with ((x + h) - x) at 2 by ring.
      apply ipathS; [exact HP| | | |replace (x + h - x) with h by ring; exact Hst].
      * destruct Hcd as [Z|Z]; rewrite Z in *; lra.
      * replace (x + h - x) with h by ring. destruct Hcd as [Z|Z]; rewrite Z in *; nra.
      * replace (x + h - x) with h by ring. exact Hsh.
    + exists x, yr. rewrite Et, Ey'. repeat (split; [assumption|]). split; [intros E; rewrite E in Ef; discriminate|exact HP].
Qed.

Lemma implicit_orders_pos m p eps pe epse : In (m, p, eps, pe, epse) implicit_orders -> (0 < p)%nat /\ 0 <= Q2R eps.
Proof.
  intros H. repeat (destruct H as [E|H]; [injection E as <- <- <- <- <-; split; [lia|]; unfold Q2R, e24; cbn [Qnum Qden]; apply Rmult_le_pos; [lra|apply Rlt_le, Rinv_0_lt_compat, IZR_lt; reflexivity]|]). destruct H.
Qed.

(** ** C55 *)
(** Any right-hand side that is Lipschitz in y and smooth along a solution Y on [lo, hi]: every run of an implicit
    class (any options, Jacobian, mass matrix M with G = M^-1 F, either direction, inside [lo, hi]) that starts on Y,
    makes steps of at most H and whose slopes satisfy the stage equations up to dl in every step has errors of at
    most C (eps + dl + H^p); p is the declared order, eps the residual of the order conditions (0 or 1e-24). *)
Theorem C55_residuals m p eps pe epse d G lo hi Y : In (m, p, eps, pe, epse) implicit_orders -> solution_on d G lo hi Y -> smooth_along p d G lo hi Y -> lipschitz_global d G ->
  exists C del, 0 <= C /\ 0 < del /\ forall H dl, 0 <= H < del -> 0 <= dl -> forall o f t0 tb c s v,
    esd_args m o t0 tb (map Fin (Y t0)) -> esd_built m o f t0 tb (map Fin (Y t0)) c s -> e_y s = map Fin (Y t0) -> lo <= t0 <= hi -> lo <= tb <= hi ->
    good_run m c d G H dl (onew s) v -> tracked_i d Y t0 tb v (C * (Q2R eps + dl + H ^ p)).
Proof.
  intros Hm HY HS (L & HL0 & HL). destruct (classes_near _ _ _ _ _ Hm) as (HV & _ & _). destruct (implicit_orders_pos _ _ _ _ _ Hm) as (Hp & He).
  destruct (coef_bound (em_stages m) (rA m) (rA m) (rC m) (rB m) (rB m)) as (W & W1 & _ & W3 & W4 & _).
  destruct (global_error_irk d p G lo hi Y HY HS (em_stages m) (rA m) (rB m) (rC m) W L (Q2R eps) HL0 HL W1 W4 W3 He HV Hp) as (C & del & HC & Hd & H1).
  exists C, del. split; [auto|]. split; [auto|]. intros H dl HH Hdl o f t0 tb c s v Args HB Ey Hlo Hhi HG.
  destruct (good_ipath m o f d G lo hi Y t0 tb c s H dl v Args HB Ey (Y_len d G lo hi Y HY t0 Hlo) Hlo Hhi HG) as (x & yr & Q1 & Q2 & Q3 & Q4 & Q5 & Q6).
  exists x, yr. repeat (split; [assumption|]). apply (H1 H dl t0 x yr HH Hdl Hlo Q6).
Qed.

(** linear problems: the stage equations are solved exactly *)
(** one successful step solves the stage equations exactly *)
Lemma good_stages m o f d M J F G t0 tb y0 c s H v1 v2 k : esd_args m o t0 tb (map Fin y0) -> linear_problem m o f d M J F t0 tb y0 c s -> solved_for d M F G ->
  short_run m c H (onew s) v1 -> esd_step m c k v1 = OOk v2 -> (forall msg, ostat v2 <> OFailed msg) ->
  forall x1 x2 y ks, e_t (ost v1) = Fin x1 -> e_t (ost v2) = Fin x2 -> e_y (ost v1) = map Fin y -> e_K (ost v2) = map (map Fin) ks ->
  stages_within d (em_stages m) (rA m) (rC m) G x1 (x2 - x1) y 0 ks.
Proof.
  intros Args HP (Hinj & HG) HR HS Hnf x1 x2 y ks E1 E2 Ey EK.
  destruct (short_history _ _ _ _ _ HR) as (n & Hn).
  assert (HLA : linear_after m o f d M J F t0 tb y0 c n v1) by (split; [exact Args|exists s; auto]).
  destruct (C29_linear_step _ _ _ _ _ _ _ _ _ _ _ _ _ _ _ HLA HS Hnf) as (t & h & y' & ks' & y1 & B1 & B2 & _ & B4 & _ & B6 & (B7 & B8 & _) & _).
  change (num RX) with xr in *. rewrite E1 in B1. injection B1 as <-. rewrite Ey in B2. apply map_inj_fin in B2. subst y'. rewrite E2 in B4. injection B4 as ->.
  rewrite EK in B6. assert (Ek : ks = ks').
  { clear - B6. revert ks' B6. induction ks as [|k ks IH]; intros [|k' ks'] H; cbn [map] in H; try discriminate; [reflexivity|]. injection H as H1 H2. f_equal; [apply map_inj_fin; exact H1|apply IH; exact H2]. }
  subst ks'. replace (x1 + h - x1) with h by ring. intros i q Hi Hq. destruct (B8 i Hi) as (L1 & L2).
  destruct (HG (x1 + rC m i * h) (rpoint d y h (lcomb (em_stages m) (rA m i) ks)) (rpoint_length _ _ _ _)) as (L3 & L4).
  rewrite (Hinj _ _ L1 L3); [rewrite Rminus_eq_0, Rabs_R0; lra|]. intros q' Hq'. rewrite L2, L4 by exact Hq'. reflexivity.
Qed.
Lemma short_good m o f d M J F G t0 tb y0 c s H v : esd_args m o t0 tb (map Fin y0) -> linear_problem m o f d M J F t0 tb y0 c s -> solved_for d M F G ->
  short_run m c H (onew s) v -> good_run m c d G H 0 (onew s) v.
Proof.
  intros Args HP HGG HR. induction HR as [|v1 v2 k HR IH HS Hsh]; [constructor|].
  econstructor; [exact IH|exact HS|exact Hsh|]. intros x1 x2 y ks Hnf. eapply good_stages; eauto.
Qed.
(** C55 for M y' = J y + g(t) with a regular M (or none): any run with steps of at most H *)
Theorem C55_linear m p eps pe epse d M J F G lo hi Y : In (m, p, eps, pe, epse) implicit_orders -> solved_for d M F G -> solution_on d G lo hi Y -> smooth_along p d G lo hi Y -> lipschitz_global d G ->
  exists C del, 0 <= C /\ 0 < del /\ forall H, 0 <= H < del -> forall o f t0 tb c s v,
    esd_args m o t0 tb (map Fin (Y t0)) -> linear_problem m o f d M J F t0 tb (Y t0) c s -> e_y s = map Fin (Y t0) -> lo <= t0 <= hi -> lo <= tb <= hi ->
    short_run m c H (onew s) v -> tracked_i d Y t0 tb v (C * (Q2R eps + H ^ p)).
Proof.
  intros Hm HG HY HS HL. destruct (C55_residuals m p eps pe epse d G lo hi Y Hm HY HS HL) as (C & del & HC & Hd & H1).
  exists C, del. split; [auto|]. split; [auto|]. intros H HH o f t0 tb c s v Args HP Ey Hlo Hhi HR.
  pose proof (H1 H 0 HH (Rle_refl 0) o f t0 tb c s v Args (linear_built _ _ _ _ _ _ _ _ _ _ _ _ HP) Ey Hlo Hhi (short_good _ _ _ _ _ _ _ _ _ _ _ _ _ _ _ Args HP HG HR)) as X.
  rewrite Rplus_0_r in X. exact X.
Qed.
Lemma linear_lipschitz d J g F : linear_rhs d J g F -> lipschitz_global d F.
Proof.
  intros HL. destruct (matrix_bound d (fun q j => nth j (nth q J []) 0)) as (B & HB & H1). exists (INR d * B). split; [apply Rmult_le_pos; [apply pos_INR|auto]|].
  intros t u v e Lu Lv Huv q Hq. rewrite !HL by auto. unfold rmv. match goal with |- Rabs (?a + ?b - (?c + ?b)) <= _ => replace (a + b - (c + b)) with (a - c) by ring end.
  rewrite <- rsum_sub'. rewrite Rmult_assoc. apply rsum_bound. intros j Hj. rewrite <- Rmult_minus_distr_l, Rabs_mult.
  apply Rmult_le_compat; [apply Rabs_pos|apply Rabs_pos|apply H1; auto|apply Huv; auto].
Qed.
Lemma solved_none d F : (forall t y, length y = d -> length (F t y) = d) -> solved_for d None F F.
Proof.
  intros HF. split; [|intros t y Hy; split; [apply HF; exact Hy|]; intros; reflexivity].
  intros u v Lu Lv H. apply nth_eq_list; [congruence|]. intros q Hq. apply H. congruence.
Qed.
Lemma linear_start m o f d J F t0 tb y0 c s : esd_args m o t0 tb (map Fin y0) -> linear_problem m o f d None J F t0 tb y0 c s ->
  e_y s = map Fin y0 /\ forall t y, length y = d -> length (F t y) = d.
Proof.
  intros (Hm & Hne & Hy & Hsc & Hms & Hfs) HP. inversion HP as [luok solve g c0 s0 E HE HX L HJ HM HF HR|luok solve g M1 U k y1 yp1 h1 c0 s0 E EM]; [subst|discriminate EM].
  destruct (esd_init_good _ _ _ _ _ _ _ _ _ _ _ _ Hm E Hne Hy Hsc Hms Hfs) as (r2 & h & yp0 & J0 & jc & B1 & B2 & B3 & B4 & B5 & B6 & B7 & B8 & B9 & B10 & B11 & B12 & B13 & B14 & B15 & B16 & B17 & B18 & Es).
  split; [rewrite Es; reflexivity|]. intros t y Ly. apply (HF t y Ly).
Qed.
(** without a mass matrix: any y' = J y + g(t) *)
Theorem C55_linear_plain m p eps pe epse d J F lo hi Y : In (m, p, eps, pe, epse) implicit_orders -> (exists g, linear_rhs d J g F) -> solution_on d F lo hi Y -> smooth_along p d F lo hi Y ->
  exists C del, 0 <= C /\ 0 < del /\ forall H, 0 <= H < del -> forall o f t0 tb c s v,
    esd_args m o t0 tb (map Fin (Y t0)) -> linear_problem m o f d None J F t0 tb (Y t0) c s -> lo <= t0 <= hi -> lo <= tb <= hi ->
    short_run m c H (onew s) v -> tracked_i d Y t0 tb v (C * (Q2R eps + H ^ p)).
Proof.
  intros Hm (g & Hlin) HY HS. destruct (C55_residuals m p eps pe epse d F lo hi Y Hm HY HS (linear_lipschitz _ _ _ _ Hlin)) as (C & del & HC & Hd & H1).
  exists C, del. split; [auto|]. split; [auto|]. intros H HH o f t0 tb c s v Args HP Hlo Hhi HR. destruct (linear_start _ _ _ _ _ _ _ _ _ _ _ Args HP) as (Ey & LF).
  pose proof (H1 H 0 HH (Rle_refl 0) o f t0 tb c s v Args (linear_built _ _ _ _ _ _ _ _ _ _ _ _ HP) Ey Hlo Hhi (short_good _ _ _ _ _ _ _ _ _ _ _ _ _ _ _ Args HP (solved_none _ _ LF) HR)) as X.
  rewrite Rplus_0_r in X. exact X.
Qed.
(** the option max_step limits the steps to 1.01 max_step *)
Lemma max_step_short m o f t0 tb y0 c s ms n v : esd_args m o t0 tb y0 -> esd_built m o f t0 tb y0 c s -> p_max_step o = Fin ms ->
  ohist eview (x_tb c) (x_dir c) (esd_impl m c) (onew s) n v -> short_run m c (101/100 * ms) (onew s) v.
Proof.
  intros Args HB Hms HH. remember (onew s) as v0. induction HH as [v|v n v1 v2 k HH IH HS]; [constructor|]. subst v.
  econstructor; [apply IH; reflexivity|exact HS|]. intros x1 x2 E1 E2. apply Rlt_le.
  assert (HA : esd_after m o f t0 tb y0 c n v1) by (split; [exact Args|exists s; auto]).
  exact (C33_within_one_percent _ _ _ _ _ _ _ _ _ _ _ _ _ _ HA HS Hms E1 E2).
Qed.
Theorem C55_max_step m p eps pe epse d J F lo hi Y : In (m, p, eps, pe, epse) implicit_orders -> (exists g, linear_rhs d J g F) -> solution_on d F lo hi Y -> smooth_along p d F lo hi Y ->
  exists C del, 0 <= C /\ 0 < del /\ forall ms, 0 <= ms < del -> forall o f t0 tb c s n v, p_max_step o = Fin ms ->
    esd_args m o t0 tb (map Fin (Y t0)) -> linear_problem m o f d None J F t0 tb (Y t0) c s -> lo <= t0 <= hi -> lo <= tb <= hi ->
    ohist eview (x_tb c) (x_dir c) (esd_impl m c) (onew s) n v -> tracked_i d Y t0 tb v (C * (Q2R eps + ms ^ p)).
Proof.
  intros Hm Hlin HY HS. destruct (C55_linear_plain m p eps pe epse d J F lo hi Y Hm Hlin HY HS) as (C & del & HC & Hd & H1). destruct (implicit_orders_pos _ _ _ _ _ Hm) as (_ & He).
  set (a := (101/100) ^ p). assert (Ha : 1 <= a) by (apply pow_R1_Rle; lra).
  exists (C * a), (del * (100/101)). split; [apply Rmult_le_pos; lra|]. split; [lra|]. intros ms Hms0 o f t0 tb c s n v Hms Args HP Hlo Hhi HH.
  destruct (H1 (101/100 * ms) ltac:(lra) o f t0 tb c s v Args HP Hlo Hhi (max_step_short _ _ _ _ _ _ _ _ _ _ _ Args (linear_built _ _ _ _ _ _ _ _ _ _ _ _ HP) Hms HH)) as (x & yr & Q1 & Q2 & Q3 & Q4 & Q5 & Q6).
  exists x, yr. repeat (split; [assumption|]). eapply close_le; [exact Q6|]. rewrite Rpow_mult_distr. fold a. rewrite Rmult_assoc. apply Rmult_le_compat_l; [auto|]. nra.
Qed.
(** g a polynomial in t: nothing more is needed than a solution *)
Theorem C55_polynomial m p eps pe epse d J F lo hi Y : In (m, p, eps, pe, epse) implicit_orders -> (exists g, linear_rhs d J g F) -> polynomial d F -> solution_on d F lo hi Y ->
  exists C del, 0 <= C /\ 0 < del /\ forall H, 0 <= H < del -> forall o f t0 tb c s v,
    esd_args m o t0 tb (map Fin (Y t0)) -> linear_problem m o f d None J F t0 tb (Y t0) c s -> lo <= t0 <= hi -> lo <= tb <= hi ->
    short_run m c H (onew s) v -> tracked_i d Y t0 tb v (C * (Q2R eps + H ^ p)).
Proof. intros Hm Hlin HP HY. apply (C55_linear_plain m p eps pe epse d J F lo hi Y Hm Hlin HY (polynomial_smooth_along _ _ _ _ _ _ HP HY)). Qed.

(** the hypotheses are met: y' = lam y, y(0) = 1, for all six classes; a solver is constructed, and the runs without
    and with steps (one step of at most 1/2 from the initial state) are instances of [short_run] *)
Example C55_case m lam : In m esd_all -> exists p eps pe epse c s, In (m, p, eps, pe, epse) implicit_orders /\ polynomial 1 (lam_r lam) /\ linear_rhs 1 [[lam]] (fun _ _ => 0) (lam_r lam) /\ lipschitz_global 1 (lam_r lam) /\
  (forall lo hi, solution_on 1 (lam_r lam) lo hi (fun t => [exp (lam * t)])) /\ esd_args m lam_opts 0 1 (map Fin [exp (lam * 0)]) /\
  linear_problem m lam_opts (lam_x lam) 1 None [[lam]] (lam_r lam) 0 1 [exp (lam * 0)] c s /\
  forall k v, esd_step m c k (onew s) = OOk v -> short_run m c 1 (onew s) v.
Proof.
  intros Hm. destruct (C29_case m lam Hm) as (c & s & Args & HP). rewrite Rmult_0_r, exp_0.
  assert (HI : exists p eps pe epse, In (m, p, eps, pe, epse) implicit_orders).
  { unfold esd_all in Hm. cbn [In] in Hm. decompose [or] Hm; subst; try contradiction; repeat eexists; unfold implicit_orders; cbn [In]; eauto 10. }
  destruct HI as (p & eps & pe & epse & HI). exists p, eps, pe, epse, c, s. split; [exact HI|].
  assert (HL : linear_rhs 1 [[lam]] (fun _ _ => 0) (lam_r lam)).
  { intros t u q Lu Hq. destruct u as [|a [|]]; try discriminate Lu. replace q with 0%nat by lia. unfold rmv, lam_r. cbn [rsum nth]. ring. }
  split. { exists (fun _ => [(lam, [1%nat])]). split; [intros q _; repeat constructor|]. intros t y Hy. split; [reflexivity|]. intros [|q] Hq; [|lia]. destruct y as [|a [|]]; try discriminate Hy. unfold lam_r. cbn [nth lsum fst snd fold_right]. ring. }
  split; [exact HL|]. split; [apply (linear_lipschitz _ _ _ _ HL)|].
  split. { intros lo hi. exists 1. split; [lra|]. intros t _. split; [reflexivity|]. intros [|q] Hq; [|lia]. unfold lam_r. cbn [nth].
    replace (lam * exp (lam * t)) with (exp (lam * t) * (lam * 1)) by ring.
    apply (derivable_pt_lim_comp (fun x => lam * x) exp t (lam * 1) (exp (lam * t))); [apply derivable_pt_lim_scal, derivable_pt_lim_id|apply derivable_pt_lim_exp]. }
  split; [exact Args|]. split; [exact HP|]. intros k v HS. econstructor; [constructor|exact HS|]. intros x1 x2 E1 E2.
  assert (HA : esd_after m lam_opts (lam_x lam) 0 1 (map Fin [1]) c 0 (onew s)) by (split; [exact Args|exists s; split; [apply (linear_built _ _ _ _ _ _ _ _ _ _ _ _ HP)|constructor]]).
  destruct (esd_built_good _ _ _ _ _ _ _ _ Args (linear_built _ _ _ _ _ _ _ _ _ _ _ _ HP)) as (r0 & _ & _ & _ & _ & _ & _ & _ & _ & _ & Et0 & _).
  cbn [ost onew] in E1. change (num RX) with xr in *. rewrite E1 in Et0. injection Et0 as ->.
  destruct (esd_step_cases _ _ _ _ _ _ _ _ _ _ _ HA HS) as (r & G & Z1 & Z2 & _ & _ & _ & _ & LA & _ & I1 & Ah & HC).
  assert (Hcd : cd r = 1 \/ cd r = -1) by (destruct G as (_ & _ & Hcd & _); exact Hcd).
  destruct HC as [(D & _ & _ & St)|(_ & _ & Et & _)].
  - assert (T2 : tval (ost v) = x2) by (unfold tval; rewrite E2; reflexivity). rewrite T2 in St.
    rewrite <- Z1 in Ah. destruct (estep_adv m c r k _ _ LA G I1 Ah D) as (_ & [H1 _] & _). cbn [ost onew] in H1. unfold tval in H1. rewrite E1, E2 in H1. 
    assert (cd r = 1) by (destruct Hcd; auto; lra). rewrite H in *. assert (0 < cmb r) by (destruct G as (_ & _ & _ & _ & _ & _ & G1 & _); exact G1).
    apply Rabs_le. destruct St as [(_ & St)|(_ & St)]; lra.
  - cbn [ost onew] in Et. change (num RX) with xr in *. rewrite Et, E1 in E2. injection E2 as <-. rewrite Rminus_eq_0, Rabs_R0. lra.
Qed.
