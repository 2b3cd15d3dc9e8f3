(** C58: convergence of SSV2stab, the stabilised Runge-Kutta-Chebyshev method. *)
From Coquelicot Require Import Coquelicot.
From Coq Require Import String ZArith Reals Lra Psatz QArith Qreals Bool Lia List Arith.
From Verif Require Import Series Arith Common Stiff RK QX RX SpecRK HStart RKInit RKReal RKStep HStartReal RKInitReal NormReal Prop_Tol Ode Dense Trees OrderThm OrderRK OrderModel DenseReal DenseJoin DenseJoin2 Smooth SwagArr Rkc RkcGen Cheb RkcReal RkcOrd RkcRho RkcStep RkcTop Prop_RKC GOrder UOrder UOrder2 GlobalRK GlobalPoly GlobalRun GlobalAny GlobalRKC.
Import ListNotations.
Close Scope string_scope. Open Scope nat_scope. Open Scope R_scope.

(** ** specification *)
(** calls of step() whose accepted steps are at most H *)
Inductive rkc_short (c : RkcCfg RX) (H : R) (v0 : OSolver RX (RkcSt RX)) : OSolver RX (RkcSt RX) -> Prop :=
| rsh_start : rkc_short c H v0 v0
| rsh_step v1 v2 k : rkc_short c H v0 v1 -> rkc_step ELX c k v1 = OOk v2 ->
    (forall x1 x2, rs_t (ost v1) = Fin x1 -> rs_t (ost v2) = Fin x2 -> Rabs (x2 - x1) <= H) -> rkc_short c H v0 v2.
(** the solver is within [bound] of Y in all components, between t0 and tb, and at tb when it is finished *)
Definition rkc_tracked (d : nat) (Y : R -> list R) (t0 tb : R) (v : OSolver RX (RkcSt RX)) (bound : R) : Prop :=
  exists x yr, rs_t (ost v) = Fin x /\ rs_y (ost v) = map Fin yr /\ length yr = d /\ within t0 tb x /\
    (ostat v = OFinished -> x = tb) /\ close d yr (Y x) bound.

(** ** runs of the solver *)
Lemma rkc_short_real o f t0 tb d F y0 c s H v : rkc_real o f t0 tb d F y0 c 0 (onew s) -> rkc_short c H (onew s) v -> exists n, rkc_real o f t0 tb d F y0 c n v.
Proof.
  intros HR HS. induction HS as [|v1 v2 k HS IH E _]; [exists 0%nat; exact HR|]. destruct IH as (n & [Q1 Q2 Q3 Q4 Q5 Q6 (s1 & E1 & HH)]).
  exists (S n). constructor; auto. exists s1. split; [exact E1|]. unfold rkc_hist in *. econstructor; [exact HH|exact E].
Qed.
Lemma accepted_cheb c d F t tb y h m sp y1 N : lifts d F (rc_fun c) -> length y = d -> (rc_mmax c <= Z.of_nat N)%Z -> rkc_accepted c d F t tb y h m sp y1 -> cheb_step F N t y h y1.
Proof.
  intros HL Ly HN [_ (Hm & Hmm) _ _ _ (u1 & u2 & cl & EV) _ _]. exists m. split; [lia|].
  rewrite (stages_real m Hm F t h y (F t y) d (rc_fun c) HL Ly (proj1 (HL t y Ly))) in EV.
  apply inl_inj in EV. apply (f_equal (fun p => fst (fst (fst p)))) in EV. cbn [fst] in EV. symmetry. apply map_inj_fin in EV. exact EV.
Qed.
Lemma rkc_path o f d F lo hi Y N t0 tb c s H v : solution_on d F lo hi Y -> rkc_real o f t0 tb d F (Y t0) c 0 (onew s) -> (rc_mmax c <= Z.of_nat N)%Z -> lo <= t0 <= hi -> lo <= tb <= hi -> rkc_short c H (onew s) v ->
  exists x yr, rs_t (ost v) = Fin x /\ rs_y (ost v) = map Fin yr /\ length yr = d /\ spath lo hi Y (cheb_step F N) H t0 x yr /\
    ((t0 < tb /\ t0 <= x <= tb) \/ (tb < t0 /\ tb <= x <= t0)) /\ (ostat v = OFinished -> x = tb).
Proof.
  intros HY HR HN Hlo Hhi HS.
  assert (HF : rc_fun c = f /\ lifts d F f). { destruct HR as [_ _ _ HF _ _ (s1 & E & _)]. split; [apply (init_gen ELX _ _ _ _ _ _ _ E)|exact HF]. }
  destruct HF as (Ef & HF).
  induction HS as [|v1 v2 k HS IH E Hsm].
  - destruct (rkc_real_inv _ _ _ _ _ _ _ _ _ _ HR) as (s0 & dir & mx & rt & hm & al & l & C & LO & Hdir & S0 & _ & _ & H0 & _).
    assert (s0 = s) by (inversion H0; reflexivity). subst s0.
    exists t0, (Y t0). cbn [ost onew ostat]. split; [apply S0|]. split; [apply S0|]. split; [apply S0|]. split; [constructor|]. split; [|discriminate].
    assert (tb <> t0) by (intros ->; lra). destruct (Rlt_le_dec t0 tb); lra.
  - destruct IH as (x & yr & E1 & E2 & Ly & HP & Hx & _). destruct (rkc_short_real _ _ _ _ _ _ _ _ _ _ _ HR HS) as (n & HRn).
    destruct (C39_step _ _ _ _ _ _ _ _ _ _ _ _ HRn E) as (t & y & _ & T1 & T2 & T3 & T4 & Cs).
    rewrite E1 in T1. injection T1 as <-. rewrite E2 in T2. apply map_inj_fin in T2. subst y.
    destruct Cs as [(U1 & U2 & U3)|(h & m & sp & y1 & HA & U1 & U2 & _ & U3 & U4)].
    + exists x, yr. split; [exact U1|]. split; [exact U2|]. split; [exact Ly|]. split; [exact HP|]. split; [exact Hx|]. intros Q. destruct U3 as [[U3 _]|U3]; rewrite Q in U3; discriminate.
    + destruct (ra_bound _ _ _ _ _ _ _ _ _ _ HA) as (B1 & B2).
      assert (Bx : (t0 < tb /\ t0 <= x + h <= tb /\ 0 <= h) \/ (tb < t0 /\ tb <= x + h <= t0 /\ h <= 0)).
      { destruct Hx as [[H1 H2]|[H1 H2]]; [left|right]; (split; [exact H1|]); unfold Rabs in B2; destruct (Rcase_abs h), (Rcase_abs (tb - x)); try (exfalso; nra); lra. }
      exists (x + h), y1. split; [exact U1|]. split; [exact U2|]. split; [apply (ra_len _ _ _ _ _ _ _ _ _ _ HA)|]. split.
      * econstructor; [exact HP| | | |apply (accepted_cheb c d F x tb yr h m sp y1 N); auto; rewrite Ef; exact HF].
        -- lra.
        -- destruct Bx as [(Q1 & Q2 & Q3)|(Q1 & Q2 & Q3)]; nra.
        -- replace h with (x + h - x) by ring. exact (Hsm _ _ E1 U1).
      * split; [lra|]. intros Q. destruct (Req_dec (x + h) tb) as [Z|Z]; [exact Z|]. rewrite (U4 Z) in Q. discriminate.
Qed.

(** ** the number of stages *)
(** sommeijer.py: mmax = round(sqrt(rtol / (10 uround))), and rtol is at most 0.1: the same bound for all solvers *)
Lemma round_he_le r : IZR (round_he r) <= r + 1.
Proof.
  unfold round_he. pose proof (base_Int_part r) as [B1 B2]. destruct (Rlt_dec _ _); [lra|]. destruct (Rlt_dec _ _); [rewrite plus_IZR; lra|]. destruct (Z.even _); [lra|rewrite plus_IZR; lra].
Qed.
Lemma stages_bounded_all : exists N : nat, forall o f t0 y0 tb c s, given o -> rkc_init ELX o f t0 y0 tb = inl (c, s) -> (rc_mmax c <= Z.of_nat N)%Z.
Proof.
  set (B := sqrt (1 / 10 / (Q2R 10 * small)) + 1). exists (Z.to_nat (Z.max (up B) 2)). intros o f t0 y0 tb c s (_ & _ & G3 & G4 & G5) E. rewrite Z2Nat.id by lia.
  unfold rkc_init in E. destruct (match ro_first_step o with None => _ | _ => _ end) as [ab|]; [|discriminate].
  destruct (ro_const_jac o) as [cj|]; [|discriminate].
  destruct (match ro_rho o with None => _ | _ => _ end) as [[]|]; [|discriminate].
  destruct (nleb RX (ro_max_step o) n0); [discriminate|].
  destruct (validate_tol (ro_rtol_is_float o) (ro_rtol o) (ro_atol o) y0) as [[rt at_]|] eqn:EV; [|discriminate].
  destruct (validated_atol _ _ _ _ _ _ G3 G4 G5 EV) as (r & al & -> & (Hr1 & Hr2) & _). pose proof small_pos as Sp.
  assert (Q10 : Q2R 10 = 10) by (unfold Q2R; cbn; lra).
  assert (Ed : ndiv RX (Fin r) (nmul RX (lit 10) (n_small RX)) = Fin (r / (Q2R 10 * small))).
  { rewrite nsmall_RX, lit_RX. cbn [nmul RX xmul]. apply xdiv_fin. rewrite Q10. lra. }
  assert (P0 : 0 < floor_rtol) by (unfold floor_rtol; apply Rdiv_lt_0_compat; [lra|apply pow_lt; lra]).
  assert (Pd : 0 <= r / (Q2R 10 * small) <= 1 / 10 / (Q2R 10 * small)).
  { rewrite Q10. unfold Rdiv. assert (0 <= / (10 * small)) by (apply Rlt_le, Rinv_0_lt_compat; lra). split; [apply Rmult_le_pos; lra|apply Rmult_le_compat_r; lra]. }
  change (num RX) with xr in *. rewrite Ed in E. rewrite msqrt_fin in E by lra.
  cbn [el_round ELX to_int] in E. apply inl_inj in E. apply (f_equal fst) in E. cbn [fst] in E. subst c. cbn [rc_mmax].
  set (q := sqrt (r / (Q2R 10 * small))). assert (Hq : IZR (round_he q) <= B).
  { eapply Rle_trans; [apply round_he_le|]. unfold B. apply Rplus_le_compat_r. apply sqrt_le_1_alt. lra. }
  destruct (archimed B) as (U1 & _). assert (round_he q < up B)%Z by (apply lt_IZR; lra). lia.
Qed.

(** ** the theorem *)
(** F smooth and Lipschitz along Y: whatever the options, the radius function, the numbers of stages, the direction and
    the number of steps, steps of at most H lead to errors of at most C H^2. *)
Theorem C58_global_error d F f lo hi Y : lifts d F f -> solution_on d F lo hi Y -> smooth_along 2 d F lo hi Y -> lipschitz_along d F lo hi Y ->
  exists C del, 0 <= C /\ 0 < del /\ forall H, 0 <= H < del -> forall o t0 tb c s v,
    rkc_real o f t0 tb d F (Y t0) c 0 (onew s) -> lo <= t0 <= hi -> lo <= tb <= hi ->
    rkc_short c H (onew s) v -> rkc_tracked d Y t0 tb v (C * H ^ 2).
Proof.
  intros HF HY HS HLip. destruct stages_bounded_all as (N & HN).
  destruct (cheb_global d F f lo hi Y HF HY HS N HLip) as (C & del & HC & Hd & H1). exists C, del. split; [auto|]. split; [auto|].
  intros H HH o t0 tb c s v HR Hlo Hhi Hv.
  assert (HN' : (rc_mmax c <= Z.of_nat N)%Z). { destruct HR as [_ _ _ _ G _ (s1 & E & _)]. exact (HN _ _ _ _ _ _ _ G E). }
  destruct (rkc_path _ _ _ _ _ _ _ _ _ _ _ _ _ _ HY HR HN' Hlo Hhi Hv) as (x & yr & Q1 & Q2 & Q3 & Q4 & Q5 & Q6).
  destruct (H1 H t0 x yr HH Hlo Q4) as (_ & _ & Hcl). exists x, yr. split; [exact Q1|]. split; [exact Q2|]. split; [exact Q3|]. split; [unfold within; lra|]. split; [exact Q6|exact Hcl].
Qed.
(** any accuracy is reached by making the steps short enough *)
Theorem C58_convergence d F f lo hi Y : lifts d F f -> solution_on d F lo hi Y -> smooth_along 2 d F lo hi Y -> lipschitz_along d F lo hi Y ->
  forall acc, 0 < acc -> exists del, 0 < del /\ forall H, 0 <= H < del -> forall o t0 tb c s v,
    rkc_real o f t0 tb d F (Y t0) c 0 (onew s) -> lo <= t0 <= hi -> lo <= tb <= hi ->
    rkc_short c H (onew s) v -> rkc_tracked d Y t0 tb v acc.
Proof.
  intros HF HY HS HLip acc Ha. destruct (C58_global_error d F f lo hi Y HF HY HS HLip) as (C & del & HC & Hd & H1).
  exists (Rmin del (Rmin 1 (acc / (C + 1)))). split. { repeat apply Rmin_case; try lra. apply Rdiv_lt_0_compat; lra. }
  intros H (H0 & HH) o t0 tb c s v HR Hlo Hhi Hv.
  assert (A1 : H < del) by (eapply Rlt_le_trans; [exact HH|apply Rmin_l]).
  assert (A2 : H < 1) by (eapply Rlt_le_trans; [exact HH|eapply Rle_trans; [apply Rmin_r|apply Rmin_l]]).
  assert (A3 : H < acc / (C + 1)) by (eapply Rlt_le_trans; [exact HH|eapply Rle_trans; [apply Rmin_r|apply Rmin_r]]).
  destruct (H1 H (conj H0 A1) o t0 tb c s v HR Hlo Hhi Hv) as (x & yr & Q1 & Q2 & Q3 & Q4 & Q5 & Q6). exists x, yr. repeat (split; [assumption|]).
  eapply close_le; [exact Q6|]. apply Rmult_lt_compat_r with (r := C + 1) in A3; [|lra]. unfold Rdiv in A3. rewrite Rmult_assoc, Rinv_l, Rmult_1_r in A3 by lra. nra.
Qed.
(** F polynomial: smoothness and the Lipschitz condition follow *)
Theorem C58_polynomial d F f lo hi Y : lifts d F f -> polynomial d F -> solution_on d F lo hi Y ->
  exists C del, 0 <= C /\ 0 < del /\ forall H, 0 <= H < del -> forall o t0 tb c s v,
    rkc_real o f t0 tb d F (Y t0) c 0 (onew s) -> lo <= t0 <= hi -> lo <= tb <= hi ->
    rkc_short c H (onew s) v -> rkc_tracked d Y t0 tb v (C * H ^ 2).
Proof.
  intros HF HP HY. apply C58_global_error; auto; [apply polynomial_smooth_along; auto|apply polynomial_lipschitz_along; auto].
Qed.

(** ** dense output *)
(** dense_output() of the step from v to v' exists and is within [bound] of Y everywhere in the step *)
Definition rkc_dense_within (d : nat) (Y : R -> list R) (v v' : OSolver RX (RkcSt RX)) (bound : R) : Prop :=
  exists x x1 D, rs_t (ost v) = Fin x /\ rs_t (ost v') = Fin x1 /\ rkc_dense_output v' = inl D /\
    forall th, 0 <= th <= 1 -> exists r, call D (Fin (x + th * (x1 - x))) = map Fin r /\ length r = d /\ close d r (Y (x + th * (x1 - x))) bound.

Theorem C58_dense d F f lo hi Y : lifts d F f -> solution_on d F lo hi Y -> smooth_along 2 d F lo hi Y -> lipschitz_along d F lo hi Y ->
  exists C del, 0 <= C /\ 0 < del /\ forall H, 0 <= H < del -> forall o t0 tb c s v v' k,
    rkc_real o f t0 tb d F (Y t0) c 0 (onew s) -> lo <= t0 <= hi -> lo <= tb <= hi ->
    rkc_short c H (onew s) v -> rkc_step ELX c k v = OOk v' -> (forall msg, ostat v' <> OFailed msg) ->
    (forall x1 x2, rs_t (ost v) = Fin x1 -> rs_t (ost v') = Fin x2 -> Rabs (x2 - x1) <= H) ->
    rkc_dense_within d Y v v' (C * H ^ 2).
Proof.
  intros HF HY HS HLip. destruct stages_bounded_all as (N & HN). pose proof HLip as (L & r & HLr). assert (Hr : 0 < r) by apply HLr.
  destruct (cheb_global d F f lo hi Y HF HY HS N HLip) as (C & del & HC & Hd & H1).
  destruct (cheb_dense_all d F f lo hi Y HF HY HS L r HLr N) as (C2 & del2 & HC2 & Hd2 & H2).
  set (z := r / 4 / (C + 1)). assert (Hz : 0 < z) by (apply Rdiv_lt_0_compat; lra).
  assert (HCz : C * z <= r / 4). { apply Rle_trans with ((C + 1) * z); [nra|]. unfold z. right. field. lra. }
  exists (C2 * (C + 1)), (Rmin (Rmin del del2) (Rmin 1 z)). split; [apply Rmult_le_pos; lra|]. split; [repeat apply Rmin_case; auto; lra|].
  intros H (H0 & HH) o t0 tb c s v v' k HR Hlo Hhi Hv HSt NF Hsh.
  assert (B1 : H < del) by (eapply Rlt_le_trans; [exact HH|eapply Rle_trans; [apply Rmin_l|apply Rmin_l]]).
  assert (B2 : H < del2) by (eapply Rlt_le_trans; [exact HH|eapply Rle_trans; [apply Rmin_l|apply Rmin_r]]).
  assert (B3 : H < 1) by (eapply Rlt_le_trans; [exact HH|eapply Rle_trans; [apply Rmin_r|apply Rmin_l]]).
  assert (B4 : H < z) by (eapply Rlt_le_trans; [exact HH|eapply Rle_trans; [apply Rmin_r|apply Rmin_r]]).
  assert (HN' : (rc_mmax c <= Z.of_nat N)%Z). { destruct HR as [_ _ _ _ G _ (s1 & E & _)]. exact (HN _ _ _ _ _ _ _ G E). }
  destruct (rkc_path _ _ _ _ _ _ _ _ _ _ _ _ _ _ HY HR HN' Hlo Hhi Hv) as (x & yr & Q1 & Q2 & Q3 & Q4 & Q5 & Q6).
  destruct (H1 H t0 x yr (conj H0 B1) Hlo Q4) as (_ & Hx & Hcl).
  destruct (rkc_short_real _ _ _ _ _ _ _ _ _ _ _ HR Hv) as (n & HRn).
  destruct (rkc_dense_is _ _ _ _ _ _ _ _ _ _ _ _ HRn HSt NF) as (t & y & h & y1 & T1 & T2 & T3 & T4 & Hh & Ly & L1 & Lf & Lf1 & ED).
  rewrite Q1 in T1. injection T1 as <-. rewrite Q2 in T2. apply map_inj_fin in T2. subst y.
  assert (HCS : cheb_step F N x yr h y1).
  { destruct (C39_step _ _ _ _ _ _ _ _ _ _ _ _ HRn HSt) as (t & y & _ & U1 & U2 & _ & _ & Cs). rewrite Q1 in U1. injection U1 as <-. rewrite Q2 in U2. apply map_inj_fin in U2. subst y.
    destruct Cs as [(U1 & _)|(h' & m & sp & y1' & HA & U1 & U2 & _)]; rewrite T3 in U1; injection U1 as U1; [exfalso; lra|].
    assert (h' = h) by lra. subst h'. rewrite T4 in U2. apply map_inj_fin in U2. subst y1'.
    apply (accepted_cheb c d F x tb yr h m sp y1 N); auto. destruct HRn as [_ _ _ _ _ _ (s1 & E & _)]. rewrite (proj1 (proj2 (init_gen ELX _ _ _ _ _ _ _ E))). exact HF. }
  specialize (Hsh _ _ Q1 T3). replace (x + h - x) with h in * by ring.
  exists x, (x + h). eexists. split; [exact Q1|]. split; [exact T3|]. split; [exact ED|]. intros th Hth. replace (x + h - x) with h by ring.
  pose proof (call_cubic d x (x + h) _ _ _ _ _ _ _ _ (x + th * h) ltac:(lra) (reals_intro d yr Ly) (reals_intro d y1 L1) (reals_intro d _ Lf) (reals_intro d _ Lf1)) as XX.
  destruct XX as (l & EL & Ll & Vl). exists l. split; [exact EL|]. split; [exact Ll|]. intros q Hq. rewrite (Vl q Hq). replace (x + h - x) with h by ring.
  assert (HHp : 0 <= H ^ 2) by (apply pow_le; auto). assert (HH2 : H ^ 2 <= H) by (cbn [pow]; nra).
  assert (HE : 0 <= C * H ^ 2 <= r / 4). { split; [apply Rmult_le_pos; auto|]. apply Rle_trans with (C * z); [apply Rmult_le_compat_l; lra|exact HCz]. }
  pose proof (H2 x yr h y1 th (C * H ^ 2) Hx Ly Hh ltac:(lra) HE Hcl HCS Hth q Hq) as X. unfold chermite in X. eapply Rle_trans; [exact X|].
  rewrite Rmult_assoc. apply Rmult_le_compat_l; [auto|]. assert (Rabs h ^ 3 <= H ^ 2).
  { apply Rle_trans with (H ^ 3); [apply pow_incr; split; [apply Rabs_pos|exact Hsh]|]. cbn [pow]. nra. }
  lra.
Qed.

(** The hypotheses are met: y' = y^2 on [0, 1/2] from y(0) = 1, whose solution 1/(1 - t) is not a polynomial, with the
    built-in power method: the solver can be constructed, its step() returns, and its first step is a short run. *)
From Verif Require Prop_Global.
Definition ric_o : RkcOpts RX := mkRO (PInf : num RX) (Fin (1/1000) : num RX) true (Scalar (Fin (1/1000000) : num RX)) None (Some false) None true.
Example C58_case : exists c s, rkc_real ric_o ric_x 0 (1/2) 1 ric [/ (1 - 0)] c 0 (onew s) /\ lifts 1 ric ric_x /\ polynomial 1 ric /\
  solution_on 1 ric 0 (1/2) (fun t => [/ (1 - t)]) /\ (exists k v, rkc_step ELX c k (onew s) = OOk v) /\
  forall k v, rkc_step ELX c k (onew s) = OOk v -> rkc_short c (1/2) (onew s) v.
Proof.
  assert (A : exists c s, rkc_init ELX ric_o ric_x (Fin 0 : num RX) [Fin (/ (1 - 0)) : num RX] (Fin (1/2) : num RX) = inl (c, s)).
  { apply (C39_accepts ric_o ric_x 0 [Fin (/ (1 - 0))] (1/2) false).
    - exact I.
    - reflexivity.
    - exact I.
    - reflexivity.
    - repeat split; try discriminate; repeat constructor; discriminate.
    - unfold validate_tol. cbn [ric_o ro_rtol_is_float ro_rtol ro_atol negb]. rewrite n0_RX. change (nltb RX (Fin ?a) (Fin ?b)) with (Rltb a b).
      destruct (Rltb (1/1000000) 0) eqn:Q; [apply Rltb_true in Q; lra|]. destruct (Rltb (1/1000) 0) eqn:Q2; [apply Rltb_true in Q2; lra|]. eexists. reflexivity. }
  destruct A as (c & s & A). exists c, s.
  assert (HR : rkc_real ric_o ric_x 0 (1/2) 1 ric [/ (1 - 0)] c 0 (onew s)).
  { constructor; try reflexivity; try lra; try lia.
    + apply ric_lifts.
    + repeat split; try discriminate; repeat constructor; discriminate.
    + exists s. split; [exact A|constructor]. }
  destruct Prop_Global.C49_case as (_ & HP & HY & _).
  split; [exact HR|]. split; [apply ric_lifts|]. split; [exact HP|]. split; [exact HY|]. split.
  { destruct (C39_step_returns _ _ _ _ _ _ _ _ _ _ HR eq_refl) as (N & HN). destruct (HN N (le_n N)) as (v & E). eauto. }
  intros k v E. econstructor; [constructor|exact E|]. intros x1 x2 E1 E2.
  destruct (C39_step _ _ _ _ _ _ _ _ _ _ _ _ HR E) as (t & y & _ & T1 & _ & _ & _ & Cs).
  assert (T0 : t = 0). { destruct (init_gen ELX _ _ _ _ _ _ _ A) as (_ & _ & Et & _). cbn [ost onew] in T1. change (num RX) with xr in *. rewrite T1 in Et. injection Et as ->. reflexivity. }
  rewrite T1 in E1. injection E1 as <-.
  destruct Cs as [(U1 & _)|(h & m & sp & y1 & HA & U1 & _)]; rewrite U1 in E2; injection E2 as <-.
  - rewrite Rminus_diag_eq, Rabs_R0 by reflexivity. lra.
  - destruct (ra_bound _ _ _ _ _ _ _ _ _ _ HA) as (_ & B). replace (t + h - t) with h by ring. rewrite T0, Rminus_0_r, (Rabs_right (1/2)) in B by lra. exact B.
Qed.
