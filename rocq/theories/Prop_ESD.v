(** Properties of the implicit (ESDIRK) classes: C46, C30, C31, C32, C33.
    The solver is that of ESDIRK.v / ESDCls.v; [esd_after m o f t0 tb y0 c n v] (ESDTop.v): the
    constructor of one of the six classes accepted the arguments and n step() calls returned,
    leading to v. *)
From Coq Require Import String ZArith Reals Lra Psatz QArith Qreals Bool Lia List.
From Verif Require Import Arith Common Stiff RK HStart RKInit Tableaux Classes Dense Ode QX RX RKReal RKStep HStartReal RKInitReal NormReal ESDIRK ESDCls ESDGen ESDReal ESDStep ESDTop ESDInv.
Import ListNotations.
Close Scope string_scope. Open Scope nat_scope. Open Scope R_scope.

(** fuel does not matter once the loop has ended *)
Lemma eloop_fuel {A : Arith} (m : EMeth A) c s ms : forall k w ha rej r, eloop k m c s w ha ms rej = r -> r <> IFuel ->
  forall k', (k <= k')%nat -> eloop k' m c s w ha ms rej = r.
Proof.
  induction k; intros w ha rej r H Hr k' Hk; [cbn [eloop] in H; congruence|].
  destruct k' as [|k']; [lia|]. cbn [eloop] in *. destruct (etrial m c s w ha ms rej); try exact H.
  apply IHk; [exact H|exact Hr|lia].
Qed.
Lemma estep_fuel {A : Arith} (m : EMeth A) c s k r : estep_impl m c k s = r -> r <> IFuel -> forall k', (k <= k')%nat -> estep_impl m c k' s = r.
Proof.
  intros H Hr k' Hk. unfold estep_impl in *. destruct (ereassess _ _ _ _) as [[ha ms] std]. destruct (preemptive _ _ _ _) as [w|e]; [|exact H].
  eapply eloop_fuel; eassumption.
Qed.
Lemma estep_raise m c r k s e : la_ok m c -> egood c r -> einv m c s -> tval s <> ctb r -> estep_impl m c k s = IRaise e -> e = lin_error.
Proof.
  intros HA HG HI Ht H. destruct (estep_ends m c r s HA HG HI Ht) as (N & HN). specialize (HN (N + k)%nat ltac:(lia)).
  rewrite (estep_fuel m c s k _ H ltac:(discriminate) (N + k)%nat ltac:(lia)) in HN. exact HN.
Qed.

(** ** C46: the time of the implicit solvers *)
(** one step() call that returned: it advanced towards t_bound by at least the minimum step,
    never past it, the status says whether t_bound was reached; a step that does not reach
    t_bound leaves at least 1% of its length to go (if the safety factor is at most 100/101);
    or it failed and left t and y alone *)
Theorem C46_step m o f t0 tb y0 c n v k v' : esd_after m o f t0 tb y0 c n v -> esd_step m c k v = OOk v' ->
  exists d x, (d = 1 \/ d = -1) /\ 0 < d * (tb - t0) /\ ostat v = ORunning /\ e_t (ost v) = Fin x /\ 0 < d * (tb - x) /\
    ((exists x', e_t (ost v') = Fin x' /\ sqrt (/ 2 ^ 1022) <= d * (x' - x) /\ 0 <= d * (tb - x') /\
        (x' = tb -> ostat v' = OFinished) /\ (x' <> tb -> ostat v' = ORunning) /\
        (forall g, x_safety c = Fin g -> g <= 100/101 -> x' <> tb -> d * (x' - x) / 100 <= d * (tb - x')) /\
        ot_old v' = Some (Fin x) /\ e_yold (ost v') = Some (e_y (ost v)))
     \/ (ostat v' = OFailed too_small /\ e_t (ost v') = e_t (ost v) /\ e_y (ost v') = e_y (ost v))).
Proof.
  intros HA HS. assert (HR : ostat v = ORunning) by (unfold esd_step, ostep in HS; destruct (ostat v); [reflexivity|discriminate|discriminate]).
  destruct (esd_step_cases _ _ _ _ _ _ _ _ _ _ _ HA HS) as (r & G & E1 & E2 & E3 & _ & _ & _ & LA & _ & I1 & Ah & HC).
  assert (Hcd : cd r = 1 \/ cd r = -1) by (destruct G as (_ & _ & Hcd & _); exact Hcd).
  pose proof I1 as ((x & Ex) & _). assert (Tx : tval (ost v) = x) by (unfold tval; rewrite Ex; reflexivity). rewrite Tx in Ah.
  exists (cd r), x. split; [exact Hcd|]. split; [exact E2|]. split; [exact HR|]. split; [exact Ex|]. split; [exact Ah|].
  destruct HC as [(D & I2 & Eo & St)|(_ & F1 & F2 & F3 & _)]; [left|right; auto].
  assert (Hne : tval (ost v) <> ctb r) by (rewrite Tx, E1; intros E; rewrite E in Ah; lra).
  destruct (estep_done m c r k _ _ LA G I1 Hne D) as (_ & h0 & ha & j & h1 & hn & hh & B1 & B2 & B3 & B4 & B5 & B6 & B7 & B8 & B9 & B10 & B11 & _).
  rewrite Tx in *. rewrite E1 in *. rewrite (cd_abs r _ Hcd Ah) in *.
  assert (Hc2 : cd r * cd r = 1) by (destruct Hcd as [-> | ->]; lra).
  exists (x + h1 * cd r). split; [exact B7|].
  assert (T' : tval (ost v') = x + h1 * cd r) by (unfold tval; rewrite B7; reflexivity). rewrite T' in St.
  replace (cd r * (x + h1 * cd r - x)) with h1 by (replace (cd r * (x + h1 * cd r - x)) with (cd r * cd r * h1) by ring; rewrite Hc2; ring).
  split. { rewrite <- E3. eapply Rle_trans; [|exact B6]. unfold emin. apply Rmax_r. }
  assert (Hsh : 0 <= eshrink r <= 1). { unfold eshrink. split; [apply Rle_trans with (1/2); [lra|apply Rmax_l]|]. apply Rmax_lub; [lra|]. destruct G as (_ & _ & _ & _ & _ & _ & _ & _ & _ & _ & Hg & _). lra. }
  assert (Hle : h1 <= ha).
  { eapply Rle_trans; [exact (proj2 B5)|]. rewrite <- (Rmult_1_r ha) at 2. apply Rmult_le_compat_l; [lra|]. rewrite <- (pow1 j). apply pow_incr. exact Hsh. }
  assert (EX : cd r * (tb - (x + h1 * cd r)) = cd r * (tb - x) - h1) by (replace (cd r * (tb - (x + h1 * cd r))) with (cd r * (tb - x) - cd r * cd r * h1) by ring; rewrite Hc2; ring).
  rewrite EX. split; [lra|].
  split. { intros E. destruct St as [[_ St]|[St _]]; [|exact St]. rewrite E in St. exfalso. replace (tb - tb) with 0 in St by ring. lra. }
  split. { intros E. destruct St as [[St _]|[_ St]]; [exact St|]. contradiction. }
  split. { intros g Eg Hg Hx. assert (Ecg : cg r = g). { destruct G as (_ & _ & _ & _ & _ & _ & _ & _ & _ & G9 & _). rewrite G9 in Eg. injection Eg as Eg. exact Eg. }
    destruct j as [|j].
    - destruct B4 as [B4|[B4 _]]; [|lra]. exfalso. apply Hx. cbn [pow] in B5. assert (h1 = ha) by lra. subst h1.
      assert (Hz : cd r * (tb - (x + ha * cd r)) = 0) by (rewrite EX, B4; ring). destruct Hcd as [D1|D1]; rewrite D1 in *; lra.
    - assert (Hs2 : eshrink r <= 100/101) by (unfold eshrink; rewrite Ecg; apply Rmax_lub; lra).
      assert (Hp : eshrink r ^ S j <= 100/101). { cbn [pow]. assert (0 <= eshrink r ^ j <= 1) by (split; [apply pow_le; lra|rewrite <- (pow1 j); apply pow_incr; lra]). nra. }
      assert (h1 <= ha * (100/101)) by (eapply Rle_trans; [exact (proj2 B5)|]; apply Rmult_le_compat_l; lra). lra. }
  split; [rewrite <- Ex; exact Eo|]. apply (estep_ypold m c k _ _ D).
Qed.

(** at most (|tb - t0| / min step) + 1 step() calls return *)
Theorem C46_steps_bounded m o f t0 tb y0 c n v : esd_after m o f t0 tb y0 c n v ->
  INR n * sqrt (/ 2 ^ 1022) < Rabs (tb - t0) + sqrt (/ 2 ^ 1022).
Proof.
  intros HA. destruct (esd_after_inv _ _ _ _ _ _ _ _ _ HA) as (r & s0 & G & E1 & E2 & E3 & _ & _ & _ & LA & I0 & Et & _ & _ & _ & HH & O0 & _).
  assert (Hcd : cd r = 1 \/ cd r = -1) by (destruct G as (_ & _ & Hcd & _); exact Hcd).
  pose proof (ohist_bounded eview tb (cd r) (esd_impl m c) Hcd (einv m c) (einv_fin m c)) as HB.
  specialize (HB ltac:(intros k s1 s2 I1 A1 E; rewrite <- E1 in A1; exact (proj1 (estep_adv m c r k s1 s2 LA G I1 A1 E)))).
  specialize (HB (sqrt (/ 2 ^ 1022)) sqrt_tiny_pos).
  specialize (HB ltac:(intros k s1 s2 I1 A1 E _; rewrite <- E1 in A1; rewrite <- E3, !tv_eview; exact (proj1 (proj1 (proj2 (estep_adv m c r k s1 s2 LA G I1 A1 E)))))).
  specialize (HB _ _ _ O0 eq_refl HH). cbn [onew ost] in HB. rewrite tv_eview in HB. unfold tval in HB. rewrite Et in HB. exact HB.
Qed.

(** a step() call of a running solver returns, or raises the exception of the linear solver,
    for all sufficiently large iteration budgets *)
Lemma esd_step_total m o f t0 tb y0 c n v : esd_after m o f t0 tb y0 c n v -> ostat v = ORunning ->
  exists N, (exists v', forall k, (N <= k)%nat -> esd_step m c k v = OOk v') \/ (forall k, (N <= k)%nat -> esd_step m c k v = OExn lin_error).
Proof.
  intros HA HR. destruct (esd_after_inv _ _ _ _ _ _ _ _ _ HA) as (r & s0 & G & E1 & E2 & E3 & _ & _ & _ & LA & I0 & Et & _ & Etb & Edir & HH & O0 & O1).
  unfold oinv in O1. rewrite HR in O1. destruct O1 as [I1 A1]. unfold ahead in A1. rewrite tv_eview in A1.
  assert (Hne : tval (ost v) <> ctb r) by (rewrite E1; intros E; rewrite E in A1; lra).
  destruct (estep_ends m c r _ LA G I1 Hne) as (N & HN). exists N.
  pose proof (HN N (le_n N)) as HNN.
  assert (HF : forall k, (N <= k)%nat -> estep_impl m c k (ost v) = estep_impl m c N (ost v)).
  { intros k Hk. apply estep_fuel with (k := N); [reflexivity| |exact Hk]. intros E. rewrite E in HNN. exact HNN. }
  unfold esd_step, ostep, esd_impl. rewrite HR.
  match goal with |- context [(?a || ?b)%bool] => destruct (a || b)%bool end.
  { left. eexists. intros k Hk. reflexivity. }
  destruct (estep_impl m c N (ost v)) as [s'|s' msg|e|] eqn:EI; [left|left|right|contradiction].
  - eexists. intros k Hk. rewrite (HF k Hk). reflexivity.
  - eexists. intros k Hk. rewrite (HF k Hk). reflexivity.
  - intros k Hk. rewrite (HF k Hk). subst e. reflexivity.
Qed.

(** a loop that calls step() while the status is "running" ends: finished, failed or with the
    exception of the linear solver *)
Theorem C46_run_ends m o f t0 tb y0 c s : esd_args m o t0 tb y0 -> esd_built m o f t0 tb y0 c s ->
  exists n v, esd_after m o f t0 tb y0 c n v /\
    (ostat v <> ORunning \/ exists N, forall k, (N <= k)%nat -> esd_step m c k v = OExn lin_error).
Proof.
  intros HArgs HB.
  assert (H0 : esd_after m o f t0 tb y0 c 0 (onew s)) by (split; [exact HArgs|exists s; split; [exact HB|constructor]]).
  destruct (INR_big (sqrt (/ 2 ^ 1022)) (Rabs (tb - t0) + sqrt (/ 2 ^ 1022)) sqrt_tiny_pos) as [N HN];
    [pose proof (Rabs_pos (tb - t0)); pose proof sqrt_tiny_pos; lra|].
  assert (Hk : forall j, (exists n v, esd_after m o f t0 tb y0 c n v /\ (ostat v <> ORunning \/ exists N, forall k, (N <= k)%nat -> esd_step m c k v = OExn lin_error)) \/
     exists v, esd_after m o f t0 tb y0 c j v /\ ostat v = ORunning).
  { induction j as [|j IH]; [right; exists (onew s); split; [exact H0|reflexivity]|].
    destruct IH as [IH|(v & H1 & R1)]; [left; exact IH|].
    destruct (esd_step_total _ _ _ _ _ _ _ _ _ H1 R1) as (N1 & [(v' & E)|E]).
    - assert (H2 : esd_after m o f t0 tb y0 c (S j) v').
      { destruct H1 as (HA1 & s1 & HB1 & HH1). split; [exact HA1|]. exists s1. split; [exact HB1|]. econstructor; [exact HH1|]. exact (E N1 (le_n N1)). }
      destruct (ostat v') eqn:E2; [right; eauto|left; exists (S j), v'; split; [exact H2|left; rewrite E2; discriminate]..].
    - left. exists j, v. split; [exact H1|]. right. exists N1. exact E. }
  destruct (Hk N) as [H|(v & H & _)]; [exact H|].
  pose proof (C46_steps_bounded _ _ _ _ _ _ _ _ _ H). lra.
Qed.

(** the claim "a solver whose right-hand side is harmless reaches t_bound" is false for
    intervals shorter than the minimum step: the first step() fails, whatever f is *)
Theorem C46_short_interval_refuted m o f t0 tb y0 c s k v' : esd_args m o t0 tb y0 -> esd_built m o f t0 tb y0 c s ->
  Rabs (tb - t0) < sqrt (/ 2 ^ 1022) -> esd_step m c k (onew s) = OOk v' -> ostat v' = OFailed too_small /\ e_t (ost v') = Fin t0.
Proof.
  intros HArgs HB Hs HS.
  assert (H0 : esd_after m o f t0 tb y0 c 0 (onew s)) by (split; [exact HArgs|exists s; split; [exact HB|constructor]]).
  destruct (esd_built_good _ _ _ _ _ _ _ _ HArgs HB) as (_ & _ & _ & _ & _ & _ & _ & _ & _ & _ & Et & _).
  destruct (C46_step _ _ _ _ _ _ _ _ _ _ _ H0 HS) as (d & x & Hd & Hd2 & _ & Ex & Ha & [(x' & _ & H1 & H2 & _)|(H1 & H2 & _)]); cbn [onew ost] in *; rewrite Et in *.
  - exfalso. injection Ex as <-. destruct Hd as [-> | ->]; unfold Rabs in Hs; destruct (Rcase_abs _) in Hs; lra.
  - split; [exact H1|exact H2].
Qed.

(** ** C30: work of one step() *)
(** nfev is the length of the log of right-hand side calls, njev that of the Jacobian
    evaluations.  [j]: how often the step size was reduced in this call, [a]: how often the
    Jacobian was refreshed because the Newton iteration failed (then the same step is tried
    again), [b]: the refresh before the first trial.  Every trial costs at most 5 evaluations
    for each implicit stage. *)
Theorem C30_work m o f t0 tb y0 c n v k v' x : esd_after m o f t0 tb y0 c n v -> esd_step m c k v = OOk v' -> (forall msg, ostat v' <> OFailed msg) ->
  e_t (ost v) = Fin x ->
  exists j a b ha h g, (a <= 1)%nat /\ (a + b <= 2)%nat /\
    x_safety c = Fin g /\ 0 < g < 1 /\ ha * (1/5) ^ j <= h <= ha * (Rmax (1/2) g) ^ j /\ 0 < ha <= Rabs (tb - x) /\
    (e_t (ost v') = Fin (x + h) \/ e_t (ost v') = Fin (x - h)) /\
    (w_nfs (e_w (ost v')) + w_nfi (e_w (ost v')) = w_nfs (e_w (ost v)) + w_nfi (e_w (ost v)) + j + a)%nat /\
    w_jcalls (e_w (ost v')) = (w_jcalls (e_w (ost v)) ++ repeat (Fin x, e_y (ost v)) (a + b))%list /\
    (length (w_calls (e_w (ost v'))) <= length (w_calls (e_w (ost v))) + 5 * (em_stages m - 1) * (1 + j + a))%nat /\
    exists hn, e_habs (ost v') = Fin (h * hn) /\ 0 < hn <= 10 /\ ((0 < j)%nat -> hn <= 1).
Proof.
  intros HA HS Hst Ex.
  destruct (esd_step_cases _ _ _ _ _ _ _ _ _ _ _ HA HS) as (r & G & E1 & E2 & E3 & _ & _ & _ & LA & _ & I1 & Ah & [(D & I2 & Eo & St)|(_ & F1 & _)]); [|exfalso; exact (Hst _ F1)].
  assert (Hcd : cd r = 1 \/ cd r = -1) by (destruct G as (_ & _ & Hcd & _); exact Hcd).
  assert (Tx : tval (ost v) = x) by (unfold tval; rewrite Ex; reflexivity). rewrite Tx in Ah.
  assert (Hne : tval (ost v) <> ctb r) by (rewrite Tx, E1; intros E; rewrite E in Ah; lra).
  destruct (estep_done m c r k _ _ LA G I1 Hne D) as (_ & h0 & ha & j & h1 & hn & hh & B1 & B2 & B3 & B4 & B5 & B6 & B7 & B8 & B9 & B10 & B11 & _ & a & b & l & C1 & C2 & C3 & C4 & C5 & C6).
  rewrite Tx in *. rewrite E1 in *.
  exists j, a, b, ha, h1, (cg r). split; [exact C3|]. split; [exact C2|].
  split; [destruct G as (_ & _ & _ & _ & _ & _ & _ & _ & _ & G9 & _); exact G9|].
  split; [destruct G as (_ & _ & _ & _ & _ & _ & _ & _ & _ & _ & G9 & _); exact G9|].
  split; [exact B5|]. split; [exact B2|].
  split. { rewrite B7. destruct Hcd as [-> | ->]; [left|right]; f_equal; lra. }
  split; [exact C1|]. split; [rewrite <- Ex; exact C4|]. split; [rewrite C5, app_length; unfold NEWTON_MAXITER in C6; lia|].
  exists hn. auto.
Qed.

(** step() of a running solver ends *)
Theorem C30_step_ends m o f t0 tb y0 c n v : esd_after m o f t0 tb y0 c n v -> ostat v = ORunning ->
  exists N, (exists v', forall k, (N <= k)%nat -> esd_step m c k v = OOk v') \/ (forall k, (N <= k)%nat -> esd_step m c k v = OExn lin_error).
Proof. exact (esd_step_total m o f t0 tb y0 c n v). Qed.

(** what follows a failed trial: a refreshed Jacobian (evaluated at the start of the step) and the
    same step size, if the Jacobian was not current; otherwise a reduction of the step by a factor
    in [0.2, 0.5] (Newton iteration failed) or in [0.2, g] (error too large); a nan error
    norm is the exception (C32) *)
Theorem C30_after_failed_trial m o f t0 tb y0 c n v ha0 ms w0 j w h rej w' ha' rej' :
  esd_after m o f t0 tb y0 c n v -> ostat v = ORunning -> start c (ost v) = ((Fin ha0, ms), inl w0) ->
  tries m c (ost v) ms w0 (Fin ha0) j w (Fin h) rej -> 
  etrial m c (ost v) w (Fin h) ms rej = EtAgain w' ha' rej' ->
  (w_curJ w = false /\ w_curJ w' = true /\ ha' = Fin h /\ w_jcalls w' = (w_jcalls w ++ [(e_t (ost v), e_y (ost v))])%list) \/
  (w_curJ w = true /\ w_jcalls w' = w_jcalls w /\ rej' = true /\ exists q, ha' = Fin (h * q) /\ 1/5 <= q <= 1/2) \/
  (w_jcalls w' = w_jcalls w /\ rej' = true /\ exists en g, x_safety c = Fin g /\ g < 1 /\ xltb en (Fin 1) = false /\
     ((exists q, ha' = Fin (h * q) /\ 1/5 <= q <= Rmax (1/2) g) \/ (en = NaN /\ ha' = NaN))).
Proof.
  intros HA HR HS HT E.
  destruct (esd_after_inv _ _ _ _ _ _ _ _ _ HA) as (r & s0 & G & E1 & E2 & E3 & _ & _ & _ & LA & I0 & Et & _ & Etb & Edir & HH & O0 & O1).
  unfold oinv in O1. rewrite HR in O1. destruct O1 as [I1 A1].
  assert (GW : lu_ok m c w /\ lin_ok c w).
  { pose proof I1 as (_ & _ & _ & _ & _ & _ & I7 & I8 & _).
    assert (H0 : lu_ok m c w0 /\ lin_ok c w0).
    { unfold start in HS. destruct (ereassess _ _ _ _) as [[ha1 ms1] std]. injection HS as _ _ EP. unfold preemptive in EP.
      destruct I7 as [S1 S2].
      assert (NL : forall J b p, (x_linear c = true -> b = true) -> lu_ok m c (w_newJ (w_control (e_w (ost v)) std (w_maxf (e_w (ost v))) (w_nfs (e_w (ost v)))) J b p) /\ lin_ok c (w_newJ (w_control (e_w (ost v)) std (w_maxf (e_w (ost v))) (w_nfs (e_w (ost v)))) J b p)).
      { intros J b p Hb. split; [split; [exact S1|exact I]|exact Hb]. }
      destruct (_ && _)%bool in EP. { destruct (x_jac c) as [jac|] eqn:EJ; [|discriminate EP]. injection EP as <-. apply NL. auto. }
      assert (ID : lu_ok m c (w_control (e_w (ost v)) std (w_maxf (e_w (ost v))) (w_nfs (e_w (ost v)))) /\ lin_ok c (w_control (e_w (ost v)) std (w_maxf (e_w (ost v))) (w_nfs (e_w (ost v))))) by (split; [split; [exact S1|exact S2]|exact I8]).
      destruct (nltb RX n0 _) in EP; [|injection EP as <-; exact ID].
      destruct (e_hprev (ost v)); [|discriminate EP]. destruct (w_hLU _) in EP; [|discriminate EP].
      destruct (_ && _)%bool in EP. { destruct (x_jac c) as [jac|] eqn:EJ; [|discriminate EP]. injection EP as <-. apply NL. exact I8. }
      destruct (nltb RX _ _) in EP; injection EP as <-; [|exact ID]. split; [split; [exact S1|exact I]|exact I8]. }
    clear HS E. induction HT as [|j w1 hb rb w2 hc rc HT IH EB]; [exact H0|].
    destruct IH as [L1 L2]; pose proof (etrial_inv m c (ost v) w1 hb ms rb L1 L2) as HV; rewrite EB in HV. destruct HV as (_ & HV1 & HV2 & _); auto. }
  destruct GW as [L1 L2]. pose proof (etrial_inv m c (ost v) w (Fin h) ms rej L1 L2) as HV. rewrite E in HV.
  destruct HV as (_ & _ & _ & _ & _ & [((A1' & A2 & A3 & A4 & _) & -> & ->)|[((A1' & A2 & A3 & _) & -> & HC & _ & x & ->)|((A1' & A2 & A3 & _) & -> & en & Hen & ->)]]).
  - left. auto.
  - right. left. split; [exact HC|]. split; [exact A3|]. split; [reflexivity|]. destruct (nrf_factor x) as (q & -> & Hq). exists q. split; [reflexivity|exact Hq].
  - right. right. split; [exact A3|]. split; [reflexivity|]. rewrite n1_RX in Hen. change (nltb RX) with xltb in Hen. exists en, (cg r).
    split; [destruct G as (_ & _ & _ & _ & _ & _ & _ & _ & _ & G9 & _); exact G9|]. split; [destruct G as (_ & _ & _ & _ & _ & _ & _ & _ & _ & _ & G9 & _); lra|].
    split; [exact Hen|]. change (npow RX) with xpow. change (nmul RX) with xmul.
    destruct (reject_factor_e c r en G Hen) as [(q & -> & Hq)|(-> & ->)]; [left|right; auto]. exists q. split; [reflexivity|exact Hq].
Qed.

(** ** C31: assertions and factorisations *)
(** the only exception step() of a running solver can raise is that of the linear solver: not
    the AssertionError of the Newton iteration, no call of a missing Jacobian, no missing
    attribute *)
Theorem C31_no_assertion m o f t0 tb y0 c n v k e : esd_after m o f t0 tb y0 c n v -> ostat v = ORunning -> esd_step m c k v = OExn e -> e = lin_error.
Proof.
  intros HA HR HS. destruct (esd_after_inv _ _ _ _ _ _ _ _ _ HA) as (r & s0 & G & E1 & E2 & E3 & _ & _ & _ & LA & I0 & Et & _ & Etb & Edir & HH & O0 & O1).
  unfold oinv in O1. rewrite HR in O1. destruct O1 as [I1 A1]. unfold ahead in A1. rewrite tv_eview in A1.
  assert (Hne : tval (ost v) <> ctb r) by (rewrite E1; intros E; rewrite E in A1; lra).
  unfold esd_step, ostep in HS. rewrite HR in HS. destruct (_ || _)%bool in HS; [discriminate|].
  destruct (esd_impl m c k (ost v)) as [s'|s' msg|e1|] eqn:EI; try discriminate. injection HS as <-.
  exact (estep_raise m c r k _ _ LA G I1 Hne EI).
Qed.

(** in any arithmetic, in every trial of every step of every history: the matrix that is
    factorised is M - hl d J for the step size hl stored with it and the Jacobian J in use; J is
    the latest value of jac, evaluated at the start of this step if current_J is set, or the
    constant matrix given by the user; and hl is the step size of the trial for linear
    problems (up to the == of the code) and with jac_each_step *)
Theorem C31_factorisation {A : Arith} (m : EMeth A) o luok solve f jac M t0 y0 tb c s0 n v ha0 ms w0 j w ha rej L w1 :
  esd_init m o luok solve f jac M t0 y0 tb = inl (c, s0) ->
  ohist eview (x_tb c) (x_dir c) (fun k => estep_impl m c k) (onew s0) n v -> ostat v = ORunning ->
  start c (ost v) = ((ha0, ms), inl w0) -> tries m c (ost v) ms w0 ha0 j w ha rej ->
  factorise m c w (nmul A ha (x_dir c)) = inl (L, w1) ->
  exists hl, w_hLU w1 = Some hl /\ L = msub (mat_of (length y0) M) (nmul A hl (em_d m)) (w_J w1) /\
    (hl = nmul A ha (x_dir c) \/
     (p_jac_each o = false /\ match jac with JacConst _ => neqb A (nmul A ha (x_dir c)) hl = true | JacFun _ => True end)) /\
    match jac with
    | JacConst J => w_J w1 = J
    | JacFun jf => exists l t1 y1, w_jcalls w1 = (l ++ [(t1, y1)])%list /\ w_J w1 = jf (length l) t1 y1 /\
                     (w_curJ w1 = true -> t1 = e_t (ost v) /\ y1 = e_y (ost v))
    end.
Proof.
  intros HI HH HR HS HT HF.
  assert (HC : exists J0, x_n c = length y0 /\ x_M c = M /\ x_dae c = None /\ x_jac_each c = p_jac_each o /\ (match jac with JacConst J => J0 = J /\ x_jac c = None | JacFun jf => x_jac c = Some jf end) /\ ginv m c J0 s0 (e_w s0)).
  { unfold esd_init in HI. destruct (nleb A _ _); [discriminate|]. destruct (validate_tol _ _ _ _) as [[rt at_]|]; [|discriminate]. cbv zeta in HI.
    destruct (esd_coefs _) as [[[[kb1 kb2] al] gg]|]; [|discriminate]. destruct (negb (esd_class_ok m)); [discriminate|].
    destruct jac as [J|jf]; cbn iota in HI;
    (match type of HI with (if ?b then _ else _) = _ => destruct b; [discriminate HI|] end);
    (match type of HI with (match ?b with Some _ => _ | None => _ end) = _ => destruct b as [yp0|]; [|discriminate HI] end);
    (match type of HI with (match ?b with inl _ => _ | inr _ => _ end) = _ => destruct b as [h|]; [|discriminate HI] end);
    injection HI as <- <-.
    - exists J. do 4 (split; [reflexivity|]). split; [split; reflexivity|]. split; [split; [reflexivity|exact I]|]. split; [intros _; reflexivity|]. unfold jfresh. cbn [x_jac]. reflexivity.
    - exists []. do 4 (split; [reflexivity|]). split; [reflexivity|]. split; [split; [reflexivity|exact I]|]. split; [intros _; reflexivity|]. unfold jfresh. cbn [x_jac].
      exists [], t0, y0. split; [reflexivity|]. split; [reflexivity|]. auto. }
  destruct HC as (J0 & Hn & HM & HD & HE & HJ & HG).
  pose proof (ohist_ginv m c J0 _ _ n (onew s0) v HH HG HR) as GV.
  pose proof (start_ginv m c J0 _ _ _ _ GV HS) as GW0.
  pose proof (tries_ginv m c J0 _ _ _ _ _ _ _ _ GW0 HT) as (W1 & W2 & W3).
  destruct (factorise_ok m c w _ L w1 W1 HF) as (F1 & F2 & F3 & F4 & F5 & _ & _ & _ & _ & _ & F11).
  destruct F1 as [_ F1]. rewrite F2 in F1. destruct F1 as (_ & hl & F1a & F1b). exists hl. split; [exact F1a|].
  split. { unfold iteration_matrix in F1b. rewrite HD, Hn, HM in F1b. injection F1b as _ F1b. exact F1b. }
  split.
  - destruct F11 as [[E1 E2]|[E1 _]]; [|left; congruence]. right. subst w1. unfold need_lu in E2. rewrite F2 in E2. cbn [orb] in E2.
    rewrite HE in E2. destruct (p_jac_each o); [discriminate E2|]. split; [reflexivity|]. cbn [orb] in E2. rewrite F1a in E2. unfold x_linear in E2.
    destruct jac as [J|jf]; [|exact I]. destruct HJ as [_ HJ]. rewrite HJ in E2. cbn [andb] in E2. apply negb_false_iff in E2. exact E2.
  - unfold jfresh in W3. rewrite F3, F4, F5. destruct jac as [J|jf].
    + destruct HJ as [-> HJ]. rewrite HJ in W3. exact W3.
    + rewrite HJ in W3. exact W3.
Qed.

(** ** C32: negative results *)
(** the derivative that a step stores as that of its beginning (and that the base class would
    use for its dense output; the six classes override it) is the one at t0, in every step *)
Theorem C32_stale_derivative_refuted m o f t0 tb y0 c n v k v' : esd_after m o f t0 tb y0 c n v -> esd_step m c k v = OOk v' -> (forall msg, ostat v' <> OFailed msg) ->
  e_ypold (ost v') = Some (f (Fin t0) y0).
Proof.
  intros HA HS Hst. destruct (esd_step_cases _ _ _ _ _ _ _ _ _ _ _ HA HS) as (r & _ & _ & _ & _ & _ & _ & _ & _ & Ef & _ & _ & [(D & _)|(_ & F1 & _)]); [|exfalso; exact (Hst _ F1)].
  rewrite (proj1 (estep_ypold m c k _ _ D)), Ef. reflexivity.
Qed.

(** linear algebra in one dimension, for the examples *)
Definition lu1 (X : list (list (num QX))) : bool := forallb (forallb nisfin) X.
Definition solve1 (X : list (list (num QX))) (b : list (num QX)) : option (list (num QX)) :=
  if forallb nisfin b then match X, b with [[a]], [x] => Some [ndiv QX x a] | _, _ => None end else None.
Definition eo (ms rt at_ : num QX) (fs : option (num QX)) : EOpts QX :=
  {| p_max_step := ms; p_rtol := rt; p_rtol_is_float := true; p_atol := Scalar at_; p_first_step := fs; p_sc := ScNone; p_jac_each := false |}.
Definition erun (m : EMeth QX) o f jac t0 y0 tb (n : nat) : @ostep_res QX (ES QX) :=
  match esd_init m o lu1 solve1 f jac None t0 y0 tb with
  | inr e => OExn e
  | inl (c, s) =>
    (fix go (n : nat) (v : OSolver QX (ES QX)) :=
       match n with O => OOk v | S k => match ostep eview (x_tb c) (x_dir c) (estep_impl m c 50) v with OOk v' => go k v' | x => x end end) n (onew s)
  end.
Definition returned (r : @ostep_res QX (ES QX)) : option (OSolver QX (ES QX)) := match r with OOk v => Some v | _ => None end.
Definition decay : num QX -> list (num QX) -> list (num QX) := fun _ y => map (fun a => q_opp a) y.

(** an nan error norm makes the next step size nan, whatever the controller *)
Theorem C32_nan_step_refuted c r s w ha rej : egood c r -> 
  exists w', eassess c s w NaN (Fin ha) rej = inl (false, NaN, w').
Proof.
  intros HG. unfold eassess. rewrite n1_RX. cbn [nltb RX xltb].
  destruct (reject_factor_e c r NaN HG eq_refl) as [(q & H & _)|(_ & H)].
  - exfalso. revert H. destruct HG as (_ & _ & _ & _ & _ & _ & _ & _ & _ & Gg & _ & Ge & Ge1 & Gm & _). rewrite Gg, Ge, Gm. unfold xpow. destruct (Req_EM_T (ce r) 0); [lra|]. cbn [xmul]. discriminate.
  - change (npow RX) with xpow. change (nmul RX) with xmul. rewrite H. cbn [xmul]. eexists. reflexivity.
Qed.
(** and then the step ends with the ValueError of lu_factor instead of a failed status: here
    with atol = nan, which the constructor accepts *)
Definition is_lin_error (r : @ostep_res QX (ES QX)) : bool :=
  match r with OExn (ValueError m) => String.eqb m "array must not contain infs or NaNs" | _ => false end.
Example C32_nan_step_case :
  is_lin_error (erun TRX2_m (eo QPInf (QF (1#1000)) QNaN (Some (QF (1#10)))) decay (@JacConst QX [[QF (-1)]]) (QF 0) [QF 1] (QF 1) 1) = true.
Proof. vm_compute. reflexivity. Qed.

(** jac (a function of t alone here) is evaluated twice at the same point in the second step:
    the refresh before the first trial does not set current_J *)
Definition badjac : nat -> num QX -> list (num QX) -> list (list (num QX)) :=
  fun _ t _ => if q_leb t (QF 0) then [[QF (1#2)]] else [[QF (100#1)]].
Theorem C32_jacobian_twice_refuted :
  exists y1, option_map (fun v => w_jcalls (e_w (ost v)))
    (returned (erun TRX2_m (eo (QF 1) (QF (1#10)) (QF (1#100)) (Some (QF 1))) decay (@JacFun QX badjac) (QF 0) [QF 1] (QF 10) 2))
  = Some [(QF 0, [QF 1]); (QF 1, y1); (QF 1, y1)].
Proof. eexists. vm_compute. reflexivity. Qed.
(** the stored derivative is not that of the previous point *)
Example C32_stale_case :
  match returned (erun TRX2_m (eo (QF 1) (QF (1#10)) (QF (1#100)) (Some (QF 1))) decay (@JacConst QX [[QF (-1)]]) (QF 0) [QF 1] (QF 10) 2) with
  | Some v => match e_ypold (ost v), e_yold (ost v) with Some a, Some b => forallb (fun p => q_eqb (fst p) (snd p)) (combine a (decay (QF 0) b)) | _, _ => true end
  | None => true
  end = false.
Proof. vm_compute. reflexivity. Qed.

(** ** C33: max_step *)
(** a step exceeds max_step by less than 1% *)
Theorem C33_within_one_percent m o f t0 tb y0 c n v k v' x x' ms : esd_after m o f t0 tb y0 c n v -> esd_step m c k v = OOk v' ->
  p_max_step o = Fin ms -> e_t (ost v) = Fin x -> e_t (ost v') = Fin x' -> Rabs (x' - x) < 101/100 * ms.
Proof.
  intros HA HS Hms Ex Ex'.
  destruct (esd_step_cases _ _ _ _ _ _ _ _ _ _ _ HA HS) as (r & G & E1 & E2 & E3 & Em & _ & _ & LA & _ & I1 & Ah & HC).
  assert (Hcd : cd r = 1 \/ cd r = -1) by (destruct G as (_ & _ & Hcd & _); exact Hcd).
  rewrite <- Em in Hms.
  destruct HC as [(D & _)|(_ & _ & F & _)].
  - rewrite <- E1 in Ah. destruct (estep_adv m c r k _ _ LA G I1 Ah D) as (_ & [H1 _] & H2). specialize (H2 _ Hms).
    unfold tval in H1, H2. rewrite Ex, Ex' in H1, H2. pose proof sqrt_tiny_pos. rewrite E3 in H1.
    destruct Hcd as [Z|Z]; rewrite Z in *; unfold Rabs; destruct (Rcase_abs _); lra.
  - rewrite F, Ex in Ex'. injection Ex' as <-. replace (x - x) with 0 by ring. rewrite Rabs_R0.
    assert (0 < ms); [|lra]. destruct G as (_ & _ & _ & _ & _ & _ & _ & _ & _ & _ & _ & _ & _ & _ & G). destruct G as [G|(M & G & HM)]; rewrite Hms in G; [discriminate|]. injection G as ->. exact HM.
Qed.
(** and it can exceed it: a step of 1 + 1/256 with max_step = 1 *)
Theorem C33_max_step_refuted :
  option_map (fun v => (e_t (ost v), e_hprev (ost v), ostat v))
    (returned (erun TRX2_m (eo (QF 1) (QF (1#1000)) (QF (1#1000000)) (Some (QF 1))) (fun _ y => map (fun _ => QF 0) y) (@JacConst QX [[QF 0]]) (QF 0) [QF 1] (QF (257#256)) 1))
  = Some (QF (257#256), Some (QF (257#256)), OFinished).
Proof. vm_compute. reflexivity. Qed.
