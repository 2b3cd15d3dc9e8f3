(** C49: convergence of the explicit Runge-Kutta classes. On a problem y' = F(t, y) whose solution Y
    exists on [lo, hi], with F smooth and Lipschitz along Y, every run of a solver whose steps are at
    most H stays within C H^p of Y, whatever the options (tolerances, controller, rejections):
    C does not depend on the run, on the direction, on the length of the run or on H. *)
From Coq Require Import String Reals Lra Psatz QArith Qreals Lia List Arith Bool.
From Verif Require Import Arith Common RK RKGen RKHist RX SpecRK RKSpecProofs RKReal RKInit RKStep RKBuilt RKMore RKTop Classes Tableaux Series Trees OrderThm OrderCheck
  OrderRK OrderModel OrderPair Dense DenseReal DenseStep DenseAcc Smooth Prop_Order GOrder Balls BallTab NearPair Prop_Near UOrder UOrder2 GlobalRK GlobalPoly GlobalRun.
Import ListNotations.
Close Scope string_scope.
Open Scope nat_scope.
Open Scope R_scope.

(** ** specification *)
(** the state of the solver is within [bound] of Y in all components, between t0 and tb, and at tb
    when it is finished *)
Definition tracked (d : nat) (Y : R -> list R) (t0 tb : R) (v : Solver RX) (bound : R) : Prop :=
  exists x yr, t (st v) = Fin x /\ y (st v) = map Fin yr /\ length yr = d /\ within t0 tb x /\
    (stat v = Finished -> x = tb) /\ close d yr (Y x) bound.
(** every solver run of class T (any options, either direction, inside [lo, hi]) that starts on the
    trajectory Y and makes steps of at most H has errors of at most [bound H] in all components, and
    is at t_bound when it is finished *)
Definition runs_track (T : Tab RX) (d : nat) (g : num RX -> list (num RX) -> list (num RX)) (lo hi : R) (Y : R -> list R) (H bound : R) : Prop :=
  forall m k o t0 tb c s0 v, uses_tab m T d -> ordinary k o t0 tb (map Fin (Y t0)) ->
    rk_init k o g (Fin t0) (map Fin (Y t0)) (Fin tb) = inl (c, s0) -> lo <= t0 <= hi -> lo <= tb <= hi ->
    steps_below m c H (new_solver s0) v ->
    tracked d Y t0 tb v bound.
(** calls of step() with max_step not below the minimum step *)
Inductive consistent_run (m : Meth RX) (c : Cfg RX) (v0 : Solver RX) : Solver RX -> Prop :=
| cr_start : consistent_run m c v0 v0
| cr_step v1 v2 k : consistent_run m c v0 v1 -> limits_consistent c v1 -> ode_step k m c v1 = StepOk v2 -> consistent_run m c v0 v2.
(** the same with the option max_step *)
Definition max_step_tracks (T : Tab RX) (d : nat) (g : num RX -> list (num RX) -> list (num RX)) (lo hi : R) (Y : R -> list R) (H bound : R) : Prop :=
  forall m k o t0 tb c s0 v, uses_tab m T d -> ordinary k o t0 tb (map Fin (Y t0)) -> o_max_step o = Fin H ->
    rk_init k o g (Fin t0) (map Fin (Y t0)) (Fin tb) = inl (c, s0) -> lo <= t0 <= hi -> lo <= tb <= hi ->
    consistent_run m c (new_solver s0) v -> tracked d Y t0 tb v bound.

(** ** theorems *)
Lemma track_core d F g lo hi Y s A b c e p W (M : method (S s) p W) H bound : (0 < d)%nat -> lifts d F g -> solution_on d F lo hi Y ->
  length A = s -> length b = s -> length c = s -> nth 0 c 0%Q = 0%Q ->
  (forall F d t y h, length y = d -> rk_step F d M t y h = rpoint d y h (lcomb s (vq b) (rstages F (mq A) (vq c) t y h s))) ->
  (forall ta t y, lo <= ta <= hi -> path d p F lo hi Y (S s) W M H ta t y -> close d y (Y t) bound) ->
  runs_track (mk_tab s A b c e) d g lo hi Y H bound.
Proof.
  intros Hd HF HY LA LB LC C0 HM HG m k o t0 tb cc s0 v HU HO HI Hlo Hhi HS.
  destruct (run_path d p s F lo hi Y A b c e W M g HF Hd LA LB LC C0 HM m k o t0 tb cc s0 H v HU HO HI Hlo Hhi (Y_len d F lo hi Y HY _ Hlo) HS)
    as (x & yr & E1 & E2 & Ly & HP & Hx & Hf).
  exists x, yr. split; [exact E1|]. split; [exact E2|]. split; [exact Ly|]. split; [unfold within; lra|]. split; [exact Hf|]. apply (HG t0); auto.
Qed.

Theorem C49_global_error T p pe d F g lo hi Y : In (T, p, pe) exact_pairs -> (0 < d)%nat -> lifts d F g ->
  solution_on d F lo hi Y -> smooth_along p d F lo hi Y -> lipschitz_along d F lo hi Y ->
  exists C del, 0 <= C /\ 0 < del /\ forall H, 0 <= H < del -> runs_track T d g lo hi Y H (C * H ^ p).
Proof.
  intros HT Hd HF HY HS HL.
  assert (G : forall s A b c e, pair_ok s A b c e p pe = true -> (0 < p)%nat ->
    exists C del, 0 <= C /\ 0 < del /\ forall H, 0 <= H < del -> runs_track (mk_tab s A b c e) d g lo hi Y H (C * H ^ p)).
  { intros s A b c e HP Hp. destruct (pair_ok_spec s A b c e p pe HP) as (LA & LB & LC & _ & C0 & _ & Hlow & HV & _).
    destruct (the_method s A b c p 0 LA LB LC Hlow ltac:(lra) (order_near _ _ _ _ _ HV)) as (W & M & Em & HM).
    destruct (global_error d p F lo hi Y HY (S s) W HS HL Hp) as (C & del & HC & Hdel & H1).
    exists C, del. split; [auto|]. split; [auto|]. intros H HH. apply (track_core d F g lo hi Y s A b c e p W M H); auto.
    intros ta t y Hta HPa. destruct (H1 M H ta t y ltac:(lra) HH Hta HPa) as (_ & _ & H2). rewrite Em, Rplus_0_l in H2. exact H2. }
  repeat (destruct HT as [E|HT]; [injection E as <- <- <-; apply G; [vm_compute; reflexivity|vm_compute; lia]|]). destruct HT.
Qed.

(** classes with rounded decimal coefficients: up to eps, the residual of the order conditions *)
Theorem C49_global_error_near T p eps pe epse d F g lo hi Y : In (T, p, eps, pe, epse) decimal_pairs -> (0 < d)%nat -> lifts d F g ->
  solution_on d F lo hi Y -> smooth_along p d F lo hi Y -> lipschitz_global d F ->
  exists C del, 0 <= C /\ 0 < del /\ forall H, 0 <= H < del -> runs_track T d g lo hi Y H (C * (Q2R eps + H ^ p)).
Proof.
  intros HT Hd HF HY HS HL.
  assert (G : forall s A b c e, near_ok 80 s A b c e p eps pe epse = true -> (0 < p)%nat -> 0 <= Q2R eps ->
    exists C del, 0 <= C /\ 0 < del /\ forall H, 0 <= H < del -> runs_track (mk_tab s A b c e) d g lo hi Y H (C * (Q2R eps + H ^ p))).
  { intros s A b c e HP Hp He. destruct (near_ok_spec 80 s A b c e p eps pe epse HP) as (LA & LB & LC & _ & C0 & _ & Hlow & HV & _).
    destruct (the_method s A b c p (Q2R eps) LA LB LC Hlow He HV) as (W & M & Em & HM).
    destruct (global_error_lipschitz d p F lo hi Y HY (S s) W HS (Q2R eps) HL Hp) as (C & del & HC & Hdel & H1).
    exists C, del. split; [auto|]. split; [auto|]. intros H HH. apply (track_core d F g lo hi Y s A b c e p W M H); auto.
    intros ta t y Hta HPa. destruct (H1 M H ta t y ltac:(lra) HH Hta HPa) as (_ & _ & H2). rewrite Em in H2. exact H2. }
  destruct HT as [E|HT]; [injection E as <- <- <- <- <-; apply (G _ _ _ _ _ near_Ts5); [vm_compute; lia|unfold Q2R; simpl; lra]|].
  destruct HT as [E|HT]; [injection E as <- <- <- <- <-; apply (G _ _ _ _ _ near_Pr8); [vm_compute; lia|unfold Q2R; simpl; lra]|].
  destruct HT as [E|HT]; [injection E as <- <- <- <- <-; apply (G _ _ _ _ _ near_Pr9); [vm_compute; lia|unfold Q2R; simpl; lra]|].
  destruct HT.
Qed.

Lemma max_below T d g lo hi Y H bound m k o t0 tb c s0 v : (0 < d)%nat -> runs_track T d g lo hi Y H bound ->
  uses_tab m T d -> ordinary k o t0 tb (map Fin (Y t0)) -> o_max_step o = Fin H ->
  rk_init k o g (Fin t0) (map Fin (Y t0)) (Fin tb) = inl (c, s0) -> lo <= t0 <= hi -> lo <= tb <= hi ->
  consistent_run m c (new_solver s0) v -> steps_below m c H (new_solver s0) v.
Proof.
  intros Hd HR HU HO HM HI Hlo Hhi HC.
  assert (HE : explicit m) by (eapply ex_tab; eauto). pose proof (explicit_min m HE) as Hmin.
  assert (HB : built o g t0 tb (map Fin (Y t0)) c s0) by (left; eauto).
  assert (EM : max_step c = Fin H) by (destruct (built_good _ _ _ _ _ _ _ HB) as (r & HX); rewrite <- HM; apply HX).
  induction HC as [|v1 v2 kk HC IH HL HS]; [constructor|].
  econstructor; [exact IH|exact HL|exact HS|]. intros x1 x2 E1 E2.
  destruct (HR m k o t0 tb c s0 v1 HU HO HI Hlo Hhi IH) as (x & yr & Ex & Ey & Ly & Hw & _).
  destruct (steps_below_history _ _ _ _ _ IH) as (n & Hn).
  assert (HA : after m o g t0 tb (map Fin (Y t0)) c n v1) by (exists s0; auto).
  destruct (failed_or v2) as [(msg & Hf)|Hnf].
  - destruct (failure_clean m c kk v1 v2 msg HE HS Hf) as (Et & _). rewrite Et, E1 in E2. injection E2 as <-.
    rewrite Rminus_diag_eq, Rabs_R0 by auto.
    destruct HO as [? HO]. clear - HM EM HB. destruct (built_good _ _ _ _ _ _ _ HB) as (r & HG & _). destruct HG as (_ & _ & [E|(M & E & HP)]); rewrite EM in E; [discriminate|].
    injection E as <-. lra.
  - destruct (monotone m o g t0 tb _ c n v1 kk v2 HE HA HL HS Hnf) as (a & a' & F1 & F2 & _ & F3).
    rewrite E1 in F1. injection F1 as <-. rewrite E2 in F2. injection F2 as <-.
    destruct F3 as (F3 & _); [rewrite Ey; destruct yr; [simpl in Ly; lia|discriminate]|]. rewrite EM in F3. apply Rleb_true in F3. exact F3.
Qed.

Lemma max_track T d g lo hi Y H bound : (0 < d)%nat -> runs_track T d g lo hi Y H bound -> max_step_tracks T d g lo hi Y H bound.
Proof.
  intros Hd HR m k o t0 tb c s0 v HU HO HM HI Hlo Hhi HC. apply (HR m k o t0 tb c s0 v HU HO HI Hlo Hhi). eapply max_below; eauto.
Qed.

(** choosing max_step = H bounds the global error by C H^p *)
Theorem C49_max_step T p pe d F g lo hi Y : In (T, p, pe) exact_pairs -> (0 < d)%nat -> lifts d F g ->
  solution_on d F lo hi Y -> smooth_along p d F lo hi Y -> lipschitz_along d F lo hi Y ->
  exists C del, 0 <= C /\ 0 < del /\ forall H, 0 <= H < del -> max_step_tracks T d g lo hi Y H (C * H ^ p).
Proof.
  intros HT Hd HF HY HS HL. destruct (C49_global_error T p pe d F g lo hi Y HT Hd HF HY HS HL) as (C & del & HC & Hdel & H1).
  exists C, del. split; [auto|]. split; [auto|]. intros H HH. apply max_track; auto.
Qed.
Theorem C49_max_step_near T p eps pe epse d F g lo hi Y : In (T, p, eps, pe, epse) decimal_pairs -> (0 < d)%nat -> lifts d F g ->
  solution_on d F lo hi Y -> smooth_along p d F lo hi Y -> lipschitz_global d F ->
  exists C del, 0 <= C /\ 0 < del /\ forall H, 0 <= H < del -> max_step_tracks T d g lo hi Y H (C * (Q2R eps + H ^ p)).
Proof.
  intros HT Hd HF HY HS HL. destruct (C49_global_error_near T p eps pe epse d F g lo hi Y HT Hd HF HY HS HL) as (C & del & HC & Hdel & H1).
  exists C, del. split; [auto|]. split; [auto|]. intros H HH. apply max_track; auto.
Qed.
(** polynomial right-hand sides: only the existence of the solution is needed *)
Theorem C49_polynomial T p pe d F g lo hi Y : In (T, p, pe) exact_pairs -> (0 < d)%nat -> lifts d F g -> polynomial d F ->
  solution_on d F lo hi Y ->
  exists C del, 0 <= C /\ 0 < del /\ forall H, 0 <= H < del ->
    runs_track T d g lo hi Y H (C * H ^ p) /\ max_step_tracks T d g lo hi Y H (C * H ^ p).
Proof.
  intros HT Hd HF HP HY.
  destruct (C49_global_error T p pe d F g lo hi Y HT Hd HF HY (polynomial_smooth_along _ _ _ _ _ _ HP HY) (polynomial_lipschitz_along _ _ _ _ _ HP HY)) as (C & del & HC & Hdel & H1).
  exists C, del. split; [auto|]. split; [auto|]. intros H HH. split; [auto|]. apply max_track; auto.
Qed.
(** convergence: any accuracy is reached by making the steps short enough *)
Theorem C49_convergence T p pe d F g lo hi Y : In (T, p, pe) exact_pairs -> (0 < d)%nat -> lifts d F g ->
  solution_on d F lo hi Y -> smooth_along p d F lo hi Y -> lipschitz_along d F lo hi Y ->
  forall acc, 0 < acc -> exists del, 0 < del /\ forall H, 0 <= H < del -> runs_track T d g lo hi Y H acc /\ max_step_tracks T d g lo hi Y H acc.
Proof.
  intros HT Hd HF HY HS HL acc Hacc. destruct (C49_global_error T p pe d F g lo hi Y HT Hd HF HY HS HL) as (C & del & HC & Hdel & H1).
  assert (Hp : (0 < p)%nat).
  { repeat (destruct HT as [E|HT]; [injection E as _ <- _; vm_compute; lia|]). destruct HT. }
  exists (Rmin del (Rmin 1 (acc / (C + 1)))).
  split. { apply Rmin_case; auto. apply Rmin_case; [lra|]. apply Rdiv_lt_0_compat; lra. }
  intros H (H0 & HH).
  assert (A1 : H < del) by (eapply Rlt_le_trans; [exact HH|apply Rmin_l]).
  assert (A2 : H < 1) by (eapply Rlt_le_trans; [exact HH|eapply Rle_trans; [apply Rmin_r|apply Rmin_l]]).
  assert (A3 : H < acc / (C + 1)) by (eapply Rlt_le_trans; [exact HH|eapply Rle_trans; [apply Rmin_r|apply Rmin_r]]).
  assert (B : C * H ^ p <= acc).
  { assert (H ^ p <= H).
    { revert Hp. clear - H0 A2. generalize p. intros [|q] Hq; [lia|]. simpl. apply Rle_trans with (H * 1); [|lra]. apply Rmult_le_compat_l; [auto|].
      rewrite <- (pow1 q). apply pow_incr. lra. }
    apply Rmult_lt_compat_r with (r := C + 1) in A3; [|lra]. unfold Rdiv in A3. rewrite Rmult_assoc, Rinv_l, Rmult_1_r in A3 by lra. nra. }
  assert (R1 : runs_track T d g lo hi Y H acc).
  { intros m k o t0 tb c s0 v HU HO HI Hlo Hhi Hb. destruct (H1 H ltac:(lra) m k o t0 tb c s0 v HU HO HI Hlo Hhi Hb) as (x & yr & Q1 & Q2 & Q3 & Q4 & Q5 & Q6).
    exists x, yr. repeat (split; [assumption|]). eapply close_le; [exact Q6|exact B]. }
  split; [exact R1|]. apply max_track; auto.
Qed.

(** the hypotheses are met: y' = y^2 on [0, 1/2] from y(0) = 1, whose solution 1/(1 - t) is not a polynomial;
    and, for the decimal classes, the oscillator y' = (y1, -y0), which is Lipschitz everywhere *)
Example C49_case : lifts 1 riccati riccati_x /\ polynomial 1 riccati /\ solution_on 1 riccati 0 (1/2) (fun t => [/ (1 - t)]) /\
  smooth_along 5 1 riccati 0 (1/2) (fun t => [/ (1 - t)]) /\ lipschitz_along 1 riccati 0 (1/2) (fun t => [/ (1 - t)]).
Proof.
  assert (HP : polynomial 1 riccati).
  { exists (fun _ => [(1, [1%nat; 1%nat])]). split; [intros q _; repeat constructor|]. intros t y Hy. split; [reflexivity|].
    intros [|q] Hq; [|lia]. destruct y as [|a [|? ?]]; try discriminate Hy. unfold riccati. cbn [nth lsum fst snd fold_right]. ring. }
  assert (HY : solution_on 1 riccati 0 (1/2) (fun t => [/ (1 - t)])).
  { exists (1/4). split; [lra|]. intros t Ht. split; [reflexivity|]. intros [|q] Hq; [|lia]. unfold riccati. cbn [nth].
    replace (/ (1 - t) * / (1 - t)) with ((0 * (1 - t) - (0 - 1) * 1) / Rsqr (1 - t)) by (unfold Rsqr; field; lra).
    intros eps Heps. destruct (derivable_pt_lim_div (fct_cte 1) (fct_cte 1 - id)%F t 0 (0 - 1)) with (eps := eps) as (del & Hdel); auto; 
      [..|exists del; intros h Hh0 Hh; specialize (Hdel h Hh0 Hh); unfold div_fct, minus_fct, fct_cte, id, Rdiv in Hdel; rewrite !Rmult_1_l in Hdel; exact Hdel].
    - apply derivable_pt_lim_const.
    - apply derivable_pt_lim_minus; [apply derivable_pt_lim_const|apply derivable_pt_lim_id].
    - unfold minus_fct, fct_cte, id. lra. }
  split; [exact (proj1 C18_case)|]. split; [exact HP|]. split; [exact HY|]. split; [apply polynomial_smooth_along; auto|apply polynomial_lipschitz_along; auto].
Qed.
Definition rotation : R -> list R -> list R := fun _ y => [nth 1 y 0; - nth 0 y 0].
Example C49_near_case : polynomial 2 rotation /\ lipschitz_global 2 rotation /\ forall lo hi, solution_on 2 rotation lo hi (fun t => [sin t; cos t]) /\
  smooth_along 9 2 rotation lo hi (fun t => [sin t; cos t]).
Proof.
  assert (HP : polynomial 2 rotation).
  { exists (fun q => match q with O => [(1, [2%nat])] | _ => [(-(1), [1%nat])] end). split; [intros [|[|q]] Hq; try lia; repeat constructor|].
    intros t y Hy. split; [reflexivity|]. intros [|[|q]] Hq; try lia; destruct y as [|a [|b [|? ?]]]; try discriminate Hy; unfold rotation; cbn [nth lsum fst snd fold_right]; ring. }
  split; [exact HP|]. split.
  { exists 1. split; [lra|]. intros s u v e Lu Lv Huv [|[|q]] Hq; try lia; unfold rotation; cbn [nth]; rewrite Rmult_1_l; [apply Huv; lia|].
    replace (- nth 0 u 0 - - nth 0 v 0) with (- (nth 0 u 0 - nth 0 v 0)) by ring. rewrite Rabs_Ropp. apply Huv; lia. }
  intros lo hi. assert (HY : solution_on 2 rotation lo hi (fun t => [sin t; cos t])).
  { exists 1. split; [lra|]. intros t _. split; [reflexivity|]. intros [|[|q]] Hq; try lia; unfold rotation; cbn [nth]; [apply derivable_pt_lim_sin|apply derivable_pt_lim_cos]. }
  split; [exact HY|]. apply polynomial_smooth_along; auto.
Qed.
