(** * Properties C01-C15, C45: explicit Runge-Kutta(-Nystrom) solvers.

    Vocabulary (all in the model RK.v/RKInit.v or the small specification SpecRK.v):
    [built o fun_ t0 tb y0 c s]   the constructor of an explicit class returned a solver;
    [after m o fun_ t0 tb y0 c n v]  v is that solver after n returned step() calls;
    [history m c v0 n v]          n returned step() calls lead from v0 to v;
    [ode_step k m c v]            one step() call, with at most k trial steps;
    [proper c v]                  the state is not empty and t differs from t_bound;
    [is_failed v]                 the solver's status is 'failed'.
    RX are the extended reals (exact arithmetic with inf and nan); statements with an
    arbitrary [A : Arith] hold for floats as well. *)
From Coq Require Import String ZArith Reals Lra QArith Qreals Bool Lia List.
From Verif Require Import Arith Common Stiff RK RKGen RKHist RKNonInt RX RKReal HStart RKInit RKBuilt RKTimes
  SpecRK RKMirror RKTop Tableaux Classes QX RKEx RKRefute.
Import ListNotations.
Open Scope R_scope.

(** The solver classes of the library that these theorems are about. *)
Definition explicit_classes (A : Arith) (n : nat) : list (Cls A * Meth A) :=
  [(BS5_cls, BS5_meth n); (CFMR7osc_cls, CFMR7osc_meth n); (CK5_cls, CK5_meth n); (Me4_cls, Me4_meth n);
   (Ts5_cls, Ts5_meth n); (Pr7_cls, Pr7_meth n); (Pr8_cls, Pr8_meth n); (Pr9_cls, Pr9_meth n);
   (Fi4N_cls, Fi4N_meth n); (Fi5N_cls, Fi5N_meth n); (Mu5Nmb_cls, Mu5Nmb_meth n); (MR6NN_cls, MR6NN_meth n)].

Theorem library_classes_explicit A n k m : In (k, m) (explicit_classes A n) -> explicit m.
Proof.
  intros H.
  repeat (destruct H as [E|H]; [injection E as _ <-;
    first [ refine (ex_tab _ _ _ (ut_bs5 _ _ _ _ _ _))
          | refine (ex_tab _ _ _ (ut_cfmr _ _ _ _))
          | refine (ex_tab _ _ _ (ut_rk _ _ _ _))
          | refine (ex_tabn _ _ _ (ut_rkn _ _ _ _)) ];
    apply Nat.leb_le; reflexivity|]).
  destruct H.
Qed.

(** ** C01 *)
Theorem C01_monotone m o fun_ t0 tb y0 c n v k v' : explicit m -> after m o fun_ t0 tb y0 c n v ->
  limits_consistent c v -> ode_step k m c v = StepOk v' -> ~ is_failed v' ->
  exists x x', t (st v) = Fin x /\ t (st v') = Fin x' /\ advances t0 tb x x' /\
    (y (st v) <> [] -> xleb (Fin (Rabs (x' - x))) (max_step c) = true /\
                       xleb (code_min_step c (st v)) (Fin (Rabs (x' - x))) = true).
Proof. exact (monotone m o fun_ t0 tb y0 c n v k v'). Qed.
Theorem C01_within_interval m o fun_ t0 tb y0 c n v : explicit m -> after m o fun_ t0 tb y0 c n v ->
  o_max_step o = PInf -> exists x, t (st v) = Fin x /\ within t0 tb x /\ (stat v = Finished -> x = tb).
Proof. exact (within_interval m o fun_ t0 tb y0 c n v). Qed.
Theorem C01_lands m o fun_ t0 tb y0 c n v k v' x h : explicit m -> after m o fun_ t0 tb y0 c n v ->
  ode_step k m c v = StepOk v' -> ~ is_failed v' -> nfs (st v') = nfs (st v) ->
  t (st v) = Fin x -> h_abs (st v) = Fin h ->
  xleb (code_min_step c (st v)) (Fin h) = true -> xleb (Fin h) (max_step c) = true ->
  Rabs (tb - x) <= h ->
  t (st v') = Fin tb /\ stat v' = Finished.
Proof. exact (lands m o fun_ t0 tb y0 c n v k v' x h). Qed.
(** the proviso of [C01_monotone] is needed: with max_step = 1 a step jumps from
    t = 1 past t_bound = 2.5 to beyond 90000 *)
Theorem C01_without_proviso_refuted : exists c s v v2,
  rk_init Me4_cls (leap_opts (QF 1)) decay (QF 0) y80 (QF (5#2)) = inl (c, s) /\
  ode_step 1 (Me4_meth 1) c (new_solver s) = StepOk v /\ ode_step 1 (Me4_meth 1) c v = StepOk v2 /\
  t (st v) = QF 1 /\ stat v2 = Finished /\ nltb QX (QF 90000) (t (st v2)) = true.
Proof. exact leap. Qed.

(** a concrete run meeting the hypotheses of C01, C02, C05-C09: y' = 0, y(0) = 1,
    Me4 on [0,1] with first_step 1 *)
Example C01_case : exists c s v, explicit (@Me4_meth RX 1) /\
  after (Me4_meth 1) (opts (Some (Fin 1)) PInf 0) zero_rhs 0 1 [Fin 1] c 0 (new_solver s) /\
  limits_consistent c (new_solver s) /\ proper c (new_solver s) /\ y s <> [] /\
  ode_step 1 (Me4_meth 1) c (new_solver s) = StepOk v /\ ~ is_failed v /\ stat v = Finished /\
  nfs (st v) = nfs s /\ h_abs s = Fin 1 /\ xleb (code_min_step c s) (Fin 1) = true.
Proof.
  destruct zero_run as (c & s & v & HB & HS & Hf & Hy & Hn & HL & H1 & Hh).
  destruct (built_good _ _ _ _ _ _ _ HB) as (r & HG & _ & E1 & _ & _ & _ & _ & Ht & Hy0 & _).
  exists c, s, v. split; [apply (library_classes_explicit RX 1 Me4_cls); right; right; right; left; reflexivity|].
  split; [exists s; split; [exact HB|constructor]|]. split; [exact HL|].
  assert (Hne : y s <> []) by (rewrite Hy0; discriminate).
  split.
  { split; [exact Hne|]. cbn [st new_solver]. rewrite Ht. destruct HG as ((HH1 & _) & _). rewrite HH1, E1.
    cbn [neqb RX xeqb]. unfold Reqb. destruct (Req_EM_T 0 1); [lra|reflexivity]. }
  split; [exact Hne|]. split; [exact HS|]. split; [intros (msg & E); congruence|]. auto.
Qed.

(** ** C02 and C06: an accepted step is the textbook step with scaled error below one,
    and the cached derivative is that of the new point *)
Theorem C02_C06_step (A : Arith) (m : Meth A) T n c v0 j v k v' : uses_tab m T n -> fresh c (st v0) ->
  history m c v0 j v -> ode_step k m c v = StepOk v' -> ~ is_failed v' -> proper c v ->
  exists h ks, textbook_rk T n (fn c) (t (st v)) (y (st v)) h ks (t (st v')) (y (st v')) /\
    nltb A (scaled_rms (rtol c) (atol c) (y (st v)) (y (st v'))
              (tab_error T n (fn c) h ks (t (st v')) (y (st v')))) n1 = true /\
    f (st v') = fn c (t (st v')) (y (st v')).
Proof. exact (step_is_textbook m T n c v0 j v k v'). Qed.
Theorem C02_C06_step_nystrom (A : Arith) (m : Meth A) T n c v0 j v k v' : uses_tabn m T n -> fresh c (st v0) ->
  history m c v0 j v -> ode_step k m c v = StepOk v' -> ~ is_failed v' -> proper c v ->
  exists h ks, textbook_rkn T n (fn c) (t (st v)) (y (st v)) h ks (t (st v')) (y (st v')) /\
    nltb A (scaled_rms (rtol c) (atol c) (y (st v)) (y (st v'))
              (tabn_error T n (fn c) h ks (t (st v')) (y (st v')))) n1 = true /\
    f (st v') = fn c (t (st v')) (y (st v')).
Proof. exact (step_is_textbook_n m T n c v0 j v k v'). Qed.
Theorem C02_components (T : Tab RX) m n c v0 j v k v' : uses_tab m T n -> fresh c (st v0) ->
  history m c v0 j v -> ode_step k m c v = StepOk v' -> ~ is_failed v' -> proper c v ->
  exists h ks, textbook_rk T n (fn c) (t (st v)) (y (st v)) h ks (t (st v')) (y (st v')) /\
  let err := tab_error T n (fn c) h ks (t (st v')) (y (st v')) in
  let scale := calculate_scale (atol c) (rtol c) (y (st v)) (y (st v')) in
  forall e, In e (vdiv err scale) -> exists q, e = Fin q /\ Rabs q < sqrt (INR (length (vdiv err scale))).
Proof. exact (components_bounded T m n c v0 j v k v'). Qed.
(** the constructors establish [fresh] *)
Theorem C06_initial_derivative (A : Arith) k o fun_ t0 y0 tb (c : Cfg A) s :
  rk_init k o fun_ t0 y0 tb = inl (c, s) -> fresh c s.
Proof.
  intros H. unfold rk_init in H.
  destruct (nleb A (o_max_step o) n0); [discriminate|].
  destruct (validate_tol _ _ _ _) as [[rt at_]|]; [|discriminate].
  destruct (init_stiff _ _) as [nsd|]; [|discriminate].
  destruct (sc_coefs _) as [[[[kb1 kb2] al] gg]|]; [|discriminate].
  cbv zeta in H.
  match type of H with match ?x with inl _ => _ | inr _ => _ end = _ => destruct x as [[? ?]|]; [|discriminate] end.
  injection H as <- <-. reflexivity.
Qed.
Theorem C06_initial_derivative_nystrom (A : Arith) k vi o fun_ t0 y0 tb (c : Cfg A) s :
  rkn_init k vi o fun_ t0 y0 tb = inl (c, s) -> fresh c s.
Proof.
  intros H. unfold rkn_init in H.
  match type of H with match ?x with inl _ => _ | inr _ => _ end = _ => destruct x as [[c1 s1]|] eqn:E; [|discriminate] end.
  assert (F : f s1 = fun_ t0 y0 /\ t s1 = t0 /\ y s1 = y0).
  { clear H. unfold rk_init in E.
    destruct (nleb A _ n0); [discriminate|]. destruct (validate_tol _ _ _ _) as [[rt at_]|]; [|discriminate].
    destruct (init_stiff _ _) as [nsd|]; [|discriminate].
    destruct (sc_coefs _) as [[[[kb1 kb2] al] gg]|]; [|discriminate]. cbv zeta in E.
    match type of E with match ?x with inl _ => _ | inr _ => _ end = _ => destruct x as [[? ?]|]; [|discriminate] end.
    injection E as <- <-. auto. }
  destruct F as (F1 & F2 & F3).
  destruct (init_stiff _ _); [|discriminate]. cbv zeta in H.
  destruct (_ || _) in H; [discriminate|]. destruct (_ && _) in H; [discriminate|].
  injection H as <- <-. unfold fresh. cbn [fn f t y]. rewrite F1, F2, F3. reflexivity.
Qed.
(** both branches of the hypotheses are met by every class of the library *)
Example C02_case : uses_tab (@BS5_meth RX 3) BS5_tab 3 /\ uses_tab (@CFMR7osc_meth RX 2) CFMR7osc_tab 2 /\
  uses_tab (@Pr9_meth RX 1) Pr9_tab 1 /\ uses_tabn (@Fi5N_meth RX 2) Fi5N_tab 2.
Proof.
  split; [|split; [|split]].
  - refine (ut_bs5 _ _ _ _ _ _). apply Nat.leb_le. reflexivity.
  - refine (ut_cfmr _ _ _ _). apply Nat.leb_le. reflexivity.
  - refine (ut_rk _ _ _ _). apply Nat.leb_le. reflexivity.
  - refine (ut_rkn _ _ _ _). apply Nat.leb_le. reflexivity.
Qed.

(** ** C03 *)
Theorem C03_terminates m o fun_ t0 tb y0 c n v g K : explicit m -> after m o fun_ t0 tb y0 c n v ->
  stat v = Running -> safety c = Fin g ->
  (1 <= K)%nat -> Rabs (tb - t0) * Rmax (1/5) g ^ K < sqrt (/ 2 ^ 1022) ->
  forall k, (K < k)%nat -> ode_step k m c v <> StepFuel /\ ode_step k m c v = ode_step (S K) m c v.
Proof. exact (terminates m o fun_ t0 tb y0 c n v g K). Qed.
Theorem C03_bound_exists (d g : R) : 0 < g < 1 ->
  exists K : nat, (1 <= K)%nat /\ d * Rmax (1/5) g ^ K < sqrt (/ 2 ^ 1022).
Proof. exact (fuel_exists d g). Qed.
Theorem C03_C09_rejections_shrink m o fun_ t0 tb y0 c n v k v' g : explicit m -> after m o fun_ t0 tb y0 c n v ->
  safety c = Fin g -> ode_step k m c v = StepOk v' -> ~ is_failed v' -> proper c v ->
  exists h1 hk j x x', (nfs (st v') = nfs (st v) + j)%nat /\ t (st v) = Fin x /\ t (st v') = Fin x' /\
    0 < h1 /\ hk = Rabs (x' - x) /\ h1 * (1/5) ^ j <= hk <= h1 * Rmax (1/5) g ^ j /\
    xleb (Fin h1) (pymax (Fin (Rabs (tb - x))) (code_min_step c (st v))) = true /\
    ((0 < j)%nat -> exists h', h_abs (st v') = Fin h' /\ h' <= hk).
Proof. exact (rejections_shrink m o fun_ t0 tb y0 c n v k v' g). Qed.
(** every class constructs for every problem with the default options (also the case for C08, C11) *)
Example C03_case k fun_ t0 tb y0 : In k classes -> t0 <> tb -> y0 <> [] ->
  exists c s, built (opts None PInf 5000) fun_ t0 tb y0 c s.
Proof. exact (every_class_builds k fun_ t0 tb y0). Qed.

(** ** C04: a user tuple with safety = 1 is accepted and step() can hang *)
Theorem C04_tuple_hang_refuted : exists c s, rk_init Me4_cls hang_opts spike (QF 0) [QF 0] (QF 1) = inl (c, s) /\
  forall trials, ode_step trials (Me4_meth 1) c (new_solver s) = StepFuel.
Proof. exact hang. Qed.

(** ** C05 *)
Theorem C05_failure (A : Arith) (m : Meth A) c k v v' msg : explicit m ->
  ode_step k m c v = StepOk v' -> stat v' = Failed msg ->
  t (st v') = t (st v) /\ y (st v') = y (st v) /\ f (st v') = f (st v) /\ t_old v' = t_old v /\
  match msg with
  | TOO_SMALL_STEP => exists trial_h, nltb A trial_h
      (pymax (nmul A (h_min_a c) (nadd A (nabs A (t (st v))) (h_abs (st v)))) (h_min_b c)) = true
  | OVERFLOW => exists h ks, full_stages m c (t (st v)) (y (st v)) (f (st v)) h ks /\
      let yn := m_sol m (y (st v)) h ks in
      let en := err_norm c (y (st v)) yn (m_err m h (if m_fsal m then ks ++ [fn c (nadd A (t (st v)) h) yn] else ks)) in
      nisnan A en || nisinf A en = true
  end.
Proof. exact (failure_clean m c k v v' msg). Qed.
(** a failing case: the right-hand side y' = nan *)
Definition nan_rhs : num QX -> list (num QX) -> list (num QX) := fun t _ => [if q_eqb t (QF 0) then QF 0 else QNaN].
Definition is_over (x : status) : bool := match x with Failed OVERFLOW => true | _ => false end.
Example C05_case : exists c s v, rk_init Me4_cls (leap_opts QPInf) nan_rhs (QF 0) [QF 1] (QF 1) = inl (c, s) /\
  ode_step 1 (Me4_meth 1) c (new_solver s) = StepOk v /\ stat v = Failed OVERFLOW.
Proof.
  destruct (chk_init_spec Me4_cls (leap_opts QPInf) nan_rhs (QF 0) [QF 1] (QF 1)
    (fun c s => chk_step 1 (Me4_meth 1) c (new_solver s) (fun v => is_over (stat v)))) as (c & s & HI & HC).
  { vm_compute. reflexivity. }
  destruct (chk_step_spec _ _ _ _ _ HC) as (v & HS & HP).
  exists c, s, v. split; [exact HI|]. split; [exact HS|]. destruct (stat v) as [| |[]]; try discriminate HP. reflexivity.
Qed.

(** ** C07 *)
Theorem C07_cost (A : Arith) (m : Meth A) c k v v' : explicit m -> nfev_stiff_detect c = 0%nat -> m_pre m = None ->
  ode_step k m c v = StepOk v' -> ~ is_failed v' -> proper c v ->
  exists rejected, (nfs (st v') = nfs (st v) + rejected)%nat /\
    (nfev (st v') = nfev (st v) + rejected * (m_stages m - 1 + (if m_fsal m then 1 else 0)) + m_stages m)%nat.
Proof. intros HE. exact (step_cost_plain m c k v v' (explicit_min m HE)). Qed.
(** BS5 and CFMR7osc: rejections at the pre-estimate cost one stage less *)
Theorem C07_cost_pre (A : Arith) (m : Meth A) c k v v' : explicit m -> nfev_stiff_detect c = 0%nat ->
  ode_step k m c v = StepOk v' -> ~ is_failed v' -> proper c v ->
  exists pre full, (nfs (st v') = nfs (st v) + pre + full)%nat /\
    (nfev (st v') = nfev (st v) + pre * (m_stages m - 2)
       + full * (m_stages m - 1 + (if m_fsal m then 1 else 0)) + m_stages m)%nat.
Proof. intros HE. exact (step_cost_pre m c k v v' (explicit_min m HE)). Qed.

(** ** C08 *)
Theorem C08_steps_bounded m o fun_ t0 tb y0 c n v : explicit m -> after m o fun_ t0 tb y0 c n v ->
  INR n * sqrt (/ 2 ^ 1022) < Rabs (tb - t0) + sqrt (/ 2 ^ 1022).
Proof. exact (steps_bounded m o fun_ t0 tb y0 c n v). Qed.
Theorem C08_run_ends m o fun_ t0 tb y0 c s : explicit m -> built o fun_ t0 tb y0 c s ->
  (nfev_stiff_detect c = 0%nat \/ (m_stages m <= nfev_stiff_detect c)%nat) ->
  exists n v, history m c (new_solver s) n v /\ (stat v = Finished \/ is_failed v).
Proof. exact (run_ends m o fun_ t0 tb y0 c s). Qed.
Example C08_case k m fun_ t0 tb y0 : In k classes -> explicit m -> t0 <> tb -> y0 <> [] -> (m_stages m <= 5000)%nat ->
  exists c n v, after m (opts None PInf 5000) fun_ t0 tb y0 c n v /\ (stat v = Finished \/ is_failed v).
Proof. exact (every_class_runs k m fun_ t0 tb y0). Qed.

(** ** C09 (the max_step limit is part of [C01_monotone]; no growth after a rejection is
    part of [C03_C09_rejections_shrink]) *)
Theorem C09_growth m o fun_ t0 tb y0 c n v k v' : explicit m -> after m o fun_ t0 tb y0 c n v ->
  ode_step k m c v = StepOk v' -> ~ is_failed v' -> proper c v ->
  snd (reassess_stepsize c (st v)) = false ->
  exists x x' h', t (st v) = Fin x /\ t (st v') = Fin x' /\ h_abs (st v') = Fin h' /\
    1/5 * Rabs (x' - x) <= h' <= 10 * Rabs (x' - x).
Proof. exact (growth_limited m o fun_ t0 tb y0 c n v k v'). Qed.
Theorem C09_max_factor m o fun_ t0 tb y0 c n v : explicit m -> after m o fun_ t0 tb y0 c n v ->
  max_factor (st v) = Fin 10 \/ max_factor (st v) = Fin 4.
Proof. exact (max_factor_values m o fun_ t0 tb y0 c n v). Qed.
Theorem C09_max_factor_stays m o fun_ t0 tb y0 c n v k v' : explicit m -> after m o fun_ t0 tb y0 c n v ->
  ode_step k m c v = StepOk v' -> ~ is_failed v' ->
  max_factor (st v') = max_factor (st v) \/ max_factor (st v') = Fin 4.
Proof. exact (max_factor_stays m o fun_ t0 tb y0 c n v k v'). Qed.

(** ** C10 *)
Theorem C10_growth_cap_refuted : exists c s v,
  rk_init Me4_cls (leap_opts (QF 1)) decay (QF 0) y80 (QF (5#2)) = inl (c, s) /\
  ode_step 1 (Me4_meth 1) c (new_solver s) = StepOk v /\ stat v = Running /\
  nltb QX (nmul QX (QF 10000) (nmul QX (max_factor s) (h_abs s))) (h_abs (st v)) = true.
Proof. exact growth_uncapped. Qed.
Theorem C10_max_step_refuted : exists c s v, rk_init Me4_cls tiny_opts decay (QF 0) [QF 1] (q160 15) = inl (c, s) /\
  ode_step 1 (Me4_meth 1) c (new_solver s) = StepOk v /\ stat v = Finished /\
  nltb QX (nmul QX (QF 100000) (max_step c)) (t (st v)) = true /\
  nltb QX (nmul QX (QF 100000) (t_bound c)) (t (st v)) = true.
Proof. exact max_step_ignored. Qed.

(** ** C11 *)
Theorem C11_no_exception m o fun_ t0 tb y0 c n v k e : explicit m -> after m o fun_ t0 tb y0 c n v ->
  stat v = Running ->
  (nfev_stiff_detect c = 0%nat \/ (m_stages m <= nfev_stiff_detect c)%nat) ->
  ode_step k m c v <> StepExn e.
Proof. exact (no_exception m o fun_ t0 tb y0 c n v k e). Qed.
Theorem C11_controller_defined m o fun_ t0 tb y0 c n v : explicit m -> after m o fun_ t0 tb y0 c n v ->
  standard_sc (st v) = false ->
  exists hp eo te, h_previous (st v) = Some (Fin hp) /\ hp <> 0 /\ error_norm_old (st v) = Some (Fin eo) /\
    tiny_err c = Fin te /\ 0 < te <= eo /\ eo < 1.
Proof. exact (controller_defined m o fun_ t0 tb y0 c n v). Qed.

(** ** C12 *)
Theorem C12_reversal m T n0 k o fun_ t0 tb y0 c s h0 : uses_tab m T n0 -> ordinary k o t0 tb y0 ->
  o_first_step o = Some h0 -> o_stiff o = 0%Z ->
  rk_init k o fun_ (Fin t0) y0 (Fin tb) = inl (c, s) ->
  exists c' s', rk_init k o (reversed fun_) (Fin (- t0)) y0 (Fin (- tb)) = inl (c', s') /\
    forall n v, history m c (new_solver s) n v ->
    exists v', history m c' (new_solver s') n v' /\
      t (st v') = nopp RX (t (st v)) /\ y (st v') = y (st v) /\ f (st v') = map (nopp RX) (f (st v)) /\
      h_abs (st v') = h_abs (st v) /\ stat v' = stat v.
Proof.
  intros HU. assert (HM : min_stages m) by (apply explicit_min; eapply ex_tab; eauto).
  assert (HO : odd_meth m) by (inversion HU; subst; [apply rk_odd|apply bs5_odd|apply cfmr_odd]).
  intros. eapply reversal; eauto.
Qed.

(** ** C13 *)
Theorem C13_detect_irrelevant (A : Arith) (m : Meth A) c fuel n s v : run fuel n m c (new_solver s) = StepOk v ->
  exists v', run fuel n m (set_detect c 0) (new_solver s) = StepOk v' /\
    t (st v') = t (st v) /\ y (st v') = y (st v) /\ f (st v') = f (st v) /\
    h_abs (st v') = h_abs (st v) /\ nfs (st v') = nfs (st v) /\ K (st v') = K (st v) /\
    stat v' = stat v /\ t_old v' = t_old v.
Proof. exact (detect_irrelevant m c fuel n s v). Qed.
(** a run with diagnosis switched on: y' = -y on [0,2], 4 evaluations of fun per test *)
Definition det_opts : Opts QX :=
  {| o_max_step := (QPInf : num QX); o_rtol := QF (1#1000); o_rtol_is_float := true;
     o_atol := @Scalar QX (QF (rnd (1#1000000))); o_first_step := Some (QF (1#8)); o_stiff := 10; o_sc := ScNone |}.
Example C13_case : exists c s v, rk_init Me4_cls det_opts decay (QF 0) [QF 1] (QF 2) = inl (c, s) /\
  run 20 40 (Me4_meth 1) c (new_solver s) = StepOk v /\ stat v = Finished /\ nfev_stiff_detect c = 10%nat.
Proof.
  destruct (chk_init_spec Me4_cls det_opts decay (QF 0) [QF 1] (QF 2)
    (fun c s => Nat.eqb (nfev_stiff_detect c) 10 && match run 20 40 (Me4_meth 1) c (new_solver s) with StepOk v => is_fin (stat v) | _ => false end))
    as (c & s & HI & HC).
  { vm_compute. reflexivity. }
  apply andb_true_iff in HC. destruct HC as [H1 H2]. apply Nat.eqb_eq in H1.
  destruct (run _ _ _ _ _) as [v| |] eqn:ER; try discriminate H2.
  exists c, s, v. split; [exact HI|]. split; [exact ER|]. split; [apply is_fin_spec; exact H2|exact H1].
Qed.

(** ** C14 *)
Theorem C14_zerodiv (A : Arith) (m : Meth A) c k s s' : (1 <= nfev_stiff_detect c < m_stages m)%nat ->
  step_impl k m (set_detect c 0) s = Done s' -> step_impl k m c s = Raise ZeroDivisionError.
Proof. exact (detect_zerodiv m c k s s'). Qed.
Theorem C14_otherwise_no_exception (A : Arith) (m : Meth A) c k s e : explicit m ->
  nfev_stiff_detect c = 0%nat \/ (m_stages m <= nfev_stiff_detect c)%nat ->
  standard_sc s = true \/ (h_previous s <> None /\ error_norm_old s <> None) ->
  step_impl k m c s <> Raise e.
Proof. intros HE. exact (detect_noexn m c k s e (explicit_min m HE)). Qed.
Example C14_case : exists c s, rk_init Me4_cls sd_opts decay (QF 0) [QF 1] (QF 1) = inl (c, s) /\
  ode_step 1 (Me4_meth 1) c (new_solver s) = StepExn ZeroDivisionError.
Proof. exact zerodiv_example. Qed.

(** ** C15 *)
Theorem C15_evaluation_times m o fun_ t0 tb y0 c n s v C : nodes_of m C -> nodes01 C ->
  built o fun_ t0 tb y0 c s -> history m c (new_solver s) n v -> o_max_step o = PInf ->
  exists l, calls (st v) = calls s ++ l /\
    Forall (fun p => exists x, fst p = Fin x /\ within t0 tb x) l.
Proof. exact (evaluation_times m o fun_ t0 tb y0 c n s v C). Qed.

Definition q01 (q : Q) : bool := Qle_bool 0 q && Qle_bool q 1.
Lemma q01_nodes l : forallb q01 l = true -> nodes01 (lv l).
Proof.
  intros H. unfold nodes01, lv. apply Forall_forall. intros x Hx. apply in_map_iff in Hx. destruct Hx as (q & <- & Hq).
  rewrite forallb_forall in H. specialize (H q Hq). apply andb_true_iff in H. destruct H as [H1 H2].
  apply Qle_bool_iff in H1, H2. apply Qle_Rle in H1, H2. exists (Q2R q). split; [reflexivity|].
  rewrite RMicromega.Q2R_0, RMicromega.Q2R_1 in *. lra.
Qed.
(** every explicit class of the library has all its nodes in [0,1] *)
Theorem C15_library_nodes n k m : In (k, m) (explicit_classes RX n) -> nodes_of m (k_C k) /\ nodes01 (k_C k).
Proof.
  intros H.
  repeat (destruct H as [E|H]; [injection E as <- <-; split;
    [ first [ left; do 2 eexists; split; [refine (ut_bs5 _ _ _ _ _ _); apply Nat.leb_le; reflexivity|split; [reflexivity|apply Nat.leb_le; reflexivity]]
            | left; do 2 eexists; split; [refine (ut_cfmr _ _ _ _); apply Nat.leb_le; reflexivity|split; [reflexivity|apply Nat.leb_le; reflexivity]]
            | left; do 2 eexists; split; [refine (ut_rk _ _ _ _); apply Nat.leb_le; reflexivity|split; [reflexivity|apply Nat.leb_le; reflexivity]]
            | right; do 2 eexists; split; [refine (ut_rkn _ _ _ _); apply Nat.leb_le; reflexivity|split; [reflexivity|apply Nat.leb_le; reflexivity]] ]
    | apply q01_nodes; vm_compute; reflexivity ]|]).
  destruct H.
Qed.

(** ** C45: after an almost exact step the solver fails with 'step size too small' although
    the proposed step exceeded the interval *)
Theorem C45_spurious_failure_refuted : exists c s v v2,
  rk_init Me4_cls (leap_opts QPInf) decay (QF 0) y80 (QF (5#2)) = inl (c, s) /\
  ode_step 1 (Me4_meth 1) c (new_solver s) = StepOk v /\ ode_step 1 (Me4_meth 1) c v = StepOk v2 /\
  stat v = Running /\ nltb QX (QF 10000) (h_abs (st v)) = true /\ stat v2 = Failed TOO_SMALL_STEP.
Proof. exact spurious_failure. Qed.
