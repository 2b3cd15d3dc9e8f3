(** C61: dense_output() observes an integration without influencing it. *)
From Coq Require Import String ZArith QArith Bool Lia List.
From Verif Require Import Arith Common Stiff RK RKGen RKNonInt HStart RKInit Tableaux Classes Dense Observer QX RKRefute.
Import ListNotations.
Open Scope nat_scope.

(** A session in which dense_output() is called after an arbitrary selection of the steps
    ends in the same time, solution, derivative, step size, status and t_old as the session
    of as many step() calls without any; in every arithmetic, for every right-hand side,
    options, tableau and state. With stiffness detection on, a run may be ended by an
    exception out of the diagnosis: then only runs that do end normally are compared. *)
Theorem C61_observer (A : Arith) (n : nat) (impl : dimpl A) (m : Meth A) (c : Cfg A) fuel asks v v' os w :
  In impl (observers n) ->
  session fuel m c impl asks v = Some (v', os) -> run fuel (length asks) m c v = StepOk w -> agree w v'.
Proof.
  intros HI HS HR. apply observers_quiet in HI.
  destruct (session_sim fuel m c impl HI asks v v v' os (solver_sim_refl v) HS) as (w1 & E1 & S1).
  destruct (run_sim m c fuel (length asks) v v w (solver_sim_refl v) HR) as (w2 & E2 & S2).
  rewrite E1 in E2. injection E2 as <-. eapply sim_agree; eauto.
Qed.

(** without stiffness detection the plain run is sure to end normally too *)
Theorem C61_observer_no_detection (A : Arith) (n : nat) (impl : dimpl A) (m : Meth A) (c : Cfg A) fuel asks v v' os :
  In impl (observers n) -> nfev_stiff_detect c = 0 ->
  session fuel m c impl asks v = Some (v', os) ->
  exists w, run fuel (length asks) m c v = StepOk w /\ agree w v'.
Proof.
  intros HI HN HS. apply observers_quiet in HI.
  destruct (session_sim fuel m c impl HI asks v v v' os (solver_sim_refl v) HS) as (w1 & E1 & S1).
  rewrite (set_detect_0 _ HN) in E1. exists w1. split; [exact E1|]. eapply sim_agree; [|exact S1]. apply solver_sim_refl.
Qed.

(** two users who ask for dense output after different steps see the same integration *)
Theorem C61_any_two_sessions (A : Arith) (n : nat) (impl impl' : dimpl A) (m : Meth A) (c : Cfg A) fuel asks asks' v v1 v2 os1 os2 :
  In impl (observers n) -> In impl' (observers n) -> length asks = length asks' ->
  session fuel m c impl asks v = Some (v1, os1) -> session fuel m c impl' asks' v = Some (v2, os2) -> agree v1 v2.
Proof.
  intros HI HI' HL H1 H2. apply observers_quiet in HI. apply observers_quiet in HI'.
  destruct (session_sim fuel m c impl HI asks v v v1 os1 (solver_sim_refl v) H1) as (w1 & E1 & S1).
  destruct (session_sim fuel m c impl' HI' asks' v v v2 os2 (solver_sim_refl v) H2) as (w2 & E2 & S2).
  rewrite HL, E2 in E1. injection E1 as <-. eapply sim_agree; eauto.
Qed.

(** asking a second time gives the same object; the evaluations made are logged after the
    ones of the integration, none of which is lost *)
Theorem C61_again (A : Arith) (n : nat) (impl : dimpl A) (c : Cfg A) v d s' :
  In impl (observers n) -> dense_output impl c v = DenseOk d s' ->
  (exists ex, calls s' = calls (st v) ++ ex) /\
  agree v (left_by v s') /\
  exists s'', dense_output impl c (left_by v s') = DenseOk d s''.
Proof.
  intros HI H. apply observers_quiet in HI. destruct (dense_output_quiet _ _ _ _ _ HI H) as (HS & HC & HA).
  split; [exact HC|]. split; [destruct HS as (T&Y&F&HH&_); unfold agree; cbn; intuition congruence|].
  apply HA. split; [exact HS|split; reflexivity].
Qed.

(** ** interpolant 1 of Fi5N is not an observer: it assigns self.y *)
Definition spring : num QX -> list (num QX) -> list (num QX) := fun _ u => [nth 1 u (QF 0); nopp QX (nth 0 u (QF 0))].
Definition qneq (a b : qx) : bool := q_ltb a b || q_ltb b a.
Lemma qneq_spec a b : qneq a b = true -> a <> b.
Proof.
  intros H <-. unfold qneq in H. destruct a as [x| | |]; try discriminate H. cbn [q_ltb] in H. unfold qltb in H.
  rewrite (proj2 (Qle_bool_iff x x) (Qle_refl x)) in H. discriminate H.
Qed.
Definition qsame (a b : qx) : bool :=
  match a, b with QF x, QF y => (Qnum x =? Qnum y)%Z && (Qden x =? Qden y)%positive | _, _ => false end.
Lemma qsame_spec a b : qsame a b = true -> a = b.
Proof.
  destruct a as [x| | |], b as [z| | |]; try discriminate. cbn. intros H. apply andb_true_iff in H. destruct H as [H1 H2].
  apply Z.eqb_eq in H1. apply Pos.eqb_eq in H2. destruct x, z; cbn in *; congruence.
Qed.
Definition swing_check (m : Meth QX) (impl : dimpl QX) (r : (Cfg QX * St QX) + exn) : bool :=
  match r with
  | inl (c, s) =>
    match ode_step 1 m c (new_solver s) with
    | StepOk v =>
      is_run (stat v) &&
      match dense_output impl c v, ode_step 5 m c v with
      | DenseOk _ s', StepOk w =>
        qneq (nth 0 (y s') (QF 0)) (nth 0 (y (st v)) (QF 0)) &&
        match ode_step 5 m c (left_by v s') with
        | StepOk w' => qsame (t (st w')) (t (st w)) && qneq (nth 0 (y (st w')) (QF 0)) (nth 0 (y (st w)) (QF 0))
        | _ => false
        end
      | _, _ => false
      end
    | _ => false
    end
  | inr _ => false
  end.
Lemma swing_spec m impl r : swing_check m impl r = true -> exists c s v d s' w w', r = inl (c, s) /\
  ode_step 1 m c (new_solver s) = StepOk v /\ stat v = Running /\
  dense_output impl c v = DenseOk d s' /\ y s' <> y (st v) /\
  ode_step 5 m c v = StepOk w /\ ode_step 5 m c (left_by v s') = StepOk w' /\
  t (st w') = t (st w) /\ y (st w') <> y (st w).
Proof.
  unfold swing_check. destruct r as [[c s]|]; [|discriminate].
  destruct (ode_step 1 m c (new_solver s)) as [v| |] eqn:E2; try discriminate. intros HC.
  apply andb_true_iff in HC. destruct HC as [H1 HC]. apply is_run_spec in H1.
  destruct (dense_output impl c v) as [d s'|] eqn:E3; [|discriminate HC].
  destruct (ode_step 5 m c v) as [w| |] eqn:E4; try discriminate HC.
  apply andb_true_iff in HC. destruct HC as [H2 HC].
  destruct (ode_step 5 m c (left_by v s')) as [w'| |] eqn:E5; try discriminate HC.
  apply andb_true_iff in HC. destruct HC as [H3 H4].
  assert (N2 : y s' <> y (st v)) by (intros E; rewrite E in H2; exact (qneq_spec _ _ H2 eq_refl)).
  assert (N4 : y (st w') <> y (st w)) by (intros E; rewrite E in H4; exact (qneq_spec _ _ H4 eq_refl)).
  exists c, s, v, d, s', w, w'.
  exact (conj eq_refl (conj E2 (conj H1 (conj E3 (conj N2 (conj E4 (conj E5 (conj (qsame_spec _ _ H3) N4)))))))).
Qed.
(** y'' = -y, y(0) = 1, y'(0) = 0, rtol = 1e-3, atol = first_step = 1: after the first step a call of
    dense_output() changes the solution the solver holds, and with it the next step *)
Theorem C61_fi5n_interpolant1_refuted : exists c s v d s' w w',
  rkn_init Fi5N_cls false (mkopts QPInf (QF 1) (QF 1) (@ScNone QX)) spring (QF 0) [QF 1; QF 0] (QF 3) = inl (c, s) /\
  ode_step 1 (Fi5N_meth 1) c (new_solver s) = StepOk v /\ stat v = Running /\
  dense_output (dense_fi5n 1 1) c v = DenseOk d s' /\ y s' <> y (st v) /\
  ode_step 5 (Fi5N_meth 1) c v = StepOk w /\ ode_step 5 (Fi5N_meth 1) c (left_by v s') = StepOk w' /\
  t (st w') = t (st w) /\ y (st w') <> y (st w).
Proof.
  apply (swing_spec (Fi5N_meth 1) (dense_fi5n 1 1) (rkn_init Fi5N_cls false (mkopts QPInf (QF 1) (QF 1) (@ScNone QX)) spring (QF 0) [QF 1; QF 0] (QF 3))).
  vm_cast_no_check (eq_refl true).
Qed.

(** ** the hypotheses can be met: y' = -y with BS5, dense output after the first and third of
    three steps; the session has made more
    evaluations of the right-hand side than the plain run, and is otherwise at the same point *)
Definition obs_check (m : Meth QX) (impl : dimpl QX) (r : (Cfg QX * St QX) + exn) : bool :=
  match r with
  | inl (c, s) => Nat.eqb (nfev_stiff_detect c) 0 &&
    match session 2 m c impl [true; false; true] (new_solver s), run 2 3 m c (new_solver s) with
    | Some (v', os), StepOk w => Nat.eqb (length os) 2 && qsame (t (st v')) (QF (3#4)) &&
        Nat.ltb (length (calls (st w))) (length (calls (st v')))
    | _, _ => false
    end
  | inr _ => false
  end.
Lemma obs_spec m impl r : obs_check m impl r = true -> exists (c : Cfg QX) s v' os w, r = inl (c, s) /\
  nfev_stiff_detect c = 0 /\
  session 2 m c impl [true; false; true] (new_solver s) = Some (v', os) /\
  run 2 3 m c (new_solver s) = StepOk w /\ length os = 2 /\ t (st v') = QF (3#4) /\
  (length (calls (st w)) < length (calls (st v'))).
Proof.
  unfold obs_check. destruct r as [[c s]|]; [|discriminate]. intros HC. apply andb_true_iff in HC. destruct HC as [HN HC].
  destruct (session 2 m c _ _ _) as [[v' os]|] eqn:E1; [|discriminate HC].
  destruct (run 2 3 m c _) as [w| |] eqn:E2; try discriminate HC.
  apply andb_true_iff in HC. destruct HC as [HC H4]. apply andb_true_iff in HC. destruct HC as [H1 H3].
  exists c, s, v', os, w.
  exact (conj eq_refl (conj (proj1 (Nat.eqb_eq _ _) HN) (conj E1 (conj E2 (conj (proj1 (Nat.eqb_eq _ _) H1) (conj (qsame_spec _ _ H3) (proj1 (Nat.ltb_lt _ _) H4))))))).
Qed.
Example C61_case : In (dense_bs5 Best 1) (@observers QX 1) /\ exists (c : Cfg QX) s v' os w,
  rk_init BS5_cls (mkopts (QF (1#4)) (QF 1) (QF (1#4)) (@ScNone QX)) decay (QF 0) [QF 1] (QF 1) = inl (c, s) /\
  nfev_stiff_detect c = 0 /\
  session 2 (BS5_meth 1) c (dense_bs5 Best 1) [true; false; true] (new_solver s) = Some (v', os) /\
  run 2 3 (BS5_meth 1) c (new_solver s) = StepOk w /\ length os = 2 /\ t (st v') = QF (3#4) /\
  (length (calls (st w)) < length (calls (st v'))).
Proof.
  split; [unfold observers; right; right; left; reflexivity|].
  apply (obs_spec (BS5_meth 1) (dense_bs5 Best 1) (rk_init BS5_cls (mkopts (QF (1#4)) (QF 1) (QF (1#4)) (@ScNone QX)) decay (QF 0) [QF 1] (QF 1))).
  vm_cast_no_check (eq_refl true).
Qed.
