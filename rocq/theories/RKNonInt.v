(** Stiffness detection does not influence the computed trajectory
    (for every [Arith]). *)
From Coq Require Import String ZArith QArith Bool Lia List.
From Verif Require Import Arith Common Stiff RK RKGen.
Import ListNotations.
Open Scope nat_scope.

Section NonInt.
Context {A : Arith}.
Notation num := (num A).
Notation vec := (list num).
Implicit Types (m : Meth A) (c : Cfg A) (s : St A).

(** the same configuration with another value of nfev_stiff_detect *)
Definition set_detect c (k : nat) : Cfg A :=
  {| fn := fn c; fn1 := fn1 c; t_bound := t_bound c; direction := direction c;
     rtol := rtol c; atol := atol c; max_step := max_step c; h_min_a := h_min_a c;
     h_min_b := h_min_b c; tiny_err := tiny_err c; safety := safety c;
     safety_sc := safety_sc c; minbeta1 := minbeta1 c; minbeta2 := minbeta2 c;
     minalpha := minalpha c; error_exponent := error_exponent c;
     min_factor := min_factor c; nfev_stiff_detect := k |}.

(** equality of everything except K: inside a step K is scratch *)
Definition sim s1 s2 : Prop :=
  t s2 = t s1 /\ y s2 = y s1 /\ f s2 = f s1 /\ h_abs s2 = h_abs s1 /\
  max_factor s2 = max_factor s1 /\ standard_sc s2 = standard_sc s1 /\
  h_previous s2 = h_previous s1 /\ y_old s2 = y_old s1 /\ f_old s2 = f_old s1 /\
  error_norm_old s2 = error_norm_old s1 /\ K s2 = K s1 /\ nfs s2 = nfs s1.

Lemma sim_same_traj s1 s2 : sim s1 s2 <-> same_traj s1 s2.
Proof. reflexivity. Qed.

Lemma stages_calls m g tt yy h k : forall K cl cl2,
  fst (stages m g tt yy h k K cl) = fst (stages m g tt yy h k K cl2).
Proof. induction k; intros; simpl; auto. Qed.

Definition trial_sim (r1 r2 : trial) : Prop :=
  match r1, r2 with
  | Accept s1 h hn tn yn en, Accept s1' h' hn' tn' yn' en' =>
      sim s1 s1' /\ h = h' /\ hn = hn' /\ tn = tn' /\ yn = yn' /\ en = en'
  | Reject s1 h, Reject s2 h' => sim s1 s2 /\ h = h'
  | Abort s1 msg, Abort s2 msg' => sim s1 s2 /\ msg = msg'
  | TrialExn e, TrialExn e' => e = e'
  | _, _ => False
  end.

Lemma trial_step_sim m c k s1 s2 ha ms rej :
  sim s1 s2 ->
  trial_sim (trial_step m c s1 ha ms rej) (trial_step m (set_detect c k) s2 ha ms rej).
Proof.
  intros HS. pose proof HS as HS0.
  destruct HS as (E1&E2&E3&E4&E5&E6&E7&E8&E9&E10&E11&E12).
  unfold trial_step. cbn [direction fn set_detect].
  destruct (nltb A ha ms); [simpl; auto|].
  rewrite E1, E2, E3, E5, E6.
  set (h := nmul A ha (direction c)).
  set (npre := match m_pre m with None => m_stages m - 1 | Some _ => m_stages m - 2 end).
  destruct (stages m (fn c) (t s1) (y s1) h npre [f s1] (calls s1)) as [K1 cl1] eqn:S1.
  destruct (stages m (fn c) (t s1) (y s1) h npre [f s1] (calls s2)) as [K1' cl1'] eqn:S1'.
  assert (K1' = K1) as ->.
  { pose proof (stages_calls m (fn c) (t s1) (y s1) h npre [f s1] (calls s1) (calls s2)) as Q.
    rewrite S1, S1' in Q. simpl in Q. congruence. }
  change (err_norm (set_detect c k)) with (err_norm c).
  change (reject_factor (set_detect c k)) with (reject_factor c).
  set (pre := match m_pre m with None => None | Some g =>
      let '(y_pre, err) := g (y s1) h K1 in Some (err_norm c (y s1) y_pre err) end).
  destruct (match pre with Some e => nltb A n1 e | None => false end).
  { simpl. split; [|reflexivity]. unfold sim, with_trial; simpl.
    repeat split; congruence. }
  assert (HK2 : exists K2 cl2 cl2',
     (match m_pre m with None => (K1, cl1)
        | Some _ => stages m (fn c) (t s1) (y s1) h 1 K1 cl1 end) = (K2, cl2) /\
     (match m_pre m with None => (K1, cl1')
        | Some _ => stages m (fn c) (t s1) (y s1) h 1 K1 cl1' end) = (K2, cl2')).
  { destruct (m_pre m); [|eauto].
    destruct (stages m (fn c) (t s1) (y s1) h 1 K1 cl1) as [K2 cl2] eqn:S2.
    destruct (stages m (fn c) (t s1) (y s1) h 1 K1 cl1') as [K2' cl2'] eqn:S2'.
    pose proof (stages_calls m (fn c) (t s1) (y s1) h 1 K1 cl1 cl1') as Q.
    rewrite S2, S2' in Q. simpl in Q. subst. eauto. }
  destruct HK2 as (K2 & cl2 & cl2' & -> & ->).
  unfold comp_sol_err. cbn [fn set_detect].
  change (err_norm (set_detect c k)) with (err_norm c).
  set (yn := m_sol m (y s1) h K2).
  set (K3 := if m_fsal m then K2 ++ [fn c (nadd A (t s1) h) yn] else K2).
  assert (HK3 : exists cl3 cl3',
    (if m_fsal m then (K2 ++ [fn c (nadd A (t s1) h) yn], cl2 ++ [(nadd A (t s1) h, yn)])
     else (K2, cl2)) = (K3, cl3) /\
    (if m_fsal m then (K2 ++ [fn c (nadd A (t s1) h) yn], cl2' ++ [(nadd A (t s1) h, yn)])
     else (K2, cl2')) = (K3, cl3')).
  { unfold K3; destruct (m_fsal m); eauto. }
  destruct HK3 as (cl3 & cl3' & -> & ->).
  set (en := err_norm c (y s1) yn (m_err m h K3)).
  destruct (nltb A en n1).
  - assert (accept_factor (set_detect c k) s2 (standard_sc s1) h en =
            accept_factor c s1 (standard_sc s1) h en) as ->.
    { unfold accept_factor. cbn [tiny_err set_detect safety safety_sc minbeta1 minbeta2
        minalpha error_exponent min_factor]. rewrite E5, E7, E10. reflexivity. }
    destruct (accept_factor c s1 (standard_sc s1) h en); simpl; [|reflexivity].
    split; [|auto]. unfold sim, with_trial; simpl. repeat split; congruence.
  - destruct (nisnan A en || nisinf A en); simpl.
    + split; [|auto]. unfold sim, with_trial; simpl.
      repeat split; try congruence. destruct (m_nan_first m); simpl; congruence.
    + split; [|auto]. unfold sim, with_trial; simpl. repeat split; congruence.
Qed.

Definition res_sim (r1 r2 : result A) : Prop :=
  match r1, r2 with
  | Done s1, Done s2 => sim s1 s2
  | Fail s1 m1, Fail s2 m2 => sim s1 s2 /\ m1 = m2
  | Raise e1, Raise e2 => e1 = e2
  | Raise ZeroDivisionError, Done _ => True       (* only with detection on *)
  | OutOfFuel, OutOfFuel => True
  | _, _ => False
  end.

Lemma finish_sim m c s1 s2 h hn tn yn en :
  sim s1 s2 ->
  res_sim (finish m c s1 h hn tn yn en) (finish m (set_detect c 0) s2 h hn tn yn en).
Proof.
  intros (E1&E2&E3&E4&E5&E6&E7&E8&E9&E10&E11&E12).
  unfold finish. rewrite E1, E2, E3, E5, E6, E11, E12. cbn [fn set_detect].
  set (K4 := if m_fsal m then K s1 else K s1 ++ [fn c (nadd A (t s1) h) yn]).
  assert (HK : exists a b,
   (if m_fsal m then (K s1, calls s1)
    else (K s1 ++ [fn c (nadd A (t s1) h) yn], calls s1 ++ [(nadd A (t s1) h, yn)])) = (K4, a) /\
   (if m_fsal m then (K s1, calls s2)
    else (K s1 ++ [fn c (nadd A (t s1) h) yn], calls s2 ++ [(nadd A (t s1) h, yn)])) = (K4, b)).
  { unfold K4; destruct (m_fsal m); eauto. }
  destruct HK as (a & b & -> & ->).
  match goal with |- context [diagnose m (set_detect c 0) ?x h ?z] =>
    replace (diagnose m (set_detect c 0) x h z) with (@inl (St A) exn x) end.
  2:{ unfold diagnose. reflexivity. }
  match goal with |- context [diagnose m c ?x h ?z] =>
    destruct (diagnose m c x h z) as [s3|e] eqn:Hd end.
  - apply diagnose_same in Hd. unfold same_traj in Hd. simpl in Hd |- *.
    destruct Hd as (D1&D2&D3&D4&D5&D6&D7&D8&D9&D10&D11&D12).
    unfold sim; simpl. repeat split; congruence.
  - apply diagnose_exn in Hd. destruct Hd as [-> _]. simpl. exact I.
Qed.

Lemma rk_loop_sim m c fuel : forall s1 s2 ha ms rej,
  sim s1 s2 ->
  res_sim (rk_loop fuel m c s1 ha ms rej) (rk_loop fuel m (set_detect c 0) s2 ha ms rej).
Proof.
  induction fuel as [|fuel IH]; intros s1 s2 ha ms rej HS; simpl; [auto|].
  pose proof (trial_step_sim m c 0 s1 s2 ha ms rej HS) as HT.
  destruct (trial_step m c s1 ha ms rej); destruct (trial_step m (set_detect c 0) s2 ha ms rej);
    simpl in HT; try contradiction.
  - destruct HT as (HS' & -> & -> & -> & -> & ->). apply finish_sim; auto.
  - destruct HT as (HS' & ->). apply IH; auto.
  - destruct HT as (HS' & ->). simpl; auto.
  - simpl. subst. destruct e0; reflexivity.
Qed.

Lemma step_impl_sim m c fuel s1 s2 :
  sim s1 s2 -> res_sim (step_impl fuel m c s1) (step_impl fuel m (set_detect c 0) s2).
Proof.
  intros HS. unfold step_impl.
  assert (reassess_stepsize (set_detect c 0) s2 = reassess_stepsize c s1) as ->.
  { destruct HS as (E1&E2&E3&E4&E5&E6&_). unfold reassess_stepsize.
    cbn [h_min_a h_min_b max_step t_bound set_detect]. rewrite E1, E4, E6. reflexivity. }
  destruct (reassess_stepsize c s1) as [[h ms] sc].
  apply rk_loop_sim.
  destruct HS as (E1&E2&E3&E4&E5&E6&E7&E8&E9&E10&E11&E12).
  unfold sim, with_trial; simpl. repeat split; congruence.
Qed.

(** observable part of a solver *)
Definition solver_sim (v1 v2 : Solver A) : Prop :=
  sim (st v1) (st v2) /\ stat v2 = stat v1 /\ t_old v2 = t_old v1.

Lemma ode_step_sim m c fuel v1 v2 v1' :
  solver_sim v1 v2 -> ode_step fuel m c v1 = StepOk v1' ->
  exists v2', ode_step fuel m (set_detect c 0) v2 = StepOk v2' /\ solver_sim v1' v2'.
Proof.
  intros (HS & Hst & Hto) H. unfold ode_step in *. rewrite Hst.
  destruct (stat v1); [|discriminate|discriminate].
  cbn [t_bound direction set_detect].
  pose proof HS as (E1&E2&E3&E4&E5&E6&E7&E8&E9&E10&E11&E12).
  rewrite E1, E2.
  destruct (Nat.eqb (length (y (st v1))) 0 || neqb A (t (st v1)) (t_bound c)).
  - inversion H; subst. eexists; split; [reflexivity|].
    unfold solver_sim; simpl. split; [|auto]. unfold sim; simpl. repeat split; congruence.
  - pose proof (step_impl_sim m c fuel _ _ HS) as HR.
    destruct (step_impl fuel m c (st v1)) as [s'|s' msg|e|];
    destruct (step_impl fuel m (set_detect c 0) (st v2)) as [s2'|s2' msg2|e2|];
      simpl in HR; try contradiction; try discriminate; inversion H; subst;
      try (destruct e; contradiction).
    + eexists; split; [reflexivity|]. split; [exact HR|]. simpl.
      destruct HR as (R1&_). rewrite R1. auto.
    + destruct HR as [HR ->].
      eexists; split; [reflexivity|]. split; [exact HR|]. simpl. auto.
Qed.

Lemma run_sim m c fuel n : forall v1 v2 v1',
  solver_sim v1 v2 -> run fuel n m c v1 = StepOk v1' ->
  exists v2', run fuel n m (set_detect c 0) v2 = StepOk v2' /\ solver_sim v1' v2'.
Proof.
  induction n as [|n IH]; intros v1 v2 v1' HS H; simpl in *.
  - inversion H; subst. eauto.
  - pose proof HS as (_ & Hst & _). rewrite Hst.
    destruct (stat v1).
    + destruct (ode_step fuel m c v1) as [v1a|e|] eqn:H1; try discriminate.
      destruct (ode_step_sim m c fuel v1 v2 v1a HS H1) as (v2a & -> & HS2).
      eapply IH; eauto.
    + inversion H; subst; eauto.
    + inversion H; subst; eauto.
Qed.

End NonInt.
