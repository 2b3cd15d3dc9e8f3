(** Where and how often the right-hand side is evaluated. *)
From Coq Require Import String ZArith QArith Bool Lia List.
From Verif Require Import Arith Common Stiff RK RKGen RKHist.
Import ListNotations.
Open Scope nat_scope.

Section Calls.
Context {A : Arith}.
Notation num := (num A).
Notation vec := (list num).
Implicit Types (m : Meth A) (c : Cfg A) (s : St A).

(** ** the stiffness test evaluates fun at the current time only, at most 24 times *)

Lemma stiff_loop_calls fn0 k : forall first havg x y fxy wt scale v0 v0v0 rold cl r cl',
  stiff_loop fn0 k first havg x y fxy wt scale v0 v0v0 rold cl = (r, cl') ->
  exists l, cl' = cl ++ l /\ length l <= 3 * k /\ Forall (fun p : num * vec => fst p = x) l.
Proof.
  induction k as [|k IH]; intros first hv x y fxy wt sc v0 v0v0 rold cl r cl' H; cbn [stiff_loop] in H.
  - inversion H; subst. exists []. rewrite app_nil_r. auto.
  - unfold stiff_d in H at 1.
    set (c1 := (x, vadd y (vscale (ndiv A sc (nsqrt A v0v0)) v0))) in H.
    match type of H with (if ?b then _ else _) = _ => destruct b end.
    { inversion H; subst. exists [c1]. split; [auto|]. split; [simpl; lia|]. repeat constructor. }
    match type of H with match ?x with inl _ => _ | inr _ => _ end = _ => destruct x as [res|[r1 ?]] end.
    { inversion H; subst. exists [c1]. split; [auto|]. split; [simpl; lia|]. repeat constructor. }
    unfold stiff_d in H at 1.
    match type of H with context [(cl ++ [c1]) ++ [?z]] => set (c2 := z) in H end.
    match type of H with context [stiff_b ?a ?b ?d ?e] =>
      destruct (stiff_b a b d e) as [[[[rold2 rho2] ra2] rb2] re2] end.
    destruct re2.
    { inversion H; subst. exists [c1; c2]. rewrite <- app_assoc.
      split; [auto|]. split; [simpl; lia|]. repeat constructor. }
    unfold stiff_d in H at 1.
    match type of H with context [((cl ++ [c1]) ++ [c2]) ++ [?z]] => set (c3 := z) in H end.
    match type of H with context [stiff_b ?a ?b ?d ?e] =>
      destruct (stiff_b a b d e) as [[[[rold3 rho3] ra3] rb3] re3] end.
    assert (E3 : ((cl ++ [c1]) ++ [c2]) ++ [c3] = cl ++ [c1; c2; c3]) by (rewrite <- !app_assoc; reflexivity).
    rewrite E3 in H.
    assert (F3 : Forall (fun p : num * vec => fst p = x) [c1; c2; c3]) by (repeat constructor).
    destruct re3.
    { inversion H; subst. exists [c1; c2; c3]. split; [auto|]. split; [simpl; lia|exact F3]. }
    match type of H with match ?x with Some _ => _ | None => _ end = _ => destruct x end.
    { inversion H; subst. exists [c1; c2; c3]. split; [auto|]. split; [simpl; lia|exact F3]. }
    apply IH in H. destruct H as (l & -> & Hl & HF).
    exists ([c1; c2; c3] ++ l). rewrite app_assoc. split; [auto|]. split; [simpl; lia|].
    apply Forall_app; auto.
Qed.

Lemma stiff_a_calls fn0 x y hn hv xe mx wt fxy v0 cost r cl :
  stiff_a fn0 x y hn hv xe mx wt fxy v0 cost = (r, cl) ->
  length cl <= 24 /\ Forall (fun p : num * vec => fst p = x) cl.
Proof.
  unfold stiff_a. intros H.
  repeat match type of H with (if ?b then _ else _) = _ =>
    destruct b; [inversion H; subst; split; [simpl; lia|constructor]|] end.
  apply stiff_loop_calls in H. destruct H as (l & -> & Hl & HF). simpl. split; [lia|exact HF].
Qed.

Lemma diagnose_calls_at m c s h yo s' : diagnose m c s h yo = inl s' ->
  exists l ul, calls s' = calls s ++ l /\ ucalls s' = ucalls s ++ ul /\
    length l + length ul <= 24 /\
    Forall (fun p : num * vec => fst p = t s) l /\ Forall (fun p : num * vec => fst p = t s) ul.
Proof.
  unfold diagnose. intros H.
  destruct (Nat.eqb _ 0) eqn:E0.
  { inversion H; subst; exists [], []; rewrite !app_nil_r; repeat split; auto. simpl; lia. }
  destruct (Nat.eqb (S (okstp s)) 20) in H;
  destruct (Nat.eqb (Nat.modulo (S (okstp s)) 40) 39) in H;
  (destruct (Nat.eqb (Nat.div _ _) 0) in H; [discriminate|]);
  (destruct (_ || _) in H;
   [ destruct (m_stab m) in H;
     [ inversion H; subst; simpl; exists [], []; repeat split; auto; simpl; lia
     | destruct (stiff_a _ _ _ _ _ _ _ _ _ _ _) as [r cl] eqn:ES in H; inversion H; subst; simpl;
       apply stiff_a_calls in ES; destruct ES; exists cl, []; repeat split; auto; simpl; lia
     | destruct (stiff_a _ _ _ _ _ _ _ _ _ _ _) as [r cl] eqn:ES in H; inversion H; subst; simpl;
       apply stiff_a_calls in ES; destruct ES; exists [], cl; repeat split; auto; simpl; lia ]
   | inversion H; subst; simpl; exists [], []; repeat split; auto; simpl; lia ]).
Qed.

(** ** evaluation times of a trial *)

(** times of the form t + C_i h or t + h *)
Definition stage_time (C : vec) (t0 h : num) (p : num * vec) : Prop :=
  fst p = nadd A t0 h \/ exists i, i < length C /\ fst p = nadd A t0 (nmul A (nth i C n0) h).

(** the evaluation times of the stages of m are t + C_i h *)
Definition has_nodes m (C : vec) : Prop :=
  m_stages m <= length C /\
  forall t y h K i, fst (m_point m t y h K i) = nadd A t (nmul A (nth i C n0) h).

Lemma stages_times m g C t0 y0 h : has_nodes m C -> forall k K cl K' cl',
  length K + k <= m_stages m -> stages m g t0 y0 h k K cl = (K', cl') ->
  exists l, cl' = cl ++ l /\ Forall (stage_time C t0 h) l.
Proof.
  intros [HC HN] k K cl K' cl' HL H. apply stages_spec in H. destruct H as (_ & _ & _ & ->).
  eexists; split; [reflexivity|]. unfold stage_points. apply Forall_forall. intros p Hp.
  apply in_map_iff in Hp. destruct Hp as (i & <- & Hi). apply in_seq in Hi.
  right. exists i. split; [lia|]. apply HN.
Qed.

Definition tstate (x : trial) : option (St A) :=
  match x with Accept s _ _ _ _ _ => Some s | Reject s _ => Some s | Abort s _ => Some s | TrialExn _ => None end.

Lemma trial_times m c C s ha ms rej s' : min_stages m -> has_nodes m C ->
  tstate (trial_step m c s ha ms rej) = Some s' ->
  exists l, calls s' = calls s ++ l /\ Forall (stage_time C (t s) (nmul A ha (direction c))) l /\
    (nltb A ha ms = true -> l = []).
Proof.
  intros Hmin HN H. unfold trial_step in H.
  destruct (nltb A ha ms) eqn:Hsm.
  { inversion H; subst. exists []. rewrite app_nil_r. auto. }
  set (h := nmul A ha (direction c)) in *.
  set (npre := match m_pre m with None => m_stages m - 1 | Some _ => m_stages m - 2 end) in *.
  destruct (stages m (fn c) (t s) (y s) h npre [f s] (calls s)) as [K1 cl1] eqn:HS1.
  pose proof HS1 as HS1'. apply stages_spec in HS1'. destruct HS1' as (HL1 & _).
  assert (Hnp : length [f s] + npre <= m_stages m).
  { unfold npre, min_stages in *. cbn [length]. destruct (m_pre m); lia. }
  destruct (stages_times m (fn c) C _ _ _ HN _ _ _ _ _ Hnp HS1) as (l1 & -> & F1).
  match type of H with tstate (if ?b then _ else _) = _ => destruct b end.
  { inversion H; subst. cbn [with_trial calls]. eexists; (split; [reflexivity|split; [eassumption|discriminate]]). }
  assert (HS2 : exists K2 l2,
     (match m_pre m with None => (K1, calls s ++ l1)
        | Some _ => stages m (fn c) (t s) (y s) h 1 K1 (calls s ++ l1) end) = (K2, calls s ++ l2) /\
      Forall (stage_time C (t s) h) l2).
  { destruct (m_pre m) eqn:Hm; [|exists K1, l1; auto].
    destruct (stages m (fn c) (t s) (y s) h 1 K1 (calls s ++ l1)) as [K2 cl2] eqn:HS2.
    assert (Hn2 : length K1 + 1 <= m_stages m).
    { unfold npre, min_stages in *. rewrite Hm in *. cbn [length] in HL1. lia. }
    destruct (stages_times m (fn c) C _ _ _ HN _ _ _ _ _ Hn2 HS2) as (l2 & -> & F2).
    exists K2, (l1 ++ l2). rewrite app_assoc. split; [auto|]. apply Forall_app; auto. }
  destruct HS2 as (K2 & l2 & E2 & F2). rewrite E2 in H.
  unfold comp_sol_err in H.
  assert (HX : exists K3 l3 yn, Forall (stage_time C (t s) h) l3 /\ yn = m_sol m (y s) h K2 /\
     (if m_fsal m then (K2 ++ [fn c (nadd A (t s) h) (m_sol m (y s) h K2)],
         (calls s ++ l2) ++ [(nadd A (t s) h, m_sol m (y s) h K2)]) else (K2, calls s ++ l2)) = (K3, calls s ++ l3)).
  { destruct (m_fsal m).
    - eexists _, (l2 ++ [_]), _. rewrite app_assoc. split; [|split; reflexivity].
      apply Forall_app; split; [exact F2|]. constructor; [|constructor]. left. reflexivity.
    - exists K2, l2, (m_sol m (y s) h K2). auto. }
  destruct HX as (K3 & l3 & yn & F3 & Hyn & E3). rewrite E3 in H.
  match type of H with tstate (if ?b then _ else _) = _ => destruct b end.
  - match type of H with context [accept_factor ?a ?b ?x ?d ?e] => destruct (accept_factor a b x d e) end;
      [|discriminate].
    inversion H; subst. cbn [with_trial calls]. eexists; (split; [reflexivity|split; [eassumption|discriminate]]).
  - match type of H with tstate (if ?b then _ else _) = _ => destruct b end;
    inversion H; subst; cbn [with_trial calls]; eexists; (split; [reflexivity|split; [eassumption|discriminate]]).
Qed.

End Calls.
