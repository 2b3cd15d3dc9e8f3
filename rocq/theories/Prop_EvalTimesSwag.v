(** Property C60 for SWAG: where it evaluates fun.
    [swag_init o j fun_ t0 y0 tb] is the constructor, [swag_hist c v n v']: n step() calls
    returned; [s_calls] lists the calls of fun; [junk_ok]: the arrays of np.empty have the
    shapes asked for, any contents. *)
From Coq Require Import String ZArith Reals Lra Bool Lia List.
From Verif Require Prop_SWAG.
From Verif Require Import Arith Common HStart RKInit SpecRK Ode RX Swag SwagArr SwagCo SwagGen SwagTop SwagReal EvalTimesSwag.
Import ListNotations.
Close Scope string_scope. Open Scope nat_scope. Open Scope R_scope.

Theorem C60_swag o j fun_ (t0 tb : R) y0 c s n v : t0 <> tb -> y0 <> [] -> so_max o <> NaN -> so_first o <> Some NaN -> junk_ok (Z.to_nat (so_kmax o)) (length y0) j ->
  @swag_init RX o j fun_ (Fin t0) y0 (Fin tb) = inl (c, s) -> swag_hist c (onew s) n v ->
  exists l, s_calls (ost v) = (s_calls s ++ l)%list /\
    Forall (fun p => exists x, fst p = Fin x /\ within t0 tb x) l.
Proof.
  intros H1 H2 H3 H4 H5 H6 H7. destruct (swag_times _ _ _ _ _ _ _ _ _ _ H1 H2 H3 H4 H5 H6 H7) as (l & d & Hd & Hp & E & Q).
  exists l. split; [exact E|]. eapply Forall_impl; [|exact Q]. intros p (x & Ex & Hx). exists x. split; [exact Ex|].
  unfold within. destruct Hd as [->| ->]; [left|right]; lra.
Qed.
(** the hypotheses are met for every right-hand side *)
Example C60_swag_case fun_ t0 tb y0 : t0 <> tb -> y0 <> [] -> exists o j c s, so_max o <> NaN /\ so_first o <> Some NaN /\
  junk_ok (Z.to_nat (so_kmax o)) (length y0) j /\ @swag_init RX o j fun_ (Fin t0) y0 (Fin tb) = inl (c, s).
Proof.
  intros H1 H2. destruct (Prop_SWAG.C36_case fun_ t0 tb y0 12 H1 H2 ltac:(lia)) as (c & v & [_ _ HM HF (j & s & J & E & _)] & _).
  eexists _, j, c, s. split; [exact HM|]. split; [exact HF|]. split; [exact J|exact E].
Qed.
