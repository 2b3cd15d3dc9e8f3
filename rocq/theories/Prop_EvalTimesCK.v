(** Property C60 for CKdisc: where it evaluates fun.
    [ck_built] (CKTop.v): CKdisc(fun_, t0, y0, tb, ...) returned c and s; [calls] lists the calls of fun. *)
From Coq Require Import String ZArith Reals Lra Bool Lia List.
From Verif Require Import Arith Common RK RKHist RX RKInit RKBuilt SpecRK Tableaux Classes Dense Ode CK CKGen CKReal CKTop QX RKEx RKRefute EvalTimesCK.
From Verif Require Prop_CK.
Import ListNotations.
Close Scope string_scope. Open Scope nat_scope. Open Scope R_scope.

Theorem C60_ckdisc o fun_ t0 tb y0 c s n v : ck_built o fun_ t0 tb y0 c s ->
  ohist ck_view (t_bound c) (direction c) (fun k => ck_step_impl k c) (onew s) n v -> o_max_step o = PInf ->
  exists l, calls (ckb (ost v)) = (calls (ckb s) ++ l)%list /\
    Forall (fun p => exists x, fst p = Fin x /\ within t0 tb x) l.
Proof.
  intros H1 H2 H3. destruct (ck_times _ _ _ _ _ _ _ _ _ H1 H2 H3) as (l & d & Hd & Hp & E & Q).
  exists l. split; [exact E|]. eapply Forall_impl; [|exact Q]. intros p (x & Ex & Hx). exists x. split; [exact Ex|].
  unfold within. destruct Hd as [->| ->]; [left|right]; lra.
Qed.
(** the same for a finite max_step, as long as it is not below the smallest step the code
    computes for the solvers the run passes through *)
Theorem C60_ckdisc_max_step o fun_ t0 tb y0 c s n v : ck_built o fun_ t0 tb y0 c s ->
  ohist ck_view (t_bound c) (direction c) (fun k => ck_step_impl k c) (onew s) n v ->
  (forall j w, (j < n)%nat -> ohist ck_view (t_bound c) (direction c) (fun k => ck_step_impl k c) (onew s) j w ->
     xleb (code_min_step c (ckb (ost w))) (max_step c) = true) ->
  exists l, calls (ckb (ost v)) = (calls (ckb s) ++ l)%list /\
    Forall (fun p => exists x, fst p = Fin x /\ within t0 tb x) l.
Proof.
  intros H1 H2 H3. destruct (ck_times_lim _ _ _ _ _ _ _ _ _ H1 H2 (fun j w Hj Hw => or_intror (H3 j w Hj Hw))) as (l & d & Hd & Hp & E & Q).
  exists l. split; [exact E|]. eapply Forall_impl; [|exact Q]. intros p (x & Ex & Hx). exists x. split; [exact Ex|].
  unfold within. destruct Hd as [->| ->]; [left|right]; lra.
Qed.
(** the hypotheses are met: the constructor succeeds on every non-empty y0 *)
Example C60_ckdisc_case fun_ t0 tb y0 : t0 <> tb -> y0 <> [] -> exists c s, ck_built (opts None PInf 0) fun_ t0 tb y0 c s /\ o_max_step (opts None PInf 0) = PInf.
Proof. intros H1 H2. destruct (Prop_CK.C40_builds fun_ t0 tb y0 H1 H2) as (c & s & H). exists c, s. auto. Qed.
