(** Histories of step() calls: facts for every [Arith]. *)
From Coq Require Import String ZArith QArith Bool Lia List.
From Verif Require Import Arith Common Stiff RK RKGen.
Import ListNotations.
Open Scope nat_scope.

Section Hist.
Context {A : Arith}.
Notation num := (num A).
Notation vec := (list num).
Implicit Types (m : Meth A) (c : Cfg A) (s : St A) (v : Solver A).

(** [history m c v n v']: n calls of step() (scipy's OdeSolver.step around the
    model's _step_impl) lead from solver object v to v'; each call returned. *)
Inductive history m c : Solver A -> nat -> Solver A -> Prop :=
| hist0 : forall v, history m c v 0 v
| histS : forall v n v1 v2 k, history m c v n v1 -> ode_step k m c v1 = StepOk v2 ->
    history m c v (S n) v2.

Lemma step_impl_done m c k s s' : min_stages m -> step_impl k m c s = Done s' ->
  exists h Ks en, accepted m c s s' h Ks en.
Proof.
  intros Hmin H. unfold step_impl in H.
  destruct (reassess_stepsize c s) as [[h0 ms] sc].
  destruct (rk_loop_done m c k Hmin _ _ _ _ _ H) as (h & Ks & en & ha & [HA1 HA2 HA3 HA4 HA5 HA6 HA7 HA8 HA9 HA10 HA11] & _).
  cbn [with_trial t y f] in *. exists h, Ks, en. constructor; auto.
Qed.

(** a step() call that leaves the solver running or finished, from a non-trivial
    state, is an accepted step *)
Lemma ode_step_ok m c k v v' : min_stages m -> ode_step k m c v = StepOk v' ->
  stat v = Running /\
  ((length (y (st v)) = 0 \/ neqb A (t (st v)) (t_bound c) = true) /\
     stat v' = Finished /\ y (st v') = y (st v) /\ t (st v') = t_bound c /\ f (st v') = f (st v) /\
     calls (st v') = calls (st v)
   \/ (exists h Ks en, accepted m c (st v) (st v') h Ks en) /\ (stat v' = Running \/ stat v' = Finished)
      /\ step_impl k m c (st v) = Done (st v')
   \/ (exists msg, stat v' = Failed msg /\ same_core (st v) (st v') /\
        step_impl k m c (st v) = Fail (st v') msg)).
Proof.
  intros Hmin H. unfold ode_step in H. destruct (stat v) eqn:Es; try discriminate.
  split; [reflexivity|].
  destruct (Nat.eqb (length (y (st v))) 0 || neqb A (t (st v)) (t_bound c)) eqn:E0.
  { left. inversion H; subst; simpl. apply orb_true_iff in E0. rewrite Nat.eqb_eq in E0.
    repeat split; auto. }
  right. destruct (step_impl k m c (st v)) as [s'|s' msg|e|] eqn:ES; try discriminate.
  - left. inversion H; subst; clear H. cbn [st stat].
    split; [eapply step_impl_done; eauto|].
    split; [|reflexivity].
    match goal with |- context [if ?b then _ else _] => destruct b end; auto.
  - right. inversion H; subst; clear H. cbn [st stat].
    exists msg. split; [auto|]. split; [|auto].
    unfold step_impl in ES. destruct (reassess_stepsize c (st v)) as [[h0 ms] sc].
    apply rk_loop_fail in ES; auto. destruct ES as [ES _].
    eapply same_core_trans; [apply same_core_with_trial|exact ES].
Qed.

(** fresh: the cached derivative belongs to the current point.  After the
    "empty interval" shortcut t is overwritten, so it is claimed otherwise. *)
Definition fresh c s : Prop := f s = fn c (t s) (y s).

(** as long as the state vector is not empty and t0 <> t_bound is tested by the code *)
Lemma history_f m c v0 n v : min_stages m -> fresh c (st v0) -> history m c v0 n v ->
  fresh c (st v) \/ (stat v = Finished /\ t (st v) = t_bound c /\
     exists u, fresh c (st u) /\ y (st u) = y (st v) /\ f (st u) = f (st v) /\
       (length (y (st u)) = 0 \/ neqb A (t (st u)) (t_bound c) = true)).
Proof.
  intros Hmin H0 H. induction H as [v|v0 n v1 v2 k H IH HS]; [auto|].
  specialize (IH H0).
  destruct (ode_step_ok m c k v1 v2 Hmin HS) as [Hr [Hc|[Hc|Hc]]].
  - destruct Hc as (E1 & E2 & E3 & E4 & E5 & _).
    destruct IH as [IH|(IH&_)]; [|congruence].
    right. split; [auto|]. split; [auto|]. exists v1. auto.
  - left. destruct Hc as ((h & Ks & en & HA) & _). exact (ac_f _ _ _ _ _ _ _ HA).
  - left. destruct Hc as (msg & _ & (C1 & C2 & C3 & _) & _).
    destruct IH as [IH|(IH&_)]; [|congruence].
    unfold fresh in *. rewrite C1, C2, C3. exact IH.
Qed.

End Hist.
