(** scipy.integrate.OdeSolver.step (scipy/integrate/_ivp/base.py, from its
    documentation) for any solver class: the state type and _step_impl are
    parameters.  RK.v contains the same wrapper specialised to RungeKutta. *)
From Coq Require Import String ZArith Reals Lra Psatz QArith Bool Lia List.
From Verif Require Import Arith Common RX RKReal RKStep.
Import ListNotations.

Section Ode.
Context {A : Arith}.
Notation num := (num A).
Local Open Scope num_scope.

(** what _step_impl returns: (True, None), (False, message), or an exception *)
Inductive impl_res (S : Type) :=
| IDone (s : S) | IFail (s : S) (msg : string) | IRaise (e : exn) | IFuel.
Arguments IDone {S}. Arguments IFail {S}. Arguments IRaise {S}. Arguments IFuel {S}.

Inductive ostatus := ORunning | OFinished | OFailed (msg : string).

Record OSolver (S : Type) := mkO { ost : S; ostat : ostatus; ot_old : option num }.
Arguments mkO {S}. Arguments ost {S}. Arguments ostat {S}. Arguments ot_old {S}.

(** the attributes of the solver read by OdeSolver.step *)
Record View (S : Type) := { v_t : S -> num; v_set_t : S -> num -> S; v_n : S -> nat }.
Arguments v_t {S}. Arguments v_set_t {S}. Arguments v_n {S}.

Inductive ostep_res (S : Type) := OOk (v : OSolver S) | OExn (e : exn) | OFuel.
Arguments OOk {S}. Arguments OExn {S}. Arguments OFuel {S}.

Definition ostep {S} (V : View S) (tb dir : num) (impl : S -> impl_res S) (v : OSolver S) : ostep_res S :=
  match ostat v with
  | ORunning =>
    if Nat.eqb (v_n V (ost v)) 0 || (v_t V (ost v) =? tb)
    then OOk (mkO (v_set_t V (ost v) tb) OFinished (Some (v_t V (ost v))))
    else match impl (ost v) with
         | IDone s' => OOk (mkO s' (if nleb A n0 (dir * (v_t V s' - tb)) then OFinished else ORunning)
                               (Some (v_t V (ost v))))
         | IFail s' msg => OOk (mkO s' (OFailed msg) (ot_old v))
         | IRaise e => OExn e
         | IFuel => OFuel
         end
  | _ => OExn (RuntimeError "Attempt to step on a failed or finished solver.")
  end.

(** [ohist V tb dir impl v n v']: n returned calls of step() lead from v to v' *)
Inductive ohist {S} (V : View S) (tb dir : num) (impl : nat -> S -> impl_res S) : OSolver S -> nat -> OSolver S -> Prop :=
| oh0 v : ohist V tb dir impl v 0 v
| ohS v n v1 v2 k : ohist V tb dir impl v n v1 -> ostep V tb dir (impl k) v1 = OOk v2 ->
    ohist V tb dir impl v (Datatypes.S n) v2.

Definition onew {S} (s : S) : OSolver S := mkO s ORunning None.

End Ode.
Arguments IDone {S}. Arguments IFail {S}. Arguments IRaise {S}. Arguments IFuel {S}.
Arguments OSolver A S : clear implicits. Arguments mkO {A S}. Arguments ost {A S}. Arguments ostat {A S}. Arguments ot_old {A S}.
Arguments View A S : clear implicits. Arguments v_t {A S}. Arguments v_set_t {A S}. Arguments v_n {A S}.
Arguments OOk {A S}. Arguments OExn {A S}. Arguments OFuel {A S}.

(** ** Runs over the extended reals *)
Open Scope R_scope.
Section Runs.
Context {S : Type} (V : View RX S) (tb dir : R) (impl : nat -> S -> impl_res S).
Hypothesis Hdir : dir = 1 \/ dir = -1.
Variable Inv : S -> Prop.
Definition tv (s : S) : R := match v_t V s with Fin x => x | _ => 0 end.
Definition ahead (s : S) : Prop := 0 < dir * (tb - tv s).
Hypothesis Inv_fin : forall s, Inv s -> exists x, v_t V s = Fin x.
Hypothesis Inv_done : forall k s s', Inv s -> ahead s -> impl k s = IDone s' -> Inv s'.
Variable delta : R.
Hypothesis Hdelta : 0 < delta.
(** a step that does not reach tb moves by at least delta *)
Hypothesis adv : forall k s s', Inv s -> ahead s -> impl k s = IDone s' -> ahead s' -> delta <= dir * (tv s' - tv s).

Definition oinv (v : OSolver RX S) : Prop :=
  match ostat v with ORunning => Inv (ost v) /\ ahead (ost v) | _ => True end.

Lemma ostep_running v v' k : oinv v -> ostep V (Fin tb) (Fin dir) (impl k) v = OOk v' ->
  ostat v = ORunning /\ Inv (ost v) /\ ahead (ost v) /\
  ((exists s', impl k (ost v) = IDone s' /\ ost v' = s' /\ Inv s' /\
      ot_old v' = Some (v_t V (ost v)) /\
      ((ostat v' = ORunning /\ ahead s') \/ (ostat v' = OFinished /\ dir * (tb - tv s') <= 0))) \/
   (exists s' msg, impl k (ost v) = IFail s' msg /\ ost v' = s' /\ ostat v' = OFailed msg /\ ot_old v' = ot_old v) \/
   (v_n V (ost v) = 0%nat /\ ost v' = v_set_t V (ost v) (Fin tb) /\ ostat v' = OFinished)).
Proof.
  unfold oinv, ostep. destruct (ostat v) eqn:Es; try discriminate. intros [HI HA] H.
  split; [reflexivity|]. split; [exact HI|]. split; [exact HA|].
  destruct (Inv_fin _ HI) as [x Hx].
  assert (E : neqb RX (v_t V (ost v)) (Fin tb) = false).
  { rewrite Hx. cbn [neqb RX xeqb].
    apply Reqb_false. unfold ahead, tv in HA. rewrite Hx in HA. intros ->. lra. }
  destruct (Nat.eqb (v_n V (ost v)) 0) eqn:E0.
  { right. right. cbn [orb] in H. injection H as <-. apply Nat.eqb_eq in E0. auto. }
  cbn [orb] in H.
  rewrite E in H. destruct (impl k (ost v)) as [s'|s' msg|e|] eqn:EI; try discriminate.
  - left. exists s'. injection H as <-. cbn [ost ostat ot_old].
    pose proof (Inv_done k _ _ HI HA EI) as HI'. destruct (Inv_fin _ HI') as [x' Hx'].
    split; [reflexivity|]. split; [reflexivity|]. split; [exact HI'|]. split; [reflexivity|].
    change (nmul RX) with xmul. change (nsub RX) with xsub. rewrite Hx'. unfold xsub. cbn [xopp xadd xmul].
    rewrite RMicromega.Q2R_0. unfold ahead, tv. rewrite Hx'.
    destruct (Rleb 0 (dir * (x' + - tb))) eqn:EL.
    + right. split; [reflexivity|]. apply Rleb_true in EL. nra.
    + left. split; [reflexivity|]. apply Rleb_false in EL. nra.
  - right. left. exists s', msg. injection H as <-. auto.
Qed.

Lemma ohist_oinv v n v' : oinv v -> ohist V (Fin tb) (Fin dir) impl v n v' -> oinv v'.
Proof.
  intros HI H. induction H as [v|v n v1 v2 k H IH HS]; [exact HI|]. specialize (IH HI).
  destruct (ostep_running _ _ _ IH HS) as (_ & _ & _ & [(s' & _ & E & HI' & _ & [[E1 E2]|[E1 E2]])|[(s' & msg & _ & _ & E1 & _)|(_ & _ & E1)]]);
    unfold oinv; rewrite E1; auto. rewrite E. auto.
Qed.

Lemma ohist_back v n v' : ohist V (Fin tb) (Fin dir) impl v n v' -> ostat v' = ORunning -> ostat v = ORunning.
Proof.
  intros H. induction H as [v|v n v1 v2 k H IH HS]; auto. intros _. apply IH.
  unfold ostep in HS. destruct (ostat v1); [reflexivity|discriminate|discriminate].
Qed.

Lemma ohist_progress v n v' : oinv v -> ohist V (Fin tb) (Fin dir) impl v n v' -> ostat v' = ORunning ->
  INR n * delta <= dir * (tv (ost v') - tv (ost v)).
Proof.
  intros HI H. induction H as [v|v n v1 v2 k H IH HS]; intros Hr.
  - simpl. nra.
  - pose proof (ohist_oinv _ _ _ HI H) as HI1.
    destruct (ostep_running _ _ _ HI1 HS) as (R1 & I1 & A1 & [(s' & EI & E & HI' & _ & [[_ A2]|[E1 _]])|[(s' & msg & _ & _ & E1 & _)|(_ & _ & E1)]]); [|congruence|congruence|congruence].
    specialize (IH HI R1). pose proof (adv k _ _ I1 A1 EI A2) as Ha. rewrite S_INR, E. nra.
Qed.

(** while it runs the solver stays between the initial time and tb *)
Lemma ohist_between v n v' : oinv v -> ohist V (Fin tb) (Fin dir) impl v n v' -> ostat v' = ORunning ->
  Rabs (tb - tv (ost v')) <= Rabs (tb - tv (ost v)).
Proof.
  intros HI H Hr. pose proof (ohist_progress _ _ _ HI H Hr) as HP.
  pose proof (ohist_oinv _ _ _ HI H) as HO. unfold oinv in HO. rewrite Hr in HO. destruct HO as [_ HA]. unfold ahead in HA.
  pose proof (pos_INR n). assert (0 <= INR n * delta) by nra.
  destruct Hdir as [D|D]; rewrite D in *; unfold Rabs; destruct (Rcase_abs _); destruct (Rcase_abs _); lra.
Qed.

(** the number of step() calls is bounded *)
Theorem ohist_bounded v n v' : oinv v -> ostat v = ORunning -> ohist V (Fin tb) (Fin dir) impl v n v' ->
  INR n * delta < Rabs (tb - tv (ost v)) + delta.
Proof.
  intros HI Hv H. assert (Hab : forall x, dir * x <= Rabs x).
  { intros x. destruct Hdir as [-> | ->]; unfold Rabs; destruct (Rcase_abs x); lra. }
  inversion H as [|? n1 v1 ? k H1 HS]; subst.
  - simpl. pose proof (Rabs_pos (tb - tv (ost v'))). lra.
  - pose proof (ohist_oinv _ _ _ HI H1) as HI1.
    destruct (ostep_running _ _ _ HI1 HS) as (R1 & I1 & A1 & _).
    pose proof (ohist_progress _ _ _ HI H1 R1) as HP. rewrite S_INR.
    unfold ahead in A1. specialize (Hab (tb - tv (ost v))). nra.
Qed.

Hypothesis prog : forall s, Inv s -> ahead s -> exists k s', impl k s = IDone s' \/ exists msg, impl k s = IFail s' msg.

Lemma ostep_exists v : oinv v -> ostat v = ORunning -> exists k v', ostep V (Fin tb) (Fin dir) (impl k) v = OOk v'.
Proof.
  unfold oinv, ostep. intros HI Hr. rewrite Hr in *. destruct HI as [HI HA].
  destruct (prog _ HI HA) as (k & s' & [E|[msg E]]); exists k; rewrite E;
    (destruct (_ || _); eexists; reflexivity).
Qed.

(** a run driven by step() calls ends: finished or failed *)
Theorem run_ends_gen v : oinv v -> ostat v = ORunning ->
  exists n v', ohist V (Fin tb) (Fin dir) impl v n v' /\ ostat v' <> ORunning.
Proof.
  intros HI Hv.
  destruct (INR_big delta (Rabs (tb - tv (ost v)) + delta) Hdelta) as [N HN];
    [pose proof (Rabs_pos (tb - tv (ost v))); lra|].
  assert (Hk : forall j, (exists n v', ohist V (Fin tb) (Fin dir) impl v n v' /\ ostat v' <> ORunning) \/
     exists v', ohist V (Fin tb) (Fin dir) impl v j v' /\ ostat v' = ORunning).
  { induction j as [|j IH]; [right; exists v; split; [constructor|exact Hv]|].
    destruct IH as [IH|(v1 & H1 & R1)]; [left; exact IH|].
    destruct (ostep_exists v1 (ohist_oinv _ _ _ HI H1) R1) as (k & v2 & E).
    assert (H2 : ohist V (Fin tb) (Fin dir) impl v (Datatypes.S j) v2) by (econstructor; eauto).
    destruct (ostat v2) eqn:E2; [right; eauto|left; exists (Datatypes.S j), v2; rewrite E2; split; [exact H2|discriminate]..]. }
  destruct (Hk N) as [H|(v' & H & _)]; [exact H|].
  pose proof (ohist_bounded _ _ _ HI Hv H). lra.
Qed.
End Runs.
