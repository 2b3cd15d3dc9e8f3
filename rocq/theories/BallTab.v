(** Order conditions of rational tables, checked approximately with ball arithmetic. *)
From Coq Require Import String Reals Lra Psatz QArith Qreals Bool Lia List Arith NArith.
From Verif Require Import Series Trees OrderThm OrderCheck OrderRK GOrder Balls.
Import ListNotations.
Close Scope string_scope. Open Scope nat_scope. Open Scope R_scope.

Section BT.
Variable bits : Z.
Hypothesis Hbits : (0 <= bits)%Z.
Variable uU : bool.
Variable C : list Q.
Variables AU AV : list (list Q).
Hypothesis HAU : uU = true -> length AU = length C.
Hypothesis HAV : length AV = length C.

Definition bvec_of : list Q -> list ball := map (b_ofQ bits).
Definition bmat_of : list (list Q) -> list (list ball) := map bvec_of.
(** balls around c that also contain the row sums of A, so that the two candidates for the
    weight of the trivial tree are recognised as equal *)
Definition c_balls : list ball :=
  map (fun p => b_hull (fst p) (snd p)) (combine (bvec_of C) (bmv bits (bmat_of AV) (map (fun _ => b_1 bits) C))).
Definition ball_tab (n : nat) := ftab bits uU true c_balls (bmat_of AU) (bmat_of AV) n.

Lemma brel_vec (l : list Q) i : brel bits (nth i (bvec_of l) b_0) (vR QN l i).
Proof.
  unfold bvec_of, vR. change b_0 with (b_ofQ bits 0). rewrite map_nth. apply brel_ofQ, Hbits.
Qed.
Lemma brel_mat (M : list (list Q)) i l : brel bits (nth l (nth i (bmat_of M) []) b_0) (mR QN M i l).
Proof. unfold bmat_of, mR. change (@nil ball) with (bvec_of []). rewrite map_nth. apply brel_vec. Qed.
Lemma c_balls_len : length c_balls = length C.
Proof. unfold c_balls, bvec_of, bmv, bmat_of. rewrite map_length, combine_length, !map_length, HAV. apply Nat.min_id. Qed.
Lemma brel_c i : (i < length C)%nat -> brel bits (nth i c_balls b_0) (vR QN C i).
Proof.
  intros Hi. unfold c_balls.
  set (l2 := bmv bits (bmat_of AV) (map (fun _ => b_1 bits) C)).
  assert (L2 : length l2 = length C) by (unfold l2, bmv, bmat_of; rewrite !map_length; exact HAV).
  assert (L1 : length (bvec_of C) = length C) by apply map_length.
  rewrite (nth_indep _ b_0 ((fun p => b_hull (fst p) (snd p)) (b_0, b_0))) by (rewrite map_length, combine_length, L1, L2, Nat.min_id; exact Hi).
  rewrite (map_nth (fun p => b_hull (fst p) (snd p))), combine_nth by congruence. cbn [fst snd]. apply b_hull_l, brel_vec.
Qed.
Definition ball_V (n p : nat) (eps : Q) (B : list Q) : bool := bcheck bits (ball_tab n) eps p (bvec_of B) (brhsV bits).
Definition ball_U (n p : nat) (eps : Q) (B : list Q) : bool := bcheck bits (ball_tab n) eps p (bvec_of B) (brhsU bits).
Definition ball_Z (n p : nat) (eps : Q) (B : list Q) : bool := bcheck bits (ball_tab n) eps p (bvec_of B) brhsZ.
Notation s := (length C).
Lemma hU : uU = true -> length (bmat_of AU) = length c_balls /\ forall i l, (i < length c_balls)%nat -> (l < length c_balls)%nat -> brel bits (nth l (nth i (bmat_of AU) []) b_0) (mR QN AU i l).
Proof. intros H. split; [unfold bmat_of; rewrite map_length, c_balls_len; auto|intros; apply brel_mat]. Qed.
Lemma hV : true = true -> length (bmat_of AV) = length c_balls /\ forall i l, (i < length c_balls)%nat -> (l < length c_balls)%nat -> brel bits (nth l (nth i (bmat_of AV) []) b_0) (mR QN AV i l).
Proof. intros H. split; [unfold bmat_of; rewrite map_length, c_balls_len; auto|intros; apply brel_mat]. Qed.
Lemma hC i : (i < length c_balls)%nat -> brel bits (nth i c_balls b_0) (vR QN C i).
Proof. rewrite c_balls_len. apply brel_c. Qed.
Lemma ball_V_ok n p eps B : (p <= S n)%nat -> ball_V n p eps B = true -> near_V uU true s (mR QN AU) (mR QN AV) (vR QN C) (Q2R eps) (vR QN B) p.
Proof.
  intros Hn H. pose proof (bcheck_V bits Hbits uU true c_balls (bmat_of AU) (bmat_of AV) (vR QN C) (mR QN AU) (mR QN AV) hC hU hV n eps p (bvec_of B) (vR QN B) Hn H ltac:(intros; apply brel_vec)) as X.
  rewrite c_balls_len in X. exact X.
Qed.
Lemma ball_U_ok n p eps B : (p <= S n)%nat -> ball_U n p eps B = true -> near_U uU true s (mR QN AU) (mR QN AV) (vR QN C) (Q2R eps) (vR QN B) p.
Proof.
  intros Hn H. pose proof (bcheck_U bits Hbits uU true c_balls (bmat_of AU) (bmat_of AV) (vR QN C) (mR QN AU) (mR QN AV) hC hU hV n eps p (bvec_of B) (vR QN B) Hn H ltac:(intros; apply brel_vec)) as X.
  rewrite c_balls_len in X. exact X.
Qed.
Lemma ball_Z_ok n p eps B : (p <= S n)%nat -> ball_Z n p eps B = true -> near_Z uU true s (mR QN AU) (mR QN AV) (vR QN C) (Q2R eps) (vR QN B) p.
Proof.
  intros Hn H. pose proof (bcheck_Z bits Hbits uU true c_balls (bmat_of AU) (bmat_of AV) (vR QN C) (mR QN AU) (mR QN AV) hC hU hV n eps p (bvec_of B) (vR QN B) Hn H ltac:(intros; apply brel_vec)) as X.
  rewrite c_balls_len in X. exact X.
Qed.
End BT.
