(** Order conditions of polynomial interpolants, checked column by column up to a residual. *)
From Coq Require Import String Reals Lra Psatz QArith Qreals Bool Lia List Arith NArith.
From Verif Require Import Series Trees OrderThm OrderCheck OrderRK GOrder GDense Balls BallTab OrderIRK.
Import ListNotations.
Close Scope string_scope. Open Scope nat_scope. Open Scope R_scope.

Lemma rsum_pick n k (g : nat -> R) : (k < n)%nat -> rsum n (fun j => if Nat.eqb j k then g j else 0) = g k.
Proof. exact (OrderCheck.rsum_delta QN false false [] [] [] ltac:(discriminate) ltac:(discriminate) n k g). Qed.
Lemma col_value N P i j : vR N (col N j P) i = mR N P i j.
Proof. exact (col_val N false false [] [] [] ltac:(discriminate) ltac:(discriminate) P i j). Qed.
Section Cols.
Variables uU uV : bool.
Variable s : nat.
Variables AU AV : nat -> nat -> R.
Variable c : nat -> R.
Variable PR : nat -> nat -> R.
Variable cols : nat.
Definition wV (th : R) (i : nat) : R := rsum cols (fun j => PR i j * th ^ S j).
Definition wU (th : R) (i : nat) : R := rsum cols (fun j => PR i j * th ^ S (S j)).
Definition cols_near (eps : R) (m : nat) (rr : nat -> R -> R) : Prop := forall j n fs, (j < cols)%nat -> (n < m)%nat -> In fs (FOREST uU uV n) ->
  Rabs (rsum s (fun i => PR i j * stage_weight s AU AV c fs i) - (if Nat.eqb j n then rr n (exact_weight fs) else 0)) <= eps.

Lemma cols_sum (eps : R) m a rr : 0 <= eps -> (m <= cols)%nat -> cols_near eps m rr ->
  forall th n fs, 0 <= th <= 1 -> (n < m)%nat -> In fs (FOREST uU uV n) ->
  Rabs (rsum s (fun i => rsum cols (fun j => PR i j * th ^ (a + j)) * stage_weight s AU AV c fs i) - th ^ (a + n) * rr n (exact_weight fs)) <= INR cols * eps.
Proof.
  intros He Hm H th n fs Ht Hn Hf.
  replace (rsum s (fun i => rsum cols (fun j => PR i j * th ^ (a + j)) * stage_weight s AU AV c fs i) - th ^ (a + n) * rr n (exact_weight fs))
    with (rsum cols (fun j => th ^ (a + j) * (rsum s (fun i => PR i j * stage_weight s AU AV c fs i) - (if Nat.eqb j n then rr n (exact_weight fs) else 0)))).
  - apply rsum_abs_le. intros j Hj. rewrite Rabs_mult. rewrite <- (Rmult_1_l eps). apply Rmult_le_compat; try apply Rabs_pos.
    + rewrite <- RPow_abs, (Rabs_right th) by lra. rewrite <- (pow1 (a + j)). apply pow_incr. lra.
    + apply H; assumption.
  - rewrite (rsum_ext cols _ (fun j => rsum s (fun i => th ^ (a + j) * (PR i j * stage_weight s AU AV c fs i)) + (-1) * (if Nat.eqb j n then th ^ (a + j) * rr n (exact_weight fs) else 0))).
    + rewrite rsum_plus, rsum_scal, (rsum_pick cols n (fun j => th ^ (a + j) * rr n (exact_weight fs))) by lia. rewrite rsum_swap.
      rewrite (rsum_ext s _ (fun i => rsum cols (fun j => PR i j * th ^ (a + j)) * stage_weight s AU AV c fs i)); [ring|].
      intros i Hi. rewrite (Rmult_comm (rsum _ _)), <- rsum_scal. apply rsum_ext. intros j Hj. ring.
    + intros j Hj. rewrite rsum_scal. destruct (Nat.eqb j n); ring.
Qed.
Lemma cols_dense_V eps m : 0 <= eps -> (m <= cols)%nat -> cols_near eps m (fun n x => x / INR (S n)) -> dense_V uU uV s AU AV c (INR cols * eps) wV m.
Proof.
  intros He Hm H th n fs Ht Hn Hf. pose proof (cols_sum eps m 1 _ He Hm H th n fs Ht Hn Hf) as X. cbn [Nat.add] in X. unfold wV.
  replace (th ^ S n / INR (S n) * exact_weight fs) with (th ^ S n * (exact_weight fs / INR (S n))) by (unfold Rdiv; ring). exact X.
Qed.
Lemma cols_dense_U eps m : 0 <= eps -> (m <= cols)%nat -> cols_near eps m (fun n x => x / (INR (S (S n)) * INR (S n))) -> dense_U uU uV s AU AV c (INR cols * eps) wU m.
Proof.
  intros He Hm H th n fs Ht Hn Hf. pose proof (cols_sum eps m 2 _ He Hm H th n fs Ht Hn Hf) as X. cbn [Nat.add] in X. unfold wU.
  replace (th ^ S (S n) / (INR (S (S n)) * INR (S n)) * exact_weight fs) with (th ^ S (S n) * (exact_weight fs / (INR (S (S n)) * INR (S n)))) by (unfold Rdiv; ring). exact X.
Qed.
Lemma w_bounded a : wbounded s (fun th i => rsum cols (fun j => PR i j * th ^ (a + j))).
Proof.
  destruct (bounded_fin (fun i => rsum cols (fun j => Rabs (PR i j))) s) as (B & HB & H). exists B. split; [exact HB|]. intros th i Ht Hi.
  eapply Rle_trans; [|apply (H i Hi)]. eapply Rle_trans; [|apply Rle_abs]. apply rsum_abs_le'. intros j Hj. rewrite Rabs_mult. rewrite <- (Rmult_1_r (Rabs (PR i j))) at 2.
  apply Rmult_le_compat_l; [apply Rabs_pos|]. rewrite <- RPow_abs, (Rabs_right th) by lra. rewrite <- (pow1 (a + j)). apply pow_incr. lra.
Qed.
Lemma wV_bounded : wbounded s wV. Proof. exact (w_bounded 1). Qed.
Lemma wU_bounded : wbounded s wU. Proof. exact (w_bounded 2). Qed.
End Cols.

(** ** by exact arithmetic in a number field *)
Section NearCols.
Variable N : CN.
Variable m1 : N.
Hypothesis Hm1 : cv N m1 = -1.
Variable small : N -> Q -> bool.
Hypothesis Hsmall : forall x e, small x e = true -> Rabs (cv N x) <= Q2R e.
Variables uU uV : bool.
Variable cc : list N.
Variables MU MV : list (list N).
Hypothesis HMU : uU = true -> length MU = length cc.
Hypothesis HMV : uV = true -> length MV = length cc.
Definition ncheckP (tb : list (list (list N * N))) (eps : Q) (m cols : nat) (P : list (list N)) (rhs : nat -> N -> N) : bool :=
  Nat.leb m cols && Qle_bool 0 eps && forallb (fun j => ncheck N m1 small tb eps m (col N j P) (fun n x => if Nat.eqb j n then rhs n x else c_0 N)) (seq 0 cols).
Lemma ncheckP_V M eps m cols P : (m <= S M)%nat -> ncheckP (snd (tables N uU uV cc MU MV M)) eps m cols P (rhsV N) = true ->
  (m <= cols)%nat /\ 0 <= Q2R eps /\ cols_near uU uV (length cc) (mR N MU) (mR N MV) (vR N cc) (mR N P) cols (Q2R eps) m (fun n x => x / INR (S n)).
Proof.
  intros HM H. unfold ncheckP in H. rewrite !andb_true_iff in H. destruct H as ((H1 & H2) & H3). apply Nat.leb_le in H1. apply Qle_bool_iff, Qle_Rle in H2. rewrite RMicromega.Q2R_0 in H2.
  split; [exact H1|]. split; [exact H2|]. rewrite forallb_forall in H3. intros j n fs Hj Hn Hf. specialize (H3 j ltac:(apply in_seq; lia)).
  destruct (ncheck_sound N m1 Hm1 small Hsmall uU uV cc MU MV HMU HMV M eps m (col N j P) _ HM H3 n fs Hn Hf) as (x & Hx & E).
  rewrite (rsum_ext _ (fun i => mR N P i j * _) (fun i => vR N (col N j P) i * stage_weight (length cc) (mR N MU) (mR N MV) (vR N cc) fs i)) by (intros i Hi; rewrite col_value; reflexivity).
  destruct (Nat.eqb j n); [|rewrite cv0 in E; exact E]. unfold rhsV in E. rewrite cvmul, cvinv, Hx in E by lia. exact E.
Qed.
End NearCols.

(** ** by ball arithmetic *)
Section BallCols.
Variable bits : Z.
Hypothesis Hbits : (0 <= bits)%Z.
Variable uU : bool.
Variable C : list Q.
Variables AU AV : list (list Q).
Hypothesis HAU : uU = true -> length AU = length C.
Hypothesis HAV : length AV = length C.
Definition bcheckP (tb : list (list (BinNums.N * (list ball * ball)))) (eps : Q) (m cols : nat) (P : list (list Q)) (rhs : nat -> ball -> ball) : bool :=
  Nat.leb m cols && Qle_bool 0 eps && forallb (fun j => bcheck bits tb eps m (bvec_of bits (col QN j P)) (fun n x => if Nat.eqb j n then rhs n x else b_0)) (seq 0 cols).
Lemma bcheckP_gen n0 eps m cols P rhs rr : (m <= S n0)%nat -> (forall n x r, brel bits x r -> brel bits (rhs n x) (rr n r)) ->
  bcheckP (ball_tab bits uU C AU AV n0) eps m cols P rhs = true ->
  (m <= cols)%nat /\ 0 <= Q2R eps /\ cols_near uU true (length C) (mR QN AU) (mR QN AV) (vR QN C) (mR QN P) cols (Q2R eps) m rr.
Proof.
  intros HM Hr H. unfold bcheckP in H. rewrite !andb_true_iff in H. destruct H as ((H1 & H2) & H3). apply Nat.leb_le in H1. apply Qle_bool_iff, Qle_Rle in H2. rewrite RMicromega.Q2R_0 in H2.
  split; [exact H1|]. split; [exact H2|]. rewrite forallb_forall in H3. intros j n fs Hj Hn Hf. specialize (H3 j ltac:(apply in_seq; lia)).
  assert (Hif : forall k x r, brel bits x r -> brel bits (if Nat.eqb j k then rhs k x else b_0) (if Nat.eqb j k then rr k r else 0)) by (intros k x r Hx; destruct (Nat.eqb j k); [apply Hr; exact Hx|apply brel_0]).
  pose proof (bcheck_sound bits Hbits uU true (c_balls bits C AV) (bmat_of bits AU) (bmat_of bits AV) (vR QN C) (mR QN AU) (mR QN AV) (hC bits Hbits C AV HAV) (hU bits Hbits uU C AU AV HAU HAV) (hV bits Hbits C AV HAV)
    n0 eps m (bvec_of bits (col QN j P)) (vR QN (col QN j P)) (fun n x => if Nat.eqb j n then rhs n x else b_0) (fun n r => if Nat.eqb j n then rr n r else 0) HM H3
    ltac:(intros; apply brel_vec; exact Hbits) Hif n fs Hn Hf) as X.
  rewrite (c_balls_len bits C AV HAV) in X. cbv beta in X.
  rewrite (rsum_ext _ (fun i => mR QN P i j * _) (fun i => vR QN (col QN j P) i * stage_weight (length C) (mR QN AU) (mR QN AV) (vR QN C) fs i)) by (intros i Hi; rewrite col_value; reflexivity).
  exact X.
Qed.
Lemma bcheckP_V n0 eps m cols P : (m <= S n0)%nat -> bcheckP (ball_tab bits uU C AU AV n0) eps m cols P (brhsV bits) = true ->
  (m <= cols)%nat /\ 0 <= Q2R eps /\ cols_near uU true (length C) (mR QN AU) (mR QN AV) (vR QN C) (mR QN P) cols (Q2R eps) m (fun n x => x / INR (S n)).
Proof. intros HM. apply bcheckP_gen; [exact HM|]. intros n x r Hx. apply brel_mul; [exact Hbits|exact Hx|]. apply brel_inv; [exact Hbits|lia]. Qed.
Lemma bcheckP_U n0 eps m cols P : (m <= S n0)%nat -> bcheckP (ball_tab bits uU C AU AV n0) eps m cols P (brhsU bits) = true ->
  (m <= cols)%nat /\ 0 <= Q2R eps /\ cols_near uU true (length C) (mR QN AU) (mR QN AV) (vR QN C) (mR QN P) cols (Q2R eps) m (fun n x => x / (INR (S (S n)) * INR (S n))).
Proof.
  intros HM. apply bcheckP_gen; [exact HM|]. intros n x r Hx. unfold Rdiv. rewrite Rinv_mult. apply brel_mul; [exact Hbits|exact Hx|]. apply brel_mul; [exact Hbits| |]; apply brel_inv; try exact Hbits; lia.
Qed.
End BallCols.
