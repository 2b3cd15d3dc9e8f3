(** SSV2stab: the step on linear problems (the stability polynomial) and the
    order of the step and of its error estimate on smooth problems. *)
From Coq Require Import String ZArith Reals Lra Psatz QArith Qreals Bool Lia List Arith.
From Coquelicot Require Import Coquelicot.
From Verif Require Import Arith Common RX Series Trees OrderThm OrderRK OrderModel OrderPair SwagArr Rkc Cheb RkcReal.
Import ListNotations.
Close Scope string_scope. Open Scope nat_scope. Open Scope R_scope.

Definition ldot (d : nat) (l : nat -> R) (v : list R) : R := rsum d (fun q => l q * nth q v 0).
Lemma ldot_radd d l a b : length a = length b -> ldot d l (radd a b) = ldot d l a + ldot d l b.
Proof. intros H. unfold ldot. rewrite <- rsum_plus. apply rsum_ext. intros q _. rewrite radd_nth by exact H. ring. Qed.
Lemma ldot_rscal d l c a : ldot d l (rscal c a) = c * ldot d l a.
Proof. unfold ldot. rewrite <- rsum_scal. apply rsum_ext. intros q _. rewrite rscal_nth. ring. Qed.
Lemma ldot_rsub d l a b : length a = length b -> ldot d l (rsub a b) = ldot d l a - ldot d l b.
Proof.
  intros H. unfold ldot. replace (rsum d (fun q => l q * nth q a 0) - rsum d (fun q => l q * nth q b 0)) with (rsum d (fun q => l q * nth q a 0) + (-1) * rsum d (fun q => l q * nth q b 0)) by ring.
  rewrite <- rsum_scal, <- rsum_plus. apply rsum_ext. intros q _. rewrite rsub_nth by exact H. ring.
Qed.

(** ** linear problems *)
Section Lin.
Variable m : nat.
Hypothesis Hm : (2 <= m)%nat.
Variable F : R -> list R -> list R.
Variables (t h : R) (y f : list R) (d : nat).
Variable g : num RX -> list (num RX) -> list (num RX).
Hypothesis HL : lifts d F g.
Hypothesis Hy : length y = d.
Hypothesis Hf : length f = d.
Variable l : nat -> R.
Variable lam : R.
Hypothesis Hlin : forall s u, length u = d -> ldot d l (F s u) = lam * ldot d l u.
Hypothesis Hf0 : ldot d l f = lam * ldot d l y.
Notation w := (w0T m).
Notation v1 := (w1T m w).
Definition stP (j : nat) (z : R) : R := 1 - bb m j * cT j w + bb m j * cT j (w + v1 * z).

Lemma rkY_lin j : ldot d l (rkY m F t h y f j) = stP j (h * lam) * ldot d l y.
Proof.
  pose proof (rkY_len m F t h y f d g HL Hy Hf) as L.
  revert j. apply (two_step (fun j => ldot d l (rkY m F t h y f j) = stP j (h * lam) * ldot d l y)).
  - cbn [rkY]. unfold stP. cbn [cT]. ring.
  - cbn [rkY]. rewrite ldot_radd by (rewrite rscal_len; congruence). rewrite ldot_rscal, Hf0. unfold stP. cbn [cT]. ring.
  - intros n A B. rewrite rkY_SS. unfold rstage.
    pose proof (L n) as L0. pose proof (L (S n)) as L1. pose proof (proj1 (HL (t + h * cc m (S n)) _ L1)) as L2.
    rewrite ldot_radd by (rewrite !radd_len; rewrite ?radd_len; rewrite ?rscal_len, ?rsub_len; rewrite ?rscal_len; congruence).
    rewrite ldot_radd by (rewrite radd_len; rewrite ?rscal_len; congruence). rewrite ldot_radd by (rewrite !rscal_len; congruence).
    rewrite !ldot_rscal. rewrite ldot_rsub by (rewrite rscal_len; congruence). rewrite Hlin by exact L1. rewrite ldot_rscal, Hf0, A, B.
    pose proof (w_gt m Hm). pose proof (bb_pos m Hm n). pose proof (bb_pos m Hm (S n)).
    unfold stP, mus_, mu_, nu_, aa. replace (S (S n) - 1)%nat with (S n) by lia. replace (S (S n) - 2)%nat with n by lia. rewrite !cT_SS.
    field. lra.
Qed.
Lemma stP_m z : stP m z = rkcP m w z.
Proof. unfold stP, rkcP, bb. destruct m as [|[|k]]; [lia|lia|]. reflexivity. Qed.
End Lin.

(** ** the step as a Runge-Kutta method *)
Section Tab.
Variable m : nat.
Hypothesis Hm : (2 <= m)%nat.
Notation w := (w0T m).
Notation v1 := (w1T m w).
Definition dl (i l : nat) : R := if Nat.eqb l i then 1 else 0.
Fixpoint arow (j l : nat) : R :=
  match j with
  | O => 0
  | S i => match i with
           | O => v1 * bb m 1 * dl 0 l
           | S k => mu_ m j * arow i l + nu_ m j * arow k l + mus_ m j * (dl i l - aa m i * dl 0 l)
           end
  end.
Lemma arow_SS j l : arow (S (S j)) l = mu_ m (S (S j)) * arow (S j) l + nu_ m (S (S j)) * arow j l + mus_ m (S (S j)) * (dl (S j) l - aa m (S j) * dl 0 l).
Proof. reflexivity. Qed.
Lemma arow_low j l : (j <= l)%nat -> arow j l = 0.
Proof.
  revert l. apply (two_step (fun j => forall l, (j <= l)%nat -> arow j l = 0) ) with (n := j).
  - reflexivity.
  - intros l Hl. cbn [arow]. unfold dl. destruct (Nat.eqb_spec l 0); [lia|ring].
  - intros n A B l Hl. rewrite arow_SS, A, B by lia. unfold dl. destruct (Nat.eqb_spec l 0); [lia|]. destruct (Nat.eqb_spec l (S n)); [lia|ring].
Qed.
Lemma dl_sum s i (x : nat -> R) : (i < s)%nat -> rsum s (fun l => dl i l * x l) = x i.
Proof.
  intros H. induction s as [|s IH]; [lia|]. cbn [rsum]. unfold dl at 2. destruct (Nat.eqb_spec s i) as [->|].
  - rewrite (rsum_zero i); [ring|]. intros k Hk. unfold dl. destruct (Nat.eqb_spec k i); [lia|ring].
  - rewrite IH by lia. ring.
Qed.
(** a sum over a row obeys the recursion of the stages *)
Lemma arow_sum s (x : nat -> R) j : (S (S j) < s)%nat ->
  rsum s (fun l => arow (S (S j)) l * x l) = mu_ m (S (S j)) * rsum s (fun l => arow (S j) l * x l) + nu_ m (S (S j)) * rsum s (fun l => arow j l * x l)
     + mus_ m (S (S j)) * (x (S j) - aa m (S j) * x 0%nat).
Proof.
  intros H. rewrite <- (dl_sum s (S j) x) by lia. rewrite <- (dl_sum s 0 x) at 1 by lia. rewrite <- (rsum_scal s (aa m (S j))).
  replace (rsum s (fun l => dl (S j) l * x l) - rsum s (fun l => aa m (S j) * (dl 0 l * x l)))
    with (rsum s (fun l => dl (S j) l * x l) + (-1) * rsum s (fun l => aa m (S j) * (dl 0 l * x l))) by ring.
  rewrite <- !rsum_scal, <- !rsum_plus, <- rsum_scal, <- !rsum_plus. apply rsum_ext. intros l _. rewrite arow_SS. ring.
Qed.
Lemma row_c s j : (2 < s)%nat -> (j < s)%nat -> rsum s (fun l => arow j l * 1) = cc m j.
Proof.
  intros Hs. apply (two_step (fun j => (j < s)%nat -> rsum s (fun l => arow j l * 1) = cc m j)).
  - intros _. rewrite rsum_zero by (intros; cbn [arow]; ring). symmetry. apply cc_0.
  - intros _. cbn [arow]. rewrite (rsum_ext s _ (fun l => (v1 * bb m 1) * (dl 0 l * 1))) by (intros; ring). rewrite rsum_scal, (dl_sum s 0 (fun _ => 1)) by lia.
    unfold cc. cbn [dT]. ring.
  - intros n A B H. rewrite (arow_sum s (fun _ => 1)) by lia. rewrite A, B by lia. rewrite cc_next by exact Hm. ring.
Qed.
Lemma row_cc s j : (2 < s)%nat -> (j < s)%nat -> rsum s (fun l => arow j l * cc m l) = bb m j * (v1 * v1) * d2T j w / 2.
Proof.
  intros Hs. apply (two_step (fun j => (j < s)%nat -> rsum s (fun l => arow j l * cc m l) = bb m j * (v1 * v1) * d2T j w / 2)).
  - intros _. rewrite rsum_zero by (intros; cbn [arow]; ring). cbn [d2T]. field.
  - intros _. cbn [arow]. rewrite (rsum_ext s _ (fun l => (v1 * bb m 1) * (dl 0 l * cc m l))) by (intros; ring). rewrite rsum_scal, (dl_sum s 0 (cc m)) by lia.
    rewrite cc_0. cbn [d2T]. field.
  - intros n A B H. rewrite (arow_sum s (cc m)) by lia. rewrite A, B by lia. rewrite cc_0. pose proof (w_gt m Hm). pose proof (bb_pos m Hm n). pose proof (bb_pos m Hm (S n)).
    unfold mus_, mu_, nu_, aa, cc. replace (S (S n) - 1)%nat with (S n) by lia. replace (S (S n) - 2)%nat with n by lia. rewrite d2T_SS. field. lra.
Qed.
Lemma row_m_cc s : (m < s)%nat -> rsum s (fun l => arow m l * cc m l) = 1 / 2.
Proof.
  intros H. rewrite row_cc by lia. pose proof (w_gt m Hm). unfold bb, w1T. destruct m as [|[|k]] eqn:E; [lia|lia|]. rewrite <- E in *. unfold bT.
  pose proof (dT_pos m w ltac:(lra) ltac:(lia)). pose proof (d2T_pos m w ltac:(lra) Hm). field. lra.
Qed.

(** order two, and weights of the error estimate *)
Definition ew (l : nat) : R := - (8/10) * arow m l + 4/10 * (dl 0 l + dl m l).
Lemma sw0 s A i : stage_weight s (fun _ _ => 0) A (cc m) [] i = 1. Proof. reflexivity. Qed.
Lemma swL s A i : stage_weight s (fun _ _ => 0) A (cc m) [L] i = cc m i. Proof. unfold stage_weight, wf. cbn. ring. Qed.
Lemma swV s i : (2 < s)%nat -> (i < s)%nat -> stage_weight s (fun _ _ => 0) arow (cc m) [V []] i = cc m i.
Proof. intros Hs Hi. unfold stage_weight, wf. cbn [fold_right Trees.w isize]. unfold st_op. rewrite row_c by assumption. ring. Qed.
Lemma order2 : order_V false true (S m) (fun _ _ => 0) arow (cc m) (arow m) 1 2.
Proof.
  intros n fs Hn Hin. pose proof (row_c (S m) m ltac:(lia) ltac:(lia)) as R1. rewrite cc_m in R1 by exact Hm. pose proof (row_m_cc (S m) ltac:(lia)) as R2.
  destruct n as [|[|n]]; [| |lia].
  - assert (E : FOREST false true 0 = [[]]) by (vm_compute; reflexivity). rewrite E in Hin. destruct Hin as [<-|[]].
    unfold exact_weight, wf. cbn [fold_right]. rewrite (rsum_ext (S m) _ (fun l => arow m l * 1)) by (intros; rewrite sw0; reflexivity). rewrite R1. cbn [INR]. field.
  - assert (E : FOREST false true 1 = [[L]; [V []]]) by (vm_compute; reflexivity). rewrite E in Hin. destruct Hin as [<-|[<-|[]]].
    + unfold exact_weight, wf. cbn [fold_right Trees.w]. rewrite (rsum_ext (S m) _ (fun l => arow m l * cc m l)) by (intros; rewrite swL; reflexivity). rewrite R2. cbn [INR pow]. field.
    + unfold exact_weight, wf. cbn [fold_right Trees.w isize]. unfold ex_V. cbn [INR]. rewrite (rsum_ext (S m) _ (fun l => arow m l * cc m l)) by (intros; rewrite swV by lia; reflexivity).
      rewrite R2. cbn [INR pow Nat.add]. field.
Qed.
Lemma ew_sum (x : nat -> R) : rsum (S m) (fun l => ew l * x l) = - (8/10) * rsum (S m) (fun l => arow m l * x l) + 4/10 * (x 0%nat + x m).
Proof.
  rewrite <- (dl_sum (S m) 0 x), <- (dl_sum (S m) m x) by lia. rewrite <- rsum_plus, <- !rsum_scal, <- rsum_plus. apply rsum_ext. intros l _. unfold ew. ring.
Qed.
Lemma order2_est : order_Z false true (S m) (fun _ _ => 0) arow (cc m) ew 2.
Proof.
  intros n fs Hn Hin. pose proof (row_c (S m) m ltac:(lia) ltac:(lia)) as R1. rewrite cc_m in R1 by exact Hm. pose proof (row_m_cc (S m) ltac:(lia)) as R2.
  destruct n as [|[|n]]; [| |lia].
  - assert (E : FOREST false true 0 = [[]]) by (vm_compute; reflexivity). rewrite E in Hin. destruct Hin as [<-|[]].
    rewrite (rsum_ext (S m) _ (fun l => ew l * 1)) by (intros; rewrite sw0; reflexivity). rewrite (ew_sum (fun _ => 1)), R1. field.
  - assert (E : FOREST false true 1 = [[L]; [V []]]) by (vm_compute; reflexivity). rewrite E in Hin.
    assert (X : rsum (S m) (fun l => ew l * cc m l) = 0) by (rewrite (ew_sum (cc m)), R2, cc_0, cc_m by exact Hm; field).
    destruct Hin as [<-|[<-|[]]].
    + rewrite (rsum_ext (S m) _ (fun l => ew l * cc m l)) by (intros; rewrite swL; reflexivity). exact X.
    + rewrite (rsum_ext (S m) _ (fun l => ew l * cc m l)) by (intros; rewrite swV by lia; reflexivity). exact X.
Qed.

(** the intermediate values are those of the Runge-Kutta method *)
Variable F : R -> list R -> list R.
Variables (t h : R) (y : list R) (d : nat).
Variable g : num RX -> list (num RX) -> list (num RX).
Hypothesis HL : lifts d F g.
Hypothesis Hy : length y = d.
Notation rkY' := (rkY m F t h y (F t y)).
Notation ks n := (rstages F arow (cc m) t y h n).
Lemma rkY_rk s j : (2 < s)%nat -> (j < s)%nat -> (forall q, (q < d)%nat -> nth q (rkY' j) 0 = nth q y 0 + h * lcomb s (arow j) (ks s) q) /\ nth j (ks s) [] = F (t + h * cc m j) (rkY' j).
Proof.
  intros Hs. pose proof (proj1 (HL t y Hy)) as Lf. pose proof (rkY_len m F t h y (F t y) d g HL Hy Lf) as Len.
  assert (STG : forall j, (j < s)%nat -> (forall q, (q < d)%nat -> nth q (rkY' j) 0 = nth q y 0 + h * lcomb s (arow j) (ks s) q) -> nth j (ks s) [] = F (t + h * cc m j) (rkY' j)).
  { intros i Hi H. rewrite rstages_nth by exact Hi. rewrite (Rmult_comm h). f_equal. rewrite Hy. apply (nth_ext _ _ 0 0).
    - unfold rpoint. rewrite map_length, seq_length. symmetry. apply Len.
    - intros q Hq. unfold rpoint in Hq. rewrite map_length, seq_length in Hq. rewrite H by exact Hq. unfold rpoint. rewrite nth_map_seq by exact Hq.
      rewrite (lcomb_prefix F arow (cc m) t y h s) by lia. rewrite (lcomb_zero_tail i s) by (try lia; intros; apply arow_low; assumption). reflexivity. }
  assert (S0 : nth 0 (ks s) [] = F t y).
  { rewrite STG by (try lia; intros q Hq; cbn [rkY]; unfold lcomb; rewrite rsum_zero by (intros; cbn [arow]; ring); ring). cbn [rkY]. rewrite cc_0. f_equal. ring. }
  apply (two_step (fun j => (j < s)%nat -> (forall q, (q < d)%nat -> nth q (rkY' j) 0 = nth q y 0 + h * lcomb s (arow j) (ks s) q) /\ nth j (ks s) [] = F (t + h * cc m j) (rkY' j))).
  - intros H. match goal with |- ?P /\ _ => enough (X : P) by (split; [exact X|apply STG; assumption]) end.
    intros q Hq. cbn [rkY]. unfold lcomb. rewrite rsum_zero by (intros; cbn [arow]; ring). ring.
  - intros H. match goal with |- ?P /\ _ => enough (X : P) by (split; [exact X|apply STG; assumption]) end.
    intros q Hq. cbn [rkY]. rewrite radd_nth by (rewrite rscal_len; congruence). rewrite rscal_nth. unfold lcomb. cbn [arow].
    rewrite (rsum_ext s _ (fun l => v1 * bb m 1 * (dl 0 l * nth q (nth l (ks s) []) 0))) by (intros; ring).
    rewrite rsum_scal, (dl_sum s 0 (fun l => nth q (nth l (ks s) []) 0)) by lia. rewrite S0. ring.
  - intros n A B H. destruct (A ltac:(lia)) as [A1 A2]. destruct (B ltac:(lia)) as [B1 B2]. clear A B.
    match goal with |- ?P /\ _ => enough (X : P) by (split; [exact X|apply STG; assumption]) end.
    intros q Hq. rewrite rkY_SS. unfold rstage. pose proof (Len n) as L0. pose proof (Len (S n)) as L1. pose proof (proj1 (HL (t + h * cc m (S n)) _ L1)) as L2.
    rewrite radd_nth by (rewrite !radd_len; rewrite ?radd_len; rewrite ?rscal_len, ?rsub_len; rewrite ?rscal_len; congruence).
    rewrite radd_nth by (rewrite radd_len; rewrite ?rscal_len; congruence). rewrite radd_nth by (rewrite !rscal_len; congruence).
    rewrite !rscal_nth. rewrite rsub_nth by (rewrite rscal_len; congruence). rewrite rscal_nth. rewrite A1, B1 by exact Hq. rewrite <- B2, <- S0.
    unfold lcomb. rewrite (arow_sum s (fun l => nth q (nth l (ks s) []) 0)) by lia. ring.
Qed.
End Tab.

(** accuracy: the new value and the error estimate of one step *)
Theorem rkc_accurate_real m d F t0 y0 Y g : (2 <= m)%nat -> lifts d F g -> length y0 = d -> smooth_at 2 F t0 y0 -> solves F t0 y0 Y ->
  exists C del, 0 < del /\ forall h, Rabs h < del -> forall q, (q < d)%nat ->
    let yn := rkY m F t0 h y0 (F t0 y0) m in
    Rabs (nth q yn 0 - nth q (Y (t0 + h)) 0) <= C * Rabs h ^ 3 /\
    Rabs (8/10 * (nth q y0 0 - nth q yn 0) + 4/10 * h * (nth q (F t0 y0) 0 + nth q (F (t0 + h) yn) 0)) <= C * Rabs h ^ 3.
Proof.
  intros Hm HL Hy HF HY.
  destruct (weights_bound (S m) (arow m m)) as (B & HB & Hb).
  destruct (uniform_q d 3 (fun th => th = 1) (fun q th h => nth q y0 0 + h * lcomb (S m) (arow m m)
     (rstages F (arow m) (cc m) t0 y0 h (S m)) q - nth q (Y (t0 + th * h)) 0)) as (C1 & d1 & Hd1 & H1).
  { intros q Hq. apply (rk_order F t0 y0 2 HF Y HY (S m) (arow m) (cc m) (arow_low m Hm) (fun th => th = 1) (fun _ => arow m m) B 2 q); try lia; auto.
    intros th ->. split; [rewrite Rabs_R1; lra|]. split; [exact Hb|apply order2; exact Hm]. }
  destruct (uniform_q d 3 (fun _ : unit => True) (fun q _ h => h * lcomb (S m) (ew m)
     (rstages F (arow m) (cc m) t0 y0 h (S m)) q)) as (C2 & d2 & Hd2 & H2).
  { intros q Hq. destruct (rk_small F t0 y0 2 HF (S m) (arow m) (cc m) (arow_low m Hm) (ew m) 2 q) as (C & del & Hd & H); try lia; auto.
    - apply order2_est; exact Hm.
    - exists C, del. split; auto. }
  exists (Rmax C1 C2), (Rmin d1 d2). split; [apply Rmin_case; auto|]. intros h Hh q Hq. cbv zeta.
  assert (A1 : Rabs h < d1) by (eapply Rlt_le_trans; [exact Hh|apply Rmin_l]).
  assert (A2 : Rabs h < d2) by (eapply Rlt_le_trans; [exact Hh|apply Rmin_r]).
  assert (P : 0 <= Rabs h ^ 3) by (apply pow_le, Rabs_pos).
  destruct (rkY_rk m Hm F t0 h y0 d g HL Hy (S m) m ltac:(lia) ltac:(lia)) as [E1 E2].
  destruct (rkY_rk m Hm F t0 h y0 d g HL Hy (S m) 0 ltac:(lia) ltac:(lia)) as [_ E0].
  rewrite cc_m in E2 by exact Hm. rewrite Rmult_1_r in E2. rewrite cc_0, Rmult_0_r, Rplus_0_r in E0. cbn [rkY] in E0.
  split.
  - rewrite E1 by exact Hq. specialize (H1 1 h eq_refl A1 q Hq). rewrite Rmult_1_l in H1. eapply Rle_trans; [exact H1|]. apply Rmult_le_compat_r; [exact P|apply Rmax_l].
  - rewrite <- E2. rewrite E1 by exact Hq. rewrite <- E0. specialize (H2 tt h I A2 q Hq). cbv beta in H2. unfold lcomb in H2 at 1.
    rewrite (ew_sum m Hm (fun l => nth q (nth l (rstages F (arow m) (cc m) t0 y0 h (S m)) []) 0)) in H2.
    eapply Rle_trans; [|eapply Rle_trans; [exact H2|apply Rmult_le_compat_r; [exact P|apply Rmax_r]]].
    right. f_equal. unfold lcomb. ring.
Qed.
