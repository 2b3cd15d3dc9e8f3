(** C58: the steps of SSV2stab, with any number of stages up to N, as one-step method of order two
    on and near a trajectory. *)
From Coquelicot Require Import Coquelicot.
From Coq Require Import String ZArith Reals Lra Psatz QArith Qreals Bool Lia List Arith.
From Verif Require Import Series Arith Common Stiff RK QX RX SpecRK HStart RKInit RKReal RKStep HStartReal RKInitReal NormReal Prop_Tol Ode Dense Trees OrderThm OrderRK OrderModel DenseReal DenseJoin DenseJoin2 Smooth SwagArr Rkc RkcGen Cheb RkcReal RkcOrd RkcRho RkcStep RkcTop GOrder UOrder UOrder2 GDense UDense GlobalRK GlobalRun GlobalDense GlobalAny.
Import ListNotations.
Close Scope string_scope. Open Scope nat_scope. Open Scope R_scope.

(** the coefficients of the method with m stages *)
Lemma rkc_method m : (2 <= m)%nat -> exists W (M : method (S m) 2 W), mA M = arow m /\ mb M = arow m m /\ mc M = cc m /\ meps M = 0.
Proof.
  intros Hm. destruct (matrix_bound (S m) (arow m)) as (W1 & HW1 & B1). destruct (weights_bound (S m) (arow m m)) as (W2 & HW2 & B2). destruct (weights_bound (S m) (cc m)) as (W3 & HW3 & B3).
  pose proof (Rmax_l W1 (Rmax W2 W3)) as U1. assert (U2 : W2 <= Rmax W1 (Rmax W2 W3)) by (eapply Rle_trans; [apply Rmax_l|apply Rmax_r]). assert (U3 : W3 <= Rmax W1 (Rmax W2 W3)) by (eapply Rle_trans; [apply Rmax_r|apply Rmax_r]).
  exists (Rmax W1 (Rmax W2 W3)). unshelve eexists (Build_method (S m) 2 _ (arow m) (arow m m) (cc m) 0 _ _ _ _ _ _).
  - intros i l H. apply arow_low; auto.
  - intros i l Hi Hl. eapply Rle_trans; [apply B1; auto|exact U1].
  - intros i Hi. eapply Rle_trans; [apply B2; auto|exact U2].
  - intros i Hi. eapply Rle_trans; [apply B3; auto|exact U3].
  - lra.
  - apply order_near. apply order2. exact Hm.
  - cbn. auto.
Qed.

Section Contract.
Variables (d : nat) (F : R -> list R -> list R) (g : num RX -> list (num RX) -> list (num RX)) (lo hi : R) (Y : R -> list R).
Hypothesis HL : lifts d F g.
Hypothesis HY : solution_on d F lo hi Y.
Hypothesis HS : smooth_along 2 d F lo hi Y.
Lemma lifts_len t y : length y = d -> length (F t y) = d.
Proof. intros H. apply (HL t y H). Qed.

(** a step with some number of stages up to N *)
Definition cheb_step (N : nat) (t : R) (y : list R) (h : R) (y' : list R) : Prop := exists m, (2 <= m <= N)%nat /\ y' = rkY m F t h y (F t y) m.

Lemma rkY_step m t h y : (2 <= m)%nat -> forall W (M : method (S m) 2 W), mA M = arow m -> mb M = arow m m -> mc M = cc m -> length y = d ->
  rkY m F t h y (F t y) m = rk_step F d M t y h.
Proof.
  intros Hm W M E1 E2 E3 Ly. unfold rk_step. rewrite E1, E2, E3. apply (nth_ext _ _ 0 0).
  - rewrite rpoint_length. apply (rkY_len m F t h y (F t y) d g HL Ly (lifts_len t y Ly)).
  - intros q Hq. rewrite (rkY_len m F t h y (F t y) d g HL Ly (lifts_len t y Ly)) in Hq.
    destruct (rkY_rk m Hm F t h y d g HL Ly (S m) m ltac:(lia) ltac:(lia)) as [E _]. rewrite (E q Hq).
    unfold rpoint. rewrite nth_map_seq by exact Hq. reflexivity.
Qed.

Lemma one_m L r : lipschitz_near d F lo hi Y L r -> forall m, (2 <= m)%nat -> exists Lam C del, 0 <= Lam /\ 0 <= C /\ 0 < del /\
  forall t y h e, lo <= t <= hi -> length y = d -> Rabs h < del -> 0 <= e <= r / 4 -> close d y (Y t) e ->
    close d (rkY m F t h y (F t y) m) (Y (t + h)) ((1 + Rabs h * Lam) * e + C * (0 * Rabs h + Rabs h ^ 3)).
Proof.
  intros HLip m Hm. destruct (rkc_method m Hm) as (W & M & E1 & E2 & E3 & E4).
  destruct (local_error d 2 F lo hi Y HY (S m) W HS) as (C1 & d2 & HC1 & Hd2 & Hloc).
  destruct (stability d 2 F lo hi Y HY (S m) W HS L r HLip) as (d1 & Hd1 & Hst).
  exists (Lamb (S m) W L), C1, (Rmin d1 d2). split. { unfold Lamb. pose proof (pos_INR (S m)); pose proof (Rabs_pos W). destruct HLip as (HL0 & _). repeat apply Rmult_le_pos; lra. }
  split; [exact HC1|]. split; [apply Rmin_case; auto|]. intros t y h e Ht Ly Hh He Hy.
  rewrite (rkY_step m t h y Hm W M E1 E2 E3 Ly).
  pose proof (Hst t M y h e Ht Ly ltac:(eapply Rlt_le_trans; [exact Hh|apply Rmin_l]) He Hy) as S1.
  pose proof (Hloc t M h Ht ltac:(eapply Rlt_le_trans; [exact Hh|apply Rmin_r])) as S2. rewrite E4 in S2.
  exact (close_trans _ _ _ _ _ _ S1 S2).
Qed.

Lemma all_m L r : lipschitz_near d F lo hi Y L r -> forall N, exists Lam C del, 0 <= Lam /\ 0 <= C /\ 0 < del /\
  one_step d 2 lo hi Y (cheb_step N) Lam C 0 (r / 4) del.
Proof.
  intros HLip N. assert (Hr : 0 < r) by apply HLip. induction N as [|N (Lam & C & del & H1 & H2 & H3 & H4)].
  - exists 0, 0, 1. split; [lra|]. split; [lra|]. split; [lra|]. intros t y h y' e _ _ _ _ _ _ (m & Hm & _). lia.
  - destruct (le_lt_dec 2 (S N)) as [HN|HN].
    2:{ exists Lam, C, del. split; [auto|]. split; [auto|]. split; [auto|]. intros t y h y' e _ _ _ _ _ _ (m & Hm & _). lia. }
    destruct (one_m L r HLip (S N) HN) as (Lam' & C' & del' & H1' & H2' & H3' & H4').
    exists (Rmax Lam Lam'), (Rmax C C'), (Rmin del del'). split; [eapply Rle_trans; [exact H1|apply Rmax_l]|]. split; [eapply Rle_trans; [exact H2|apply Rmax_l]|]. split; [apply Rmin_case; auto|].
    intros t y h y' e Ht Ht' Ly Hh He Hy (m & Hm & E).
    assert (B : forall l c, l <= Rmax Lam Lam' -> c <= Rmax C C' -> (1 + Rabs h * l) * e + c * (0 * Rabs h + Rabs h ^ 3) <= (1 + Rabs h * Rmax Lam Lam') * e + Rmax C C' * (0 * Rabs h + Rabs h ^ 3)).
    { intros l c Q1 Q2. pose proof (Rabs_pos h) as Hh0. assert (0 <= Rabs h ^ 3) by (apply pow_le; auto). apply Rplus_le_compat; [apply Rmult_le_compat_r; [lra|]; apply Rplus_le_compat_l, Rmult_le_compat_l; auto|apply Rmult_le_compat_r; lra]. }
    destruct (Nat.eq_dec m (S N)) as [->|Hne].
    + subst y'. split; [apply (rkY_len (S N) F t h y (F t y) d g HL Ly (lifts_len t y Ly))|].
      eapply close_le; [apply (H4' t y h e Ht Ly ltac:(eapply Rlt_le_trans; [exact Hh|apply Rmin_r]) He Hy)|apply B; apply Rmax_r].
    + destruct (H4 t y h y' e Ht Ht' Ly ltac:(eapply Rlt_le_trans; [exact Hh|apply Rmin_l]) He Hy) as (Q1 & Q2).
      { exists m. split; [lia|exact E]. }
      split; [exact Q1|]. eapply close_le; [exact Q2|apply B; apply Rmax_l].
Qed.

Theorem cheb_global N : lipschitz_along d F lo hi Y -> exists C del, 0 <= C /\ 0 < del /\ forall H ta t y, 0 <= H < del -> lo <= ta <= hi ->
  spath lo hi Y (cheb_step N) H ta t y -> length y = d /\ lo <= t <= hi /\ close d y (Y t) (C * H ^ 2).
Proof.
  intros (L & r & HLip). destruct (all_m L r HLip N) as (Lam & C & del & H1 & H2 & H3 & H4).
  assert (Hr : 0 < r) by apply HLip.
  destruct (global_any_del d 2 lo hi Y (Y_len d F lo hi Y HY) (cheb_step N) Lam C 0 (r / 4) del H1 H2 ltac:(lra) ltac:(lra) H3 ltac:(lia) ltac:(rewrite Rmult_0_r; lra) H4) as (del' & Hd' & H5).
  exists (C * growth lo hi Lam), del'. split; [apply Rmult_le_pos; auto; unfold growth; apply Rmult_le_pos; [apply Rabs_pos|left; apply exp_pos]|]. split; [auto|].
  intros H ta t y HH Hta HP. destruct (H5 H ta t y HH Hta HP) as (Q1 & Q2 & Q3). split; [auto|]. split; [auto|]. rewrite Rplus_0_l in Q3. exact Q3.
Qed.
End Contract.

(** ** dense output *)
(** the cubic that joins the ends of the step, as weights of the slopes *)
Definition cw (m : nat) (th : R) (i : nat) : R := th * th * (3 - 2 * th) * arow m m i + th * ((1 - th) * (1 - th)) * dl 0 i + th * th * (th - 1) * dl m i.
Lemma cw_sum m th (x : nat -> R) : (2 <= m)%nat -> rsum (S m) (fun i => cw m th i * x i) = th * th * (3 - 2 * th) * rsum (S m) (fun i => arow m m i * x i) + th * ((1 - th) * (1 - th)) * x 0%nat + th * th * (th - 1) * x m.
Proof.
  intros Hm. rewrite <- (dl_sum m Hm (S m) 0 x) by lia. rewrite <- (dl_sum m Hm (S m) m x) by lia. rewrite <- !rsum_scal, <- !rsum_plus. apply rsum_ext. intros i _. unfold cw. ring.
Qed.
Lemma cw_order m th : (2 <= m)%nat -> order_V false true (S m) (fun _ _ => 0) (arow m) (cc m) (cw m th) th 2.
Proof.
  intros Hm n fs Hn Hin. pose proof (row_c m Hm (S m) m ltac:(lia) ltac:(lia)) as R1. rewrite cc_m in R1 by exact Hm. pose proof (row_m_cc m Hm (S m) ltac:(lia)) as R2.
  assert (X : rsum (S m) (fun l => cw m th l * cc m l) = th * th / 2) by (rewrite (cw_sum m th (cc m) Hm), R2, cc_0, cc_m by exact Hm; field).
  destruct n as [|[|n]]; [| |lia].
  - assert (E : FOREST false true 0 = [[]]) by (vm_compute; reflexivity). rewrite E in Hin. destruct Hin as [<-|[]].
    unfold exact_weight, wf. cbn [fold_right]. rewrite (rsum_ext (S m) _ (fun l => cw m th l * 1)) by (intros; rewrite sw0; reflexivity). rewrite (cw_sum m th (fun _ => 1) Hm), R1. cbn [INR pow]. field.
  - assert (E : FOREST false true 1 = [[L]; [V []]]) by (vm_compute; reflexivity). rewrite E in Hin. destruct Hin as [<-|[<-|[]]].
    + unfold exact_weight, wf. cbn [fold_right Trees.w]. rewrite (rsum_ext (S m) _ (fun l => cw m th l * cc m l)) by (intros; rewrite swL; reflexivity). rewrite X. cbn [INR pow]. field.
    + unfold exact_weight, wf. cbn [fold_right Trees.w isize]. unfold ex_V. cbn [INR]. rewrite (rsum_ext (S m) _ (fun l => cw m th l * cc m l)) by (intros; rewrite (swV m Hm) by lia; reflexivity).
      rewrite X. cbn [INR pow Nat.add]. field.
Qed.
Lemma cw_bounded m : wbounded (S m) (cw m).
Proof.
  destruct (weights_bound (S m) (arow m m)) as (B & HB & Hb). exists (B * 3 + 2). split; [lra|]. intros th i Hth Hi.
  assert (D : forall k, Rabs (dl k i) <= 1) by (intros k; unfold dl; destruct (Nat.eqb i k); rewrite ?Rabs_R1, ?Rabs_R0; lra).
  assert (A1 : Rabs (th * th * (3 - 2 * th)) <= 3) by (rewrite Rabs_pos_eq by nra; nra).
  assert (A2 : Rabs (th * ((1 - th) * (1 - th))) <= 1) by (assert (0 <= (1 - th) * (1 - th) <= 1) by nra; rewrite Rabs_pos_eq by nra; nra).
  assert (A3 : Rabs (th * th * (th - 1)) <= 1) by (assert (0 <= th * th <= 1) by nra; rewrite Rabs_left1 by nra; nra).
  assert (M1 : forall u v x, Rabs u <= x -> 0 <= x -> Rabs v <= 1 -> Rabs (u * v) <= x).
  { intros u v x U1 U2 U3. rewrite Rabs_mult, <- (Rmult_1_r x). apply Rmult_le_compat; try apply Rabs_pos; auto. }
  assert (M2 : Rabs (th * th * (3 - 2 * th) * arow m m i) <= B * 3) by (rewrite Rabs_mult, (Rmult_comm B); apply Rmult_le_compat; try apply Rabs_pos; auto).
  unfold cw. eapply Rle_trans; [apply Rabs_triang|]. replace (B * 3 + 2) with (B * 3 + 1 + 1) by ring. apply Rplus_le_compat; [|apply M1; auto; lra].
  eapply Rle_trans; [apply Rabs_triang|]. apply Rplus_le_compat; [exact M2|apply M1; auto; lra].
Qed.

Section DenseOut.
Variables (d : nat) (F : R -> list R -> list R) (g : num RX -> list (num RX) -> list (num RX)) (lo hi : R) (Y : R -> list R).
Hypothesis HL : lifts d F g.
Hypothesis HY : solution_on d F lo hi Y.
Hypothesis HS : smooth_along 2 d F lo hi Y.
(** the value of the cubic at the fraction th of a step *)
Definition chermite (t : R) (y : list R) (h : R) (y1 : list R) (th : R) (q : nat) : R :=
  cubic t h (nth q y 0) (nth q (F t y) 0) (nth q y1 0) (nth q (F (t + h) y1) 0) (t + th * h).
Lemma chermite_point m t y h th q : (2 <= m)%nat -> length y = d -> (q < d)%nat -> h <> 0 ->
  chermite t y h (rkY m F t h y (F t y) m) th q = point (S m) F (arow m) (cc m) (cw m) t y h th q.
Proof.
  intros Hm Ly Hq Hh. unfold chermite, cubic, point, lcomb. cbv zeta. replace ((t + th * h - t) / h) with th by (field; exact Hh).
  destruct (rkY_rk m Hm F t h y d g HL Ly (S m) m ltac:(lia) ltac:(lia)) as [E1 E2].
  destruct (rkY_rk m Hm F t h y d g HL Ly (S m) 0 ltac:(lia) ltac:(lia)) as [_ E0].
  rewrite cc_m in E2 by exact Hm. rewrite Rmult_1_r in E2. rewrite cc_0, Rmult_0_r, Rplus_0_r in E0. cbn [rkY] in E0.
  rewrite (E1 q Hq). rewrite <- E2. rewrite <- E0. rewrite (cw_sum m th (fun i => nth q (nth i (rstages F (arow m) (cc m) t y h (S m)) []) 0) Hm). unfold lcomb. ring.
Qed.
Lemma cheb_dense_all L r : lipschitz_near d F lo hi Y L r -> forall N, exists C del, 0 <= C /\ 0 < del /\
  forall t y h y1 th e, lo <= t <= hi -> length y = d -> h <> 0 -> Rabs h < del -> 0 <= e <= r / 4 -> close d y (Y t) e -> cheb_step F N t y h y1 -> 0 <= th <= 1 ->
  forall q, (q < d)%nat -> Rabs (chermite t y h y1 th q - nth q (Y (t + th * h)) 0) <= C * (e + Rabs h ^ 3).
Proof.
  intros HLip N. induction N as [|N (C & del & H2 & H3 & H4)].
  - exists 0, 1. split; [lra|]. split; [lra|]. intros t y h y1 th e _ _ _ _ _ _ (m & Hm & _). lia.
  - destruct (le_lt_dec 2 (S N)) as [HN|HN].
    2:{ exists C, del. split; [auto|]. split; [auto|]. intros t y h y1 th e _ _ _ _ _ _ (m & Hm & _). lia. }
    destruct (dense_close d 2 (S (S N)) F lo hi Y HY HS (arow (S N)) (cc (S N)) (cw (S N)) 0 (arow_low (S N) HN) (cw_bounded (S N)) (Rle_refl 0)
      (order_dense _ _ _ _ _ (fun th _ => cw_order (S N) th HN)) L r HLip) as (C' & del' & H2' & H3' & H4').
    exists (Rmax C C'), (Rmin del del'). split; [eapply Rle_trans; [exact H2|apply Rmax_l]|]. split; [apply Rmin_case; auto|].
    intros t y h y1 th e Ht Ly Hh0 Hh He Hy (m & Hm & E) Hth q Hq. assert (P3 : 0 <= Rabs h ^ 3) by (apply pow_le, Rabs_pos).
    destruct (Nat.eq_dec m (S N)) as [->|Hne].
    + subst y1. rewrite (chermite_point (S N) t y h th q HN Ly Hq Hh0). eapply Rle_trans; [apply (H4' q t y h th e Hq Ht Ly Hth ltac:(eapply Rlt_le_trans; [exact Hh|apply Rmin_r]) He Hy)|].
      rewrite Rmult_0_l, Rplus_0_r. apply Rmult_le_compat_r; [lra|apply Rmax_r].
    + eapply Rle_trans; [apply (H4 t y h y1 th e Ht Ly Hh0 ltac:(eapply Rlt_le_trans; [exact Hh|apply Rmin_l]) He Hy); auto; exists m; split; [lia|exact E]|].
      apply Rmult_le_compat_r; [lra|apply Rmax_l].
Qed.
End DenseOut.
