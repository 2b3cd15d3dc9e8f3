(** Interpolants of steps that start near a trajectory, and of solver runs. *)
From Coq Require Import String Reals Lra Psatz QArith Qreals Lia List Arith Bool.
From Verif Require Import Arith Common RK RKGen RKHist RX SpecRK RKSpecProofs RKReal RKInit RKInitReal RKStep RKBuilt RKMore RKTop Classes Tableaux Series Trees OrderThm OrderCheck
  OrderRK OrderRKN OrderModel OrderPair Dense DenseReal DenseStep DenseAcc DenseNear GOrder GDense GDenseCheck Balls BallTab NearPair UOrder UOrder2 UDense GlobalRK GlobalRun GlobalEst.
Import ListNotations.
Close Scope string_scope.
Open Scope nat_scope.
Open Scope R_scope.

(** ** interpolants as weights *)
(** conditions of the weights w th of N stages (A, c) for all th in [0, 1], up to eps *)
Notation dense1 N A c eps w p := (dense_V false true N (fun _ _ => 0) A c eps w p).

Lemma uniform_bound d (Q : nat -> R -> R -> Prop) : (forall q C C' del del', Q q C del -> C <= C' -> 0 < del' <= del -> Q q C' del') ->
  (forall q, (q < d)%nat -> exists C del, 0 <= C /\ 0 < del /\ Q q C del) -> exists C del, 0 <= C /\ 0 < del /\ forall q, (q < d)%nat -> Q q C del.
Proof.
  intros HM H.
  assert (G : forall n, (n <= d)%nat -> exists C del, 0 <= C /\ 0 < del /\ forall q, (q < n)%nat -> Q q C del).
  { induction n as [|n IH]; intros Hn; [exists 0, 1; split; [lra|]; split; [lra|]; intros; lia|].
    destruct IH as (C1 & d1 & HC1 & Hd1 & H1); [lia|]. destruct (H n ltac:(lia)) as (C2 & d2 & HC2 & Hd2 & H2).
    exists (C1 + C2), (Rmin d1 d2). split; [lra|]. split; [apply Rmin_case; auto|]. intros q Hq.
    assert (P : 0 < Rmin d1 d2) by (apply Rmin_case; auto).
    destruct (Nat.eq_dec q n) as [->|Hne]; [apply (HM n C2 _ d2); auto; [lra|split; [auto|apply Rmin_r]]|].
    apply (HM q C1 _ d1); [apply H1; lia|lra|split; [auto|apply Rmin_l]]. }
  exact (G d (le_n d)).
Qed.

Section Near.
Variables (d p N : nat) (F : R -> list R -> list R) (lo hi : R) (Y : R -> list R).
Hypothesis HY : solution_on d F lo hi Y.
Hypothesis HS : smooth_along p d F lo hi Y.
Variables (A : nat -> nat -> R) (c : nat -> R) (w : R -> nat -> R) (eps : R).
Hypothesis HA : forall i l, (i <= l)%nat -> A i l = 0.
Hypothesis Hw : wbounded N w.
Hypothesis Heps : 0 <= eps.
Hypothesis HO : dense1 N A c eps w p.

Lemma as_method : exists W (M : method N p W), mA M = A /\ mc M = c.
Proof.
  destruct (matrix_bound N A) as (B1 & HB1 & H1). destruct (weights_bound N c) as (B3 & HB3 & H3). destruct Hw as (B2 & HB2 & H2).
  unshelve eexists (B1 + B2 + B3), {| mA := A; mb := w 1; mc := c; meps := eps |}; auto.
  - intros i l Hi Hl. specialize (H1 i l Hi Hl). lra.
  - intros i Hi. specialize (H2 1 i ltac:(lra) Hi). lra.
  - intros i Hi. specialize (H3 i Hi). lra.
  - intros n fs Hn Hf. specialize (HO 1 n fs ltac:(lra) Hn Hf). rewrite pow1 in HO.
    replace (exact_weight fs / INR (S n)) with (1 / INR (S n) * exact_weight fs) by (unfold Rdiv; ring). exact HO.
Qed.

Definition point (t : R) (y : list R) (h th : R) (q : nat) : R := nth q y 0 + h * lcomb N (w th) (rstages F A c t y h N) q.

Lemma dense_on : exists C del, 0 <= C /\ 0 < del /\ forall q, (q < d)%nat -> forall t th h, lo <= t <= hi -> 0 <= th <= 1 -> Rabs h < del ->
  Rabs (point t (Y t) h th q - nth q (Y (t + th * h)) 0) <= C * (eps * Rabs h + Rabs h ^ S p).
Proof.
  apply (uniform_bound d (fun q C del => forall t th h, lo <= t <= hi -> 0 <= th <= 1 -> Rabs h < del ->
    Rabs (point t (Y t) h th q - nth q (Y (t + th * h)) 0) <= C * (eps * Rabs h + Rabs h ^ S p))).
  { intros q C C' del del' H HC Hd t th h Ht Hth Hh. eapply Rle_trans; [apply H; auto; lra|]. apply Rmult_le_compat_r; [|auto].
    apply Rplus_le_le_0_compat; [apply Rmult_le_pos; [auto|apply Rabs_pos]|apply pow_le, Rabs_pos]. }
  intros q Hq. destruct as_method as (W & M & EA & Ec).
  set (B2 := {t : R | lo <= t <= hi}). set (phi := fun b : B2 => ((b, M) : base p lo hi N W)).
  assert (PO : forall n f, GOrder.Oh (base p lo hi N W * R) snd n f -> GOrder.Oh (B2 * R) snd n (fun i => f (phi (fst i), snd i))).
  { intros n f (C & del & Hd & H). exists C, del. split; [auto|]. intros (b & h) Hh. exact (H (phi b, h) Hh). }
  destruct (bHT d p F lo hi Y N W HS) as (T & HT).
  assert (HT2 : utaylor (B2 * R) snd (S d) d (fo F d) (fun i => pt (proj1_sig (fst i)) (Y (proj1_sig (fst i)))) (fun i => T (phi (fst i))) p).
  { intros q' Hq'. destruct (HT q' Hq') as (X1 & C & del & Hd & X2). split.
    - intros m js Hm Hj. exact (PO 0%nat _ (X1 m js Hm Hj)).
    - exists C, del. split; [auto|]. intros (b & h) z Hz. exact (X2 (phi b, h) z Hz). }
  destruct (bHYV d p F lo hi Y HY N W) as (d1 & Hd1 & X1). destruct (bHK d p F lo hi Y HY N W) as (d2 & Hd2 & X2). destruct (bHk d p F lo hi Y HY N W) as (d3 & Hd3 & X3).
  destruct (u_dense_V B2 false true (S d) d p (fun b => T (phi b)) (fun _ => ell1) (fun j _ => GOrder.Oh_const _ _ (ell1 j)) pu1 (pvd d) (pud_lt d) (pvd_lt d) (fo F d) (fun b => pt (proj1_sig b) (Y (proj1_sig b))) HT2
    (fun b => bK p F lo hi Y N W (phi b)) (fun b => bYV p lo hi Y N W (phi b)) (fun _ _ _ => 0)) with
      (s := N) (AU := fun (_ : B2) (_ _ : nat) => 0) (AV := fun (_ : B2) => mA M) (c := fun (_ : B2) => mc M) (W := Rabs W)
      (k := fun l i => bk p F lo hi Y N W l (phi (fst i), snd i)) (b := w) (eps := eps) (m := p) (q := q) as (C & del & HC & Hd & H); auto.
  - exists d1. split; [auto|]. intros b h Hh q' Hq'. exact (X1 (phi b) h Hh q' Hq').
  - discriminate.
  - intros q' Hq'. exact (PO 0%nat _ (bHKb d p F lo hi Y HY N W HS q' Hq')).
  - exists d2. split; [auto|]. intros b h Hh q' Hq'. exact (X2 (phi b) h Hh q' Hq').
  - intros. rewrite Rabs_R0. apply Rabs_pos.
  - intros b l l' Hl Hl'. eapply Rle_trans; [apply m_A; auto|apply Rle_abs].
  - intros b l Hl. eapply Rle_trans; [apply m_c; auto|apply Rle_abs].
  - intros l q' Hl Hq'. exact (PO 0%nat _ (bKb d p F lo hi Y HY N W HS l q' Hl Hq')).
  - exists d3. split; [auto|]. intros (b & h) Hh l q' Hl Hq'. exact (X3 (phi b, h) Hh l q' Hl Hq').
  - intros b. rewrite EA, Ec. exact HO.
  - exists C, del. split; [auto|]. split; [auto|]. intros t th h Ht Hth Hh. specialize (H (exist _ t Ht) th h Hth Hh).
    unfold bYV, bk, bt, phi in H. cbn [fst snd proj1_sig] in H. rewrite Rplus_0_r, EA, Ec in H.
    unfold point, lcomb. match goal with |- Rabs (?y + ?a - ?b) <= _ => replace (y + a - b) with (a - (b - y)) by ring end. exact H.
Qed.

(** starting within e of the trajectory *)
Lemma dense_close L r : lipschitz_near d F lo hi Y L r -> exists C del, 0 <= C /\ 0 < del /\ forall q t y h th e, (q < d)%nat -> lo <= t <= hi -> length y = d ->
  0 <= th <= 1 -> Rabs h < del -> 0 <= e <= r / 4 -> close d y (Y t) e ->
  Rabs (point t y h th q - nth q (Y (t + th * h)) 0) <= C * (e + eps * Rabs h + Rabs h ^ S p).
Proof.
  intros HL. destruct dense_on as (C1 & d1 & HC1 & Hd1 & H1). destruct as_method as (W & M & EA & Ec).
  destruct (stages_close d p F lo hi Y HY N W HS L r HL) as (B & d2 & _ & Hd2 & H2).
  destruct Hw as (Bw & HBw & Hw'). assert (HL0 : 0 <= L) by apply HL.
  set (C2 := INR N * (Bw * (2 * L))). assert (HC2 : 0 <= C2) by (unfold C2; pose proof (pos_INR N); repeat apply Rmult_le_pos; lra).
  exists (C1 + C2 + 1), (Rmin 1 (Rmin d1 d2)). split; [lra|]. split; [apply Rmin_case; [lra|apply Rmin_case; auto]|]. intros q t y h th e Hq Ht Ly Hth Hh He Hy.
  assert (A0 : Rabs h <= 1) by (left; eapply Rlt_le_trans; [exact Hh|apply Rmin_l]).
  assert (A1 : Rabs h < d1) by (eapply Rlt_le_trans; [exact Hh|eapply Rle_trans; [apply Rmin_r|apply Rmin_l]]).
  assert (A2 : Rabs h < d2) by (eapply Rlt_le_trans; [exact Hh|eapply Rle_trans; [apply Rmin_r|apply Rmin_r]]).
  specialize (H1 q Hq t th h Ht Hth A1). specialize (H2 t M y h e Ht Ly A2 He Hy). rewrite EA, Ec in H2.
  unfold point in *. set (K := rstages F A c t y h N) in *. set (K' := rstages F A c t (Y t) h N) in *.
  assert (HD : Rabs (lcomb N (w th) K q - lcomb N (w th) K' q) <= C2 * e).
  { unfold lcomb. rewrite <- rsum_sub'. unfold C2. replace (INR N * (Bw * (2 * L)) * e) with (INR N * (Bw * (2 * L * e))) by ring.
    apply rsum_bound. intros i Hi. rewrite <- Rmult_minus_distr_l, Rabs_mult. apply Rmult_le_compat; auto using Rabs_pos.
    destruct (H2 i Hi) as (H3 & _). apply (H3 q Hq). }
  specialize (Hy q Hq). pose proof (Rabs_pos h) as P.
  replace (nth q y 0 + h * lcomb N (w th) K q - nth q (Y (t + th * h)) 0)
    with ((nth q y 0 - nth q (Y t) 0) + h * (lcomb N (w th) K q - lcomb N (w th) K' q) + (nth q (Y t) 0 + h * lcomb N (w th) K' q - nth q (Y (t + th * h)) 0)) by ring.
  eapply Rle_trans; [apply Rabs_triang|]. eapply Rle_trans; [apply Rplus_le_compat_r, Rabs_triang|]. rewrite (Rabs_mult h).
  assert (HD2 : Rabs h * Rabs (lcomb N (w th) K q - lcomb N (w th) K' q) <= C2 * e).
  { rewrite <- (Rmult_1_l (C2 * e)). apply Rmult_le_compat; auto using Rabs_pos. }
  assert (Q1 : 0 <= Rabs h ^ S p) by (apply pow_le; auto). assert (Q2 : 0 <= eps * Rabs h) by (apply Rmult_le_pos; auto).
  set (x := Rabs h ^ S p) in *. set (z := eps * Rabs h) in *.
  assert (0 <= (C2 + 1) * x) by (apply Rmult_le_pos; lra). assert (0 <= (C2 + 1) * z) by (apply Rmult_le_pos; lra). assert (0 <= C1 * e) by (apply Rmult_le_pos; lra).
  nra.
Qed.
End Near.

(** ** the dense outputs of the solvers in this form *)
Definition dense_form (T : Tab RX) (impl : dimpl RX) (d N : nat) (A : nat -> nat -> R) (c : nat -> R) (w : R -> nat -> R) : Prop :=
  forall F g m cf v v' t0 y0 t1, lifts d F g -> length y0 = d -> uses_tab m T d -> made_step m cf v v' -> fn cf = g ->
    t (st v) = Fin t0 -> y (st v) = map Fin y0 -> t (st v') = Fin t1 -> t1 <> t0 ->
    exists D s', dense_output impl cf v' = DenseOk D s' /\ forall th, exists r, call D (Fin (t0 + th * (t1 - t0))) = map Fin r /\ length r = d /\
      forall q, (q < d)%nat -> nth q r 0 = point N F A c w t0 y0 (t1 - t0) th q.

Lemma xrk_form s A b c e X x P d : ext_ok s A b c X x = true -> (1 <= qcols P)%nat ->
  dense_form (mk_tab s A b c e) (dense_xrk d X x P) d (S s + length X) (mq (extA A b X)) (vq (extC c x)) (pw QN 1 (qcols P) P).
Proof.
  intros He Hc F g m cf v v' t0 y0 t1 HL Hy HU HM Hg E0 Ey E1 Hne.
  destruct (ext_ok_spec s A b c X x He) as (LA & LB & LC & Lx & C0 & _ & _ & _).
  assert (Hd : (0 < d)%nat) by (apply (y0_pos y0 d Hy); rewrite <- Ey; apply (made_step_ne m cf v v' HM)).
  destruct (made_step_real d F g s A b c e m cf v v' t0 y0 t1 HL Hy Hd LA LB LC C0 HU HM Hg E0 Ey E1) as (ks & SF & EY & EK).
  rewrite (dense_enter _ cf v v' _ ks t0 t1 SF E0 E1 Hne) by (rewrite EY, map_length, rpoint_len; lia).
  unfold dense_xrk. rewrite (sf_yold _ _ _ _ _ SF), (sf_h _ _ _ _ _ SF), E1, EK, Ey, Hg.
  set (h := t1 - t0) in *.
  destruct (extra_all d F g A b c X x t0 y0 h s (calls (st v')) HL LA LC Hy Lx) as (cl' & EX). rewrite EX.
  eexists. eexists. split; [reflexivity|]. intros th.
  pose proof (call_horner d P t0 h th (map Fin y0) _ _ _ ltac:(unfold h; lra) Hc (reals_intro d y0 Hy)
     (realsK_stages d F g (mq (extA A b X)) (vq (extC c x)) t0 y0 h (S s + length X) HL Hy)) as HR.
  replace (t0 + h) with t1 in HR by (unfold h; ring). destruct HR as (r & Er & Lr & Nr).
  exists r. split; [exact Er|]. split; [exact Lr|].
  intros q Hq. rewrite Nr by auto. rewrite map_length, rstages_length. reflexivity.
Qed.
Lemma rk_form s A b c e P d : ext_ok s A b c [] [] = true -> (1 <= qcols P)%nat ->
  dense_form (mk_tab s A b c e) (dense_rk d (lm P)) d (S s) (mq (extA A b [])) (vq (extC c [])) (pw QN 1 (qcols P) P).
Proof.
  intros He Hc F g m cf v v' t0 y0 t1 HL Hy HU HM Hg E0 Ey E1 Hne.
  destruct (ext_ok_spec s A b c [] [] He) as (LA & LB & LC & Lx & C0 & _ & _ & _).
  assert (Hd : (0 < d)%nat) by (apply (y0_pos y0 d Hy); rewrite <- Ey; apply (made_step_ne m cf v v' HM)).
  destruct (made_step_real d F g s A b c e m cf v v' t0 y0 t1 HL Hy Hd LA LB LC C0 HU HM Hg E0 Ey E1) as (ks & SF & EY & EK).
  rewrite (dense_enter _ cf v v' _ ks t0 t1 SF E0 E1 Hne) by (rewrite EY, map_length, rpoint_len; lia).
  unfold dense_rk. rewrite (sf_yold _ _ _ _ _ SF), E1, EK, Ey.
  set (h := t1 - t0) in *. eexists. eexists. split; [reflexivity|]. intros th.
  pose proof (call_horner d P t0 h th (map Fin y0) _ _ _ ltac:(unfold h; lra) Hc (reals_intro d y0 Hy)
     (realsK_stages d F g (mq (extA A b [])) (vq (extC c [])) t0 y0 h (S s) HL Hy)) as HR.
  replace (t0 + h) with t1 in HR by (unfold h; ring). destruct HR as (r & Er & Lr & Nr).
  exists r. split; [exact Er|]. split; [exact Lr|].
  intros q Hq. rewrite Nr by auto. rewrite map_length, rstages_length. reflexivity.
Qed.
Lemma best_form e d : ext_ok 7 BS5_A BS5_B BS5_C BS5_A_extra BS5_C_extra = true ->
  dense_form (mk_tab 7 BS5_A BS5_B BS5_C e) (dense_bs5_best d) d 11 (mq (extA BS5_A BS5_B BS5_A_extra)) (vq (extC BS5_C BS5_C_extra))
    (fun th i => vq BS5_B i + pw QN 1 (qcols BS5_Pbest) BS5_Pbest (th - 1) i).
Proof.
  intros He F g m cf v v' t0 y0 t1 HL Hy HU HM Hg E0 Ey E1 Hne.
  destruct (ext_ok_spec _ _ _ _ _ _ He) as (LA & LB & LC & Lx & C0 & _ & _ & _).
  assert (Hd : (0 < d)%nat) by (apply (y0_pos y0 d Hy); rewrite <- Ey; apply (made_step_ne m cf v v' HM)).
  destruct (made_step_real d F g 7 BS5_A BS5_B BS5_C e m cf v v' t0 y0 t1 HL Hy Hd LA LB LC C0 HU HM Hg E0 Ey E1) as (ks & SF & EY & EK).
  rewrite (dense_enter _ cf v v' _ ks t0 t1 SF E0 E1 Hne) by (rewrite EY, map_length, rpoint_len; lia).
  unfold dense_bs5_best. rewrite (sf_yold _ _ _ _ _ SF), (sf_h _ _ _ _ _ SF), E1, EK, EY, Ey, Hg.
  set (h := t1 - t0) in *.
  destruct (extra_all d F g BS5_A BS5_B BS5_C BS5_A_extra BS5_C_extra t0 y0 h 7 (calls (st v')) HL LA LC Hy Lx) as (cl' & EX). rewrite EX.
  set (RSs := rstages F (mq (extA BS5_A BS5_B BS5_A_extra)) (vq (extC BS5_C BS5_C_extra)) t0 y0 h (8 + length BS5_A_extra)) in *.
  assert (LR : length RSs = 11%nat) by (unfold RSs; rewrite rstages_length; reflexivity).
  destruct (bs5_best_reals d (map (map Fin) RSs) (fun i q => nth q (nth i RSs []) 0)) as (LQ & HQ).
  { rewrite map_length. exact LR. }
  { apply (realsK_stages d F g _ _ t0 y0 h _ HL Hy). }
  change (nadd RX (Fin t1) (Fin h)) with (Fin (t1 + h)).
  set (yn := rpoint d y0 h (lcomb 7 (vq BS5_B) (rstages F (mq BS5_A) (vq BS5_C) t0 y0 h 7))) in *.
  assert (Lq : (0 < length (bs5_best_Q d (map (map Fin) RSs)))%nat) by (rewrite LQ; lia).
  eexists. eexists. split; [reflexivity|]. intros th.
  pose proof (call_mk_horner d t1 h (th - 1) (map Fin yn) _ _ _ ltac:(unfold h; lra) Lq (reals_intro d yn (rpoint_len _ _ _ _)) HQ) as HR.
  replace (t1 + (th - 1) * h) with (t0 + th * h) in HR by (unfold h; ring). destruct HR as (r & Er & Lr & Nr).
  exists r. split; [exact Er|]. split; [exact Lr|].
  intros q Hq. rewrite Nr by auto. rewrite LQ. unfold yn. rewrite rpoint_nth by auto.
  unfold point. change (rstages F (mq (extA BS5_A BS5_B BS5_A_extra)) (vq (extC BS5_C BS5_C_extra)) t0 y0 h 11) with RSs.
  assert (EB : lcomb 7 (vq BS5_B) (rstages F (mq BS5_A) (vq BS5_C) t0 y0 h 7) q = lcomb 11 (vq BS5_B) RSs q).
  { rewrite <- (ext_stages F BS5_A BS5_B BS5_C BS5_A_extra BS5_C_extra t0 y0 h 7 LA LC). apply lcomb_ext_zero; [lia|]. intros l Hl. apply vq_overflow. exact Hl. }
  rewrite EB. 
  assert (EP : rsum 6 (fun j => rsum 11 (fun i => mq BS5_Pbest i j * nth q (nth i RSs []) 0) * (th - 1) ^ S j) = lcomb 11 (pw QN 1 (qcols BS5_Pbest) BS5_Pbest (th - 1)) RSs q).
  { unfold lcomb. rewrite (rsum_ext 6 _ (fun j => rsum 11 (fun i => mq BS5_Pbest i j * (th - 1) ^ S j * nth q (nth i RSs []) 0))).
    - rewrite rsum_swap. apply rsum_ext. intros i Hi. unfold pw. rewrite (Rmult_comm (rsum _ _)), <- rsum_scal. apply rsum_ext. intros j Hj. unfold mq. replace (j + 1)%nat with (S j) by lia. ring.
    - intros j Hj. rewrite Rmult_comm, <- rsum_scal. apply rsum_ext. intros; ring. }
  rewrite EP. unfold lcomb. rewrite Rplus_assoc, <- Rmult_plus_distr_l, <- rsum_plus. f_equal. f_equal. apply rsum_ext. intros i Hi. ring.
Qed.

(** ** their conditions *)
Lemma order_dense N A c w p : (forall th, 0 <= th <= 1 -> order_V false true N (fun _ _ => 0) A c (w th) th p) -> dense1 N A c 0 w p.
Proof. intros H th n fs Hth Hn Hf. rewrite (H th Hth n fs Hn Hf), Rminus_diag_eq, Rabs_R0 by auto. lra. Qed.
Lemma pw_wb N P : wbounded N (pw QN 1 (qcols P) P).
Proof.
  destruct (wV_bounded N (mR QN P) (qcols P)) as (B & HB & H). exists B. split; [auto|]. intros th i Hth Hi. rewrite pw_wV. auto.
Qed.
Lemma interp_cond s A b c X x P p : interp_ok s A b c X x P p = true ->
  ext_ok s A b c X x = true /\ (1 <= qcols P)%nat /\ dense1 (S s + length X)%nat (mq (extA A b X)) (vq (extC c x)) 0 (pw QN 1 (qcols P) P) p.
Proof.
  intros HOK. unfold interp_ok in HOK. rewrite !andb_true_iff in HOK. destruct HOK as ((He & Hc) & HC). apply Nat.leb_le in Hc.
  destruct (ext_ok_spec s A b c X x He) as (LA & LB & LC & Lx & C0 & Hlow & L1 & L2). split; [auto|]. split; [auto|].
  apply order_dense. intros th Hth.
  assert (E := checkP_V QN false true (extC c x) [] (extA A b X) ltac:(discriminate) (fun _ => eq_trans L2 (eq_sym L1)) p p (qcols P) P th ltac:(lia) HC).
  rewrite mR_nil in E. change (@length QN (extC c x)) with (length (extC c x)) in E. rewrite L1 in E. exact E.
Qed.
Lemma best_cond s A b c X x P p : interp_best_ok s A b c X x P p = true ->
  ext_ok s A b c X x = true /\ wbounded (S s + length X)%nat (fun th i => vq b i + pw QN 1 (qcols P) P (th - 1) i) /\
  dense1 (S s + length X)%nat (mq (extA A b X)) (vq (extC c x)) 0 (fun th i => vq b i + pw QN 1 (qcols P) P (th - 1) i) p.
Proof.
  intros HOK. unfold interp_best_ok in HOK. cbv zeta in HOK. rewrite !andb_true_iff in HOK. destruct HOK as ((He & Hc) & HC & HB'). apply Nat.leb_le in Hc.
  destruct (ext_ok_spec s A b c X x He) as (LA & LB & LC & Lx & C0 & Hlow & L1 & L2).
  destruct (weights_bound (S s + length X) (fun i => Rabs (vq b i) + rsum (qcols P) (fun j => Rabs (mR QN P i j)))) as (B & HB & Hb).
  split; [auto|]. split.
  - exists B. split; [auto|]. intros th i Hth Hi. eapply Rle_trans; [apply Rabs_triang|]. eapply Rle_trans; [apply Rplus_le_compat_l, pw_bound; apply Rabs_le; lra|].
    eapply Rle_trans; [apply Rle_abs|apply (Hb i Hi)].
  - apply order_dense. intros th Hth.
    assert (E := checkB_V QN false true (extC c x) [] (extA A b X) ltac:(discriminate) (fun _ => eq_trans L2 (eq_sym L1)) p p (qcols P) P b th ltac:(lia) HC HB').
    rewrite mR_nil in E. change (@length QN (extC c x)) with (length (extC c x)) in E. rewrite L1 in E. exact E.
Qed.
Lemma near_cond bits s A b c P p eps : interp_near_ok bits s A b c P p eps = true ->
  ext_ok s A b c [] [] = true /\ (1 <= qcols P)%nat /\ dense1 (S s) (mq (extA A b [])) (vq (extC c [])) (Q2R eps) (pw QN 1 (qcols P) P) p.
Proof.
  intros HOK. unfold interp_near_ok in HOK. rewrite !andb_true_iff in HOK. destruct HOK as ((((H0 & He) & Hc) & Hp) & HB). apply Nat.leb_le in Hc, Hp. apply Z.leb_le in H0.
  destruct (ext_ok_spec s A b c [] [] He) as (LA & LB & LC & _ & C0 & Hlow & L1 & L2).
  assert (L3 : (S s + length (@nil (list Q)) = S s)%nat) by (simpl; lia). rewrite L3 in L1, L2.
  destruct (bcheckP_V bits H0 false (extC c []) [] (extA A b []) ltac:(discriminate) (eq_trans L2 (eq_sym L1)) (p - 1) _ p (qcols P) P ltac:(lia) HB) as (Hm & Hpos & HN).
  assert (HV := cols_dense_V _ _ _ _ _ _ _ _ _ _ Hpos Hm HN).
  assert (Ee : INR (qcols P) * Q2R (eps / inject_Z (Z.of_nat (qcols P))) = Q2R eps).
  { assert (Hne : ~ (inject_Z (Z.of_nat (qcols P)) == 0)%Q) by (intros E; unfold Qeq in E; simpl in E; lia).
    rewrite Q2R_div by exact Hne. replace (Q2R (inject_Z (Z.of_nat (qcols P)))) with (INR (qcols P)).
    - field. apply not_0_INR. lia.
    - rewrite INR_IZR_INZ. unfold Q2R. simpl. field. }
  rewrite Ee, L1 in HV. split; [auto|]. split; [auto|]. rewrite <- mR_nil. intros th n fs Hth Hn Hf. specialize (HV th n fs Hth Hn Hf).
  rewrite (rsum_ext _ _ (fun i => wV (mR QN P) (qcols P) th i * stage_weight (S s) (mR QN []) (mq (extA A b [])) (vq (extC c [])) fs i)); [exact HV|].
  intros i _. rewrite pw_wV. reflexivity.
Qed.
