(** End point values of the remaining dense outputs: BS5 'best', the cubic and quintic
    Hermite interpolants and the Nystrom interpolants; reproduction of polynomials. *)
From Coq Require Import String Reals Lra Psatz QArith Qreals Lia List Arith Bool.
From Coquelicot Require Import Coquelicot.
From Verif Require Import Arith Common RK RKGen RKHist RX SpecRK RKSpecProofs RKTop Classes Tableaux Series Trees OrderThm OrderCheck
  OrderRK OrderRKN OrderModel OrderPair OrderPairN Dense DenseReal DenseStep DenseAcc DenseAccN DenseJoin.
Import ListNotations.
Close Scope string_scope.
Open Scope nat_scope.
Open Scope R_scope.

(** ** BS5 'best' *)
Fixpoint qalt (l : list Q) : Q := match l with [] => 0%Q | a :: l' => (- (a + qalt l'))%Q end.
Fixpoint qdalt (k : positive) (l : list Q) : Q := match l with [] => 0%Q | a :: l' => ((Z.pos k # 1) * a - qdalt (Pos.succ k) l')%Q end.
Lemma qalt_rsum l : forall n, length l = n -> rsum n (fun j => Q2R (nth j l 0%Q) * (-1) ^ S j) = Q2R (qalt l).
Proof.
  induction l as [|a l IH]; intros n <-; [simpl; symmetry; apply Q2R_0'|]. cbn [length]. rewrite rsum_split. cbn [nth qalt].
  rewrite Q2R_opp, Q2R_plus, <- (IH (length l) eq_refl).
  rewrite (rsum_ext (length l) _ (fun j => (-1) * (Q2R (nth j l 0%Q) * (-1) ^ S j))) by (intros; simpl; ring).
  rewrite rsum_scal. simpl. ring.
Qed.
Lemma qdalt_rsum l : forall n k, length l = n -> rsum n (fun j => Q2R (nth j l 0%Q) * (INR (j + Pos.to_nat k) * (-1) ^ j)) = Q2R (qdalt k l).
Proof.
  induction l as [|a l IH]; intros n k <-; [simpl; symmetry; apply Q2R_0'|]. cbn [length]. rewrite rsum_split. cbn [nth qdalt].
  rewrite Q2R_minus, Q2R_mult, <- (IH (length l) (Pos.succ k) eq_refl).
  replace (Q2R (Z.pos k # 1)) with (INR (0 + Pos.to_nat k)).
  2:{ cbn [Nat.add]. rewrite INR_IZR_INZ, positive_nat_Z. unfold Q2R. cbn [Qnum Qden]. rewrite Rinv_1, Rmult_1_r. reflexivity. }
  rewrite (rsum_ext (length l) (fun j => Q2R (nth j l 0%Q) * (INR (S j + Pos.to_nat k) * (-1) ^ S j))
    (fun j => (-1) * (Q2R (nth j l 0%Q) * (INR (j + Pos.to_nat (Pos.succ k)) * (-1) ^ j)))).
  - rewrite rsum_scal. simpl. ring.
  - intros j _. replace (S j + Pos.to_nat k)%nat with (j + Pos.to_nat (Pos.succ k))%nat by lia. simpl. ring.
Qed.

Definition join_best_ok (s N : nat) (b : list Q) (P : list (list Q)) : bool :=
  Nat.leb 1 (qcols P) && forallb (fun r => Nat.eqb (length r) (qcols P)) P && Nat.eqb (length P) N &&
  forallb (fun i => Qeq_bool (qalt (nth i P [])) (- nth i b 0%Q) && Qeq_bool (qdalt 1 (nth i P [])) (qdelta 0 i) && Qeq_bool (nth 0 (nth i P []) 0%Q) (qdelta s i)) (seq 0 N).
Lemma join_best_spec s N b P : join_best_ok s N b P = true -> forall i, (i < N)%nat ->
  vq b i + pw QN 1 (qcols P) P (-1) i = 0 /\ pw QN 1 (qcols P) P 0 i = 0 /\ dpw 1 (qcols P) P (-1) i = delta 0 i /\ dpw 1 (qcols P) P 0 i = delta s i.
Proof.
  intros H i Hi. unfold join_best_ok in H. rewrite !andb_true_iff in H. destruct H as (((Hc & HR) & HL) & HC).
  apply Nat.leb_le in Hc. apply Nat.eqb_eq in HL.
  rewrite forallb_forall in HC. specialize (HC i ltac:(apply in_seq; lia)). rewrite !andb_true_iff in HC. destruct HC as ((C1 & C2) & C3).
  apply Qeq_bool_eq in C1, C2, C3. apply Qeq_eqR in C1, C2, C3.
  rewrite forallb_forall in HR. assert (Lr : length (nth i P []) = qcols P) by (apply Nat.eqb_eq, HR, nth_In; lia).
  assert (EM : forall j, mR QN P i j = Q2R (nth j (nth i P []) 0%Q)) by reflexivity.
  split; [|split; [|split]].
  - unfold pw. rewrite (rsum_ext _ _ (fun j => Q2R (nth j (nth i P []) 0%Q) * (-1) ^ S j)) by (intros; rewrite EM, Nat.add_1_r; ring).
    rewrite (qalt_rsum _ _ Lr), C1, Q2R_opp, vq_nth. ring.
  - unfold pw. apply rsum_zero. intros j _. rewrite pow_ne_zero by lia. ring.
  - unfold dpw. rewrite <- qdelta_delta, <- C2, <- (qdalt_rsum _ _ 1 Lr). apply rsum_ext. intros j _.
    change (mq P i j) with (Q2R (nth j (nth i P []) 0%Q)). change (Pos.to_nat 1) with 1%nat. replace (j + 1 - 1)%nat with j by lia. reflexivity.
  - unfold dpw. destruct (qcols P) as [|n] eqn:EQ; [lia|]. rewrite rsum_split. rewrite rsum_zero.
    2:{ intros j _. replace (S j + 1 - 1)%nat with (S j) by lia. rewrite pow_ne_zero by lia. ring. }
    cbn [Nat.add Nat.sub pow]. unfold mq. rewrite EM, C3, qdelta_delta. simpl. ring.
Qed.

Theorem bs5_best_joins e d : dense_joins (mk_tab 7 BS5_A BS5_B BS5_C e) (dense_bs5_best d) d.
Proof.
  intros F g m cf v v' t0 y0 t1 HL HU HM Hg Hy E0 Ey E1 Hne.
  assert (He : ext_ok 7 BS5_A BS5_B BS5_C BS5_A_extra BS5_C_extra = true) by (vm_compute; reflexivity).
  assert (HB : join_best_ok 7 11 BS5_B BS5_Pbest = true) by (vm_compute; reflexivity).
  pose proof (join_best_spec _ _ _ _ HB) as HW.
  destruct (ext_ok_spec _ _ _ _ _ _ He) as (LA & LB & LC & Lx & C0 & _ & _ & _).
  assert (Hd : (0 < d)%nat) by (apply (y0_pos y0 d Hy); rewrite <- Ey; apply (made_step_ne m cf v v' HM)).
  destruct (made_step_real d F g 7 BS5_A BS5_B BS5_C e m cf v v' t0 y0 t1 HL Hy Hd LA LB LC C0 HU HM Hg E0 Ey E1) as (ks & SF & EY & EK).
  rewrite (dense_enter _ cf v v' _ ks t0 t1 SF E0 E1 Hne) by (rewrite EY, map_length, rpoint_len; lia).
  unfold dense_bs5_best. rewrite (sf_yold _ _ _ _ _ SF), (sf_h _ _ _ _ _ SF), E1, EK, EY, Ey, Hg.
  set (h := t1 - t0) in *. assert (Hh : h <> 0) by (unfold h; lra).
  destruct (extra_all d F g BS5_A BS5_B BS5_C BS5_A_extra BS5_C_extra t0 y0 h 7 (calls (st v')) HL LA LC Hy Lx) as (cl' & EX). rewrite EX.
  set (RSs := rstages F (mq (extA BS5_A BS5_B BS5_A_extra)) (vq (extC BS5_C BS5_C_extra)) t0 y0 h (8 + length BS5_A_extra)) in *.
  assert (LR : length RSs = 11%nat) by (unfold RSs; rewrite rstages_length; reflexivity).
  destruct (bs5_best_reals d (map (map Fin) RSs) (fun i q => nth q (nth i RSs []) 0)) as (LQ & HQ).
  { rewrite map_length. exact LR. }
  { apply (realsK_stages d F g _ _ t0 y0 h _ HL Hy). }
  change (nadd RX (Fin t1) (Fin h)) with (Fin (t1 + h)).
  set (yn := rpoint d y0 h (lcomb 7 (vq BS5_B) (rstages F (mq BS5_A) (vq BS5_C) t0 y0 h 7))) in *.
  assert (Lq : (0 < length (bs5_best_Q d (map (map Fin) RSs)))%nat) by (rewrite LQ; lia).
  eexists. eexists. exists yn. split; [reflexivity|]. split; [reflexivity|]. split; [reflexivity|].
  assert (EB : forall q, lcomb 7 (vq BS5_B) (rstages F (mq BS5_A) (vq BS5_C) t0 y0 h 7) q = lcomb 11 (vq BS5_B) RSs q).
  { intros q. rewrite <- (ext_stages F BS5_A BS5_B BS5_C BS5_A_extra BS5_C_extra t0 y0 h 7 LA LC). apply lcomb_ext_zero; [lia|]. intros l Hl. apply vq_overflow. exact Hl. }
  eapply (joins_wval d _ 11 (fun th i => vq BS5_B i + pw QN 1 (qcols BS5_Pbest) BS5_Pbest (th - 1) i) (dpw 1 (qcols BS5_Pbest) BS5_Pbest (-1)) (dpw 1 (qcols BS5_Pbest) BS5_Pbest 0)
     y0 (fun i q => nth q (nth i RSs []) 0) t0 t1 yn _ _ 0 7); auto; try lia.
  - unfold yn; apply rpoint_len.
  - intros z. fold h. pose proof (call_mk_horner d t1 h ((z - t0) / h - 1) (map Fin yn) _ _ _ Hh Lq (reals_intro d yn (rpoint_len _ _ _ _)) HQ) as HR.
    replace (t1 + ((z - t0) / h - 1) * h) with z in HR by (unfold h; field; unfold h in Hh; auto).
    destruct HR as (r & Er & Lr & Nr). exists r. split; [exact Er|]. split; [exact Lr|]. intros q Hq. rewrite Nr by auto. rewrite LQ.
    unfold yn. rewrite rpoint_nth by auto. rewrite EB. unfold wval. set (th := (z - t0) / h).
    assert (EP : rsum 6 (fun j => rsum 11 (fun i => mq BS5_Pbest i j * nth q (nth i RSs []) 0) * (th - 1) ^ S j) = lcomb 11 (pw QN 1 (qcols BS5_Pbest) BS5_Pbest (th - 1)) RSs q).
    { unfold lcomb. rewrite (rsum_ext 6 _ (fun j => rsum 11 (fun i => mq BS5_Pbest i j * (th - 1) ^ S j * nth q (nth i RSs []) 0))).
      - rewrite rsum_swap. apply rsum_ext. intros i Hi. unfold pw. rewrite (Rmult_comm (rsum _ _)), <- rsum_scal. apply rsum_ext. intros j Hj. unfold mq. replace (j + 1)%nat with (S j) by lia. ring.
      - intros j Hj. rewrite Rmult_comm, <- rsum_scal. apply rsum_ext. intros; ring. }
    rewrite EP. unfold lcomb. rewrite Rplus_assoc, <- Rmult_plus_distr_l, <- rsum_plus. f_equal. f_equal. apply rsum_ext. intros i Hi. ring.
  - intros i Hi. replace (0 - 1) with (-1) by ring. apply HW; auto.
  - intros q Hq. unfold yn. rewrite rpoint_nth by auto. f_equal. fold h. f_equal. rewrite EB. unfold lcomb. apply rsum_ext. intros i Hi.
    replace (1 - 1) with 0 by ring. destruct (HW i Hi) as (_ & -> & _). ring.
  - intros i Hi. apply dlim_shift. pose proof (dlim_lin (fun x => pw QN 1 (qcols BS5_Pbest) BS5_Pbest x i) 1 1 (-1) _ ltac:(lra) (dlim_pw 1 (qcols BS5_Pbest) BS5_Pbest i (-1) ltac:(lia))) as D.
    replace (1 + -1 * 1) with 0 in D by ring. rewrite Rdiv_1 in D. eapply derivable_pt_lim_ext; [|exact D]. intros x; simpl. f_equal. field.
  - intros i Hi. apply dlim_shift. pose proof (dlim_lin (fun x => pw QN 1 (qcols BS5_Pbest) BS5_Pbest x i) 1 1 0 _ ltac:(lra) (dlim_pw 1 (qcols BS5_Pbest) BS5_Pbest i 0 ltac:(lia))) as D.
    replace (1 + 0 * 1) with 1 in D by ring. rewrite Rdiv_1 in D. eapply derivable_pt_lim_ext; [|exact D]. intros x; simpl. f_equal. field.
  - intros i Hi. apply HW; auto.
  - intros i Hi. apply HW; auto.
  - intros q Hq. unfold RSs. rewrite rstages_nth0; [reflexivity|lia|].
    rewrite vq_nth. unfold extC. rewrite app_nth1 by lia. rewrite C0. apply Q2R_0'.
  - intros q Hq. unfold RSs.
    pose proof (ext_all d F g BS5_A BS5_B BS5_C t0 y0 h 7 HL LA LB LC Hy) as EA. cbv zeta in EA. fold yn in EA. rewrite <- (ext_prefix F BS5_A BS5_B BS5_C BS5_A_extra BS5_C_extra t0 y0 h 7 LA LC) in EA.
    rewrite (rstages_nth F _ _ t0 y0 h _ 7) by (simpl; lia).
    rewrite <- (rstages_nth F (mq (extA BS5_A BS5_B BS5_A_extra)) (vq (extC BS5_C BS5_C_extra)) t0 y0 h 8 7) by lia. rewrite EA.
    rewrite app_nth2 by (rewrite rstages_length; lia). rewrite rstages_length, Nat.sub_diag. cbn [nth]. replace (t0 + h) with t1 by (unfold h; ring). reflexivity.
Qed.

(** ** cubic Hermite *)
Definition cubic (t0 h y0 f0 y1 f1 x : R) : R :=
  let s := (x - t0) / h in
  (1 + 2 * s) * (1 - s) ^ 2 * y0 + s * (1 - s) ^ 2 * h * f0 + s ^ 2 * (3 - 2 * s) * y1 + s ^ 2 * (s - 1) * h * f1.
Lemma scaled_time' t0 t1 x : t1 <> t0 ->
  ndiv RX (nsub RX (Fin x) (Fin t0)) (nsub RX (Fin t1) (Fin t0)) = Fin ((x - t0) / (t1 - t0)).
Proof. intros H. change (nsub RX (Fin x) (Fin t0)) with (Fin (x - t0)). change (nsub RX (Fin t1) (Fin t0)) with (Fin (t1 - t0)). apply Fin_div. lra. Qed.
Lemma call_cubic d t0 t1 yo y fo f r0 r1 k0 k1 x : t1 <> t0 -> reals d yo r0 -> reals d y r1 -> reals d fo k0 -> reals d f k1 ->
  reals d (call (mk_cubic (Fin t0) (Fin t1) yo y fo f) (Fin x)) (fun q => cubic t0 (t1 - t0) (r0 q) (k0 q) (r1 q) (k1 q) x).
Proof.
  intros Hne H0 H1 K0 K1. unfold mk_cubic. cbn [call]. cbv zeta. rewrite scaled_time' by auto.
  change (nsub RX (Fin t1) (Fin t0)) with (Fin (t1 - t0)). set (h := t1 - t0). set (s := (x - t0) / h).
  assert (L1 : @n1 RX = Fin 1) by (unfold n1, lit; simpl; f_equal; apply Q2R_1').
  assert (L2 : @n2 RX = Fin 2) by (unfold n2, lit; simpl; f_equal; unfold Q2R; simpl; lra).
  assert (L3 : @lit RX 3 = Fin 3) by (unfold lit; simpl; f_equal; unfold Q2R; simpl; lra).
  rewrite L1, L2, L3.
  eapply reals_ext; [apply reals_add; [apply reals_add; [apply reals_add|]|]; apply reals_scale; eassumption|].
  intros q Hq. cbn beta. unfold cubic. fold s. simpl. ring.
Qed.


Lemma cubic_joins_real d D t0 t1 yo y fo f : t1 <> t0 -> length yo = d -> length y = d -> length fo = d -> length f = d ->
  D = mk_cubic (Fin t0) (Fin t1) (map Fin yo) (map Fin y) (map Fin fo) (map Fin f) -> joins d D t0 yo fo t1 y f.
Proof.
  intros Hne Ho Hy Hfo Hf ->. set (h := t1 - t0). assert (Hh : h <> 0) by (unfold h; lra).
  set (val x q := cubic t0 h (nth q yo 0) (nth q fo 0) (nth q y 0) (nth q f 0) x).
  exists (fun x => ind d (val x)). split; [|split; [|split]].
  - intros x. split; [|apply ind_len].
    destruct (call_cubic d t0 t1 _ _ _ _ _ _ _ _ x Hne (reals_intro d yo Ho) (reals_intro d y Hy) (reals_intro d fo Hfo) (reals_intro d f Hf)) as (r & Er & Lr & Nr).
    rewrite Er. f_equal. apply nth_eq_list; [rewrite ind_len; auto|]. intros q Hq. rewrite ind_nth by congruence. rewrite Nr by congruence. reflexivity.
  - apply nth_eq_list; [rewrite ind_len; auto|]. intros q Hq. rewrite ind_len in Hq. rewrite ind_nth by auto. unfold val, cubic. field. auto.
  - apply nth_eq_list; [rewrite ind_len; auto|]. intros q Hq. rewrite ind_len in Hq. rewrite ind_nth by auto. unfold val, cubic. replace ((t1 - t0) / h) with 1 by (unfold h; field; unfold h in Hh; auto). ring.
  - intros q Hq. split.
    + apply (derivable_pt_lim_ext (fun x => val x q)); [intros x; symmetry; apply ind_nth; auto|]. apply is_derive_Reals. unfold val, cubic. auto_derive; [auto|].
      replace (t0 + - t0) with 0 by ring. field. auto.
    + apply (derivable_pt_lim_ext (fun x => val x q)); [intros x; symmetry; apply ind_nth; auto|]. apply is_derive_Reals. unfold val, cubic. auto_derive; [auto|].
      replace (t1 + - t0) with h by (unfold h; ring). replace (h * / h) with 1 by (field; auto). field. auto.
Qed.

Theorem cubic_joins s A b c e d : ext_ok s A b c [] [] = true -> dense_joins (mk_tab s A b c e) dense_cubic d.
Proof.
  intros He F g m cf v v' t0 y0 t1 HL HU HM Hg Hy E0 Ey E1 Hne.
  destruct (ext_ok_spec _ _ _ _ _ _ He) as (LA & LB & LC & Lx & C0 & _ & _ & _).
  assert (Hd : (0 < d)%nat) by (apply (y0_pos y0 d Hy); rewrite <- Ey; apply (made_step_ne m cf v v' HM)).
  destruct (made_step_real d F g s A b c e m cf v v' t0 y0 t1 HL Hy Hd LA LB LC C0 HU HM Hg E0 Ey E1) as (ks & SF & EY & EK).
  rewrite (dense_enter _ cf v v' _ ks t0 t1 SF E0 E1 Hne) by (rewrite EY, map_length, rpoint_len; lia).
  unfold dense_cubic. rewrite (sf_yold _ _ _ _ _ SF), (sf_fold _ _ _ _ _ SF).
  set (yn := rpoint d y0 (t1 - t0) (lcomb s (vq b) (rstages F (mq A) (vq c) t0 y0 (t1 - t0) s))) in *.
  assert (Ln : length yn = d) by apply rpoint_len.
  eexists. eexists. exists yn. split; [reflexivity|]. split; [exact EY|]. split; [reflexivity|].
  destruct (HL t0 y0 Hy) as (L0 & G0). destruct (HL t1 yn Ln) as (L1 & G1).
  apply cubic_joins_real; auto. rewrite E1, Ey, EY, (sf_f0 _ _ _ _ _ SF), (sf_f _ _ _ _ _ SF), E0, E1, Ey, EY, Hg, G0, G1. reflexivity.
Qed.

(** C23: the cubic Hermite output is the cubic through the data *)
Theorem cubic_reproduces (a b c d : R) t0 t1 x : t1 <> t0 ->
  let p z := a + b * z + c * z ^ 2 + d * z ^ 3 in let p' z := b + 2 * c * z + 3 * d * z ^ 2 in
  call (mk_cubic (Fin t0) (Fin t1) [Fin (p t0)] [Fin (p t1)] [Fin (p' t0)] [Fin (p' t1)]) (Fin x) = [Fin (p x)].
Proof.
  intros Hne p p'.
  destruct (call_cubic 1 t0 t1 _ _ _ _ _ _ _ _ x Hne (reals_intro 1 [p t0] eq_refl) (reals_intro 1 [p t1] eq_refl) (reals_intro 1 [p' t0] eq_refl) (reals_intro 1 [p' t1] eq_refl)) as (r & Er & Lr & Nr).
  refine (eq_trans Er _). destruct r as [|r0 [|? ?]]; try discriminate Lr. simpl. f_equal. f_equal.
  specialize (Nr 0%nat ltac:(lia)). cbn [nth] in Nr. rewrite Nr. unfold cubic, p, p'. field. lra.
Qed.

(** ** quintic Hermite *)
Definition quin_x (t0 h x0 v0 a0 x1 v1 a1 x : R) : R :=
  let s := (x - t0) / h in
  (1 - 10 * s ^ 3 + 15 * s ^ 4 - 6 * s ^ 5) * x0 + (s - 6 * s ^ 3 + 8 * s ^ 4 - 3 * s ^ 5) * (h * v0) +
  (1 / 2 * s ^ 2 - 3 / 2 * s ^ 3 + 3 / 2 * s ^ 4 - 1 / 2 * s ^ 5) * (h * h * a0) +
  (10 * s ^ 3 - 15 * s ^ 4 + 6 * s ^ 5) * x1 + (- 4 * s ^ 3 + 7 * s ^ 4 - 3 * s ^ 5) * (h * v1) +
  (1 / 2 * s ^ 3 - s ^ 4 + 1 / 2 * s ^ 5) * (h * h * a1).
Definition quin_v (t0 h x0 v0 a0 x1 v1 a1 x : R) : R :=
  let s := (x - t0) / h in
  (- 30 * s ^ 2 + 60 * s ^ 3 - 30 * s ^ 4) * (x0 / h) + (1 - 18 * s ^ 2 + 32 * s ^ 3 - 15 * s ^ 4) * v0 +
  (s - 9 / 2 * s ^ 2 + 6 * s ^ 3 - 5 / 2 * s ^ 4) * (h * a0) +
  (30 * s ^ 2 - 60 * s ^ 3 + 30 * s ^ 4) * (x1 / h) + (- 12 * s ^ 2 + 28 * s ^ 3 - 15 * s ^ 4) * v1 +
  (3 / 2 * s ^ 2 - 4 * s ^ 3 + 5 / 2 * s ^ 4) * (h * a1).
Lemma quin_deriv t0 h x0 v0 a0 x1 v1 a1 x : h <> 0 -> is_derive (quin_x t0 h x0 v0 a0 x1 v1 a1) x (quin_v t0 h x0 v0 a0 x1 v1 a1 x).
Proof. intros Hh. unfold quin_x, quin_v. auto_derive; [auto|]. field. auto. Qed.

Lemma reals_cons6 d a b c e f g ra rb rc re rf rg : reals d a ra -> reals d b rb -> reals d c rc -> reals d e re -> reals d f rf -> reals d g rg ->
  realsK d [a; b; c; e; f; g] (fun i => match i with 0 => ra | 1 => rb | 2 => rc | 3 => re | 4 => rf | _ => rg end%nat).
Proof. intros. intros i Hi. do 6 (destruct i as [|i]; [cbn [nth]; auto|]). simpl in Hi. lia. Qed.

Lemma call_quintic n t0 t1 yo y fo f r0 r1 k0 k1 x : t1 <> t0 -> reals (n + n) yo r0 -> reals (n + n) y r1 -> reals n fo k0 -> reals n f k1 ->
  reals (n + n) (call (mk_quintic (Fin t0) (Fin t1) n yo y fo f) (Fin x))
    (fun q => if Nat.ltb q n then quin_x t0 (t1 - t0) (r0 q) (r0 (n + q)%nat) (k0 q) (r1 q) (r1 (n + q)%nat) (k1 q) x
              else quin_v t0 (t1 - t0) (r0 (q - n)%nat) (r0 q) (k0 (q - n)%nat) (r1 (q - n)%nat) (r1 q) (k1 (q - n)%nat) x).
Proof.
  intros Hne H0 H1 K0 K1. unfold mk_quintic. cbn [call]. cbv zeta. rewrite scaled_time' by auto.
  change (nsub RX (Fin t1) (Fin t0)) with (Fin (t1 - t0)). set (h := t1 - t0). set (s := (x - t0) / h). assert (Hh : h <> 0) by (unfold h; lra).
  change (nmul RX (Fin h) (Fin h)) with (Fin (h * h)).
  assert (HK := reals_cons6 n _ _ _ _ _ _ _ _ _ _ _ _ (reals_firstn n n _ _ H0) (reals_scale n h _ _ (reals_skipn n n _ _ H0)) (reals_scale n (h * h) _ _ K0)
     (reals_firstn n n _ _ H1) (reals_scale n h _ _ (reals_skipn n n _ _ H1)) (reals_scale n (h * h) _ _ K1)).
  assert (HKp := reals_cons6 n _ _ _ _ _ _ _ _ _ _ _ _ (reals_divr n h _ _ Hh (reals_firstn n n _ _ H0)) (reals_skipn n n _ _ H0) (reals_scale n h _ _ K0)
     (reals_divr n h _ _ Hh (reals_firstn n n _ _ H1)) (reals_skipn n n _ _ H1) (reals_scale n h _ _ K1)).
  destruct (KtP_reals n QuinticHermiteDenseOutput_P _ _ HK) as (L & HQ).
  destruct (KtP_reals n QuinticHermiteDenseOutput_Pp _ _ HKp) as (Lp & HQp).
  assert (NE : KtP n [firstn n yo; vscale (Fin h) (skipn n yo); vscale (Fin (h * h)) fo; firstn n y; vscale (Fin h) (skipn n y); vscale (Fin (h * h)) f] (lm QuinticHermiteDenseOutput_P) <> []) by discriminate.
  assert (NEp : KtP n [map (fun a : num RX => (a / Fin h)%num) (firstn n yo); skipn n yo; vscale (Fin h) fo; map (fun a : num RX => (a / Fin h)%num) (firstn n y); skipn n y; vscale (Fin h) f] (lm QuinticHermiteDenseOutput_Pp) <> []) by discriminate.
  pose proof (horner0_reals n _ _ s NE HQ) as HX. pose proof (horner0_reals n _ _ s NEp HQp) as HV.
  eapply reals_ext; [exact (reals_app n n _ _ _ _ HX HV)|].
  - intros q Hq. cbn beta. rewrite L, Lp.
    assert (HH : forall a b, Q2R (a # b) = IZR a / IZR (Z.pos b)) by reflexivity.
    destruct (Nat.ltb_spec q n).
    + unfold quin_x. fold s. cbn [qcols QuinticHermiteDenseOutput_P length rsum]. unfold mq, mR, vR. cbn [nth cv QN c_0 QuinticHermiteDenseOutput_P]. rewrite !HH. field.
    + unfold quin_v. fold s. cbn [qcols QuinticHermiteDenseOutput_Pp length rsum]. unfold mq, mR, vR. cbn [nth cv QN c_0 QuinticHermiteDenseOutput_Pp]. replace (n + (q - n))%nat with q by lia. rewrite !HH. field. auto.
Qed.

(** position and velocity of the Nystrom outputs: the velocity part is the derivative
    of the position part everywhere *)
Definition velocity_is_derivative (n : nat) (D : dense RX) : Prop :=
  exists r : R -> list R, (forall x, call D (Fin x) = map Fin (r x) /\ length (r x) = (n + n)%nat) /\
    forall q, (q < n)%nat -> forall x, derivable_pt_lim (fun x => nth q (r x) 0) x (nth (n + q) (r x) 0).

Lemma quintic_facts n D t0 t1 yo y fo f : t1 <> t0 -> length yo = (n + n)%nat -> length y = (n + n)%nat -> length fo = n -> length f = n ->
  D = mk_quintic (Fin t0) (Fin t1) n (map Fin yo) (map Fin y) (map Fin fo) (map Fin f) ->
  joins (n + n) D t0 yo (skipn n yo ++ fo) t1 y (skipn n y ++ f) /\ velocity_is_derivative n D.
Proof.
  intros Hne Ho Hy Hfo Hf ->. set (h := t1 - t0). assert (Hh : h <> 0) by (unfold h; lra).
  set (px q x := quin_x t0 h (nth q yo 0) (nth (n + q) yo 0) (nth q fo 0) (nth q y 0) (nth (n + q) y 0) (nth q f 0) x).
  set (pv q x := quin_v t0 h (nth q yo 0) (nth (n + q) yo 0) (nth q fo 0) (nth q y 0) (nth (n + q) y 0) (nth q f 0) x).
  set (val x q := if Nat.ltb q n then px q x else pv (q - n)%nat x).
  assert (HV : forall x, call (mk_quintic (Fin t0) (Fin t1) n (map Fin yo) (map Fin y) (map Fin fo) (map Fin f)) (Fin x) = map Fin (ind (n + n) (val x)) /\ length (ind (n + n) (val x)) = (n + n)%nat).
  { intros x. split; [|apply ind_len].
    destruct (call_quintic n t0 t1 _ _ _ _ _ _ _ _ x Hne (reals_intro _ yo Ho) (reals_intro _ y Hy) (reals_intro n fo Hfo) (reals_intro n f Hf)) as (r & Er & Lr & Nr).
    rewrite Er. f_equal. apply nth_eq_list; [rewrite ind_len; auto|]. intros q Hq. rewrite ind_nth by congruence. rewrite Nr by congruence.
    unfold val. destruct (Nat.ltb_spec q n); [reflexivity|]. unfold pv. replace (n + (q - n))%nat with q by lia. reflexivity. }
  assert (Vx : forall x q, (q < n)%nat -> nth q (ind (n + n) (val x)) 0 = px q x).
  { intros x q Hq. rewrite ind_nth by lia. unfold val. destruct (Nat.ltb_spec q n); [reflexivity|lia]. }
  assert (Vv : forall x q, (q < n)%nat -> nth (n + q) (ind (n + n) (val x)) 0 = pv q x).
  { intros x q Hq. rewrite ind_nth by lia. unfold val. destruct (Nat.ltb_spec (n + q) n); [lia|]. replace (n + q - n)%nat with q by lia. reflexivity. }
  assert (Dx : forall q x, derivable_pt_lim (px q) x (pv q x)) by (intros; apply is_derive_Reals; apply quin_deriv; auto).
  assert (T1 : (t1 - t0) / h = 1) by (unfold h; field; unfold h in Hh; auto).
  assert (T0 : (t0 - t0) / h = 0) by (field; auto).
  assert (P0 : forall q, px q t0 = nth q yo 0) by (intros; unfold px, quin_x; rewrite T0; field).
  assert (P1 : forall q, px q t1 = nth q y 0) by (intros; unfold px, quin_x; rewrite T1; field).
  assert (V0 : forall q, pv q t0 = nth (n + q) yo 0) by (intros; unfold pv, quin_v; rewrite T0; field; auto).
  assert (V1 : forall q, pv q t1 = nth (n + q) y 0) by (intros; unfold pv, quin_v; rewrite T1; field; auto).
  assert (A0 : forall q, derivable_pt_lim (pv q) t0 (nth q fo 0)).
  { intros q. apply is_derive_Reals. unfold pv, quin_v. auto_derive; [auto|]. replace (t0 + - t0) with 0 by ring. field. auto. }
  assert (A1 : forall q, derivable_pt_lim (pv q) t1 (nth q f 0)).
  { intros q. apply is_derive_Reals. unfold pv, quin_v. auto_derive; [auto|]. replace (t1 + - t0) with h by (unfold h; ring). field. auto. }
  split.
  - exists (fun x => ind (n + n) (val x)). split; [exact HV|]. split; [|split].
    + apply nth_eq_list; [rewrite ind_len; auto|]. intros q Hq. rewrite ind_len in Hq. destruct (Nat.ltb_spec q n).
      * rewrite Vx by auto. apply P0.
      * replace q with (n + (q - n))%nat by lia. rewrite Vv by lia. apply V0.
    + apply nth_eq_list; [rewrite ind_len; auto|]. intros q Hq. rewrite ind_len in Hq. destruct (Nat.ltb_spec q n).
      * rewrite Vx by auto. apply P1.
      * replace q with (n + (q - n))%nat by lia. rewrite Vv by lia. apply V1.
    + intros q Hq. destruct (Nat.ltb_spec q n).
      * rewrite !app_nth1 by (rewrite skipn_length; lia). rewrite !nth_skipn. rewrite <- V0, <- V1.
        split; (apply (derivable_pt_lim_ext (px q)); [intros x; symmetry; apply Vx; auto|apply Dx]).
      * rewrite !app_nth2 by (rewrite skipn_length; lia). rewrite !skipn_length, Ho, Hy. replace (q - (n + n - n))%nat with (q - n)%nat by lia.
        split; (apply (derivable_pt_lim_ext (pv (q - n)%nat)); [intros x; symmetry; replace q with (n + (q - n))%nat at 1 by lia; apply Vv; lia|first [apply A0|apply A1]]).
  - exists (fun x => ind (n + n) (val x)). split; [exact HV|]. intros q Hq x. rewrite Vv by auto.
    apply (derivable_pt_lim_ext (px q)); [intros z; symmetry; apply Vx; auto|apply Dx].
Qed.

(** C23: the quintic output is the quintic through the data *)
Theorem quintic_reproduces (a b c d e f : R) t0 t1 x : t1 <> t0 ->
  let p z := a + b * z + c * z ^ 2 + d * z ^ 3 + e * z ^ 4 + f * z ^ 5 in
  let p' z := b + 2 * c * z + 3 * d * z ^ 2 + 4 * e * z ^ 3 + 5 * f * z ^ 4 in
  let p'' z := 2 * c + 6 * d * z + 12 * e * z ^ 2 + 20 * f * z ^ 3 in
  call (mk_quintic (Fin t0) (Fin t1) 1 [Fin (p t0); Fin (p' t0)] [Fin (p t1); Fin (p' t1)] [Fin (p'' t0)] [Fin (p'' t1)]) (Fin x) = [Fin (p x); Fin (p' x)].
Proof.
  intros Hne p p' p''.
  destruct (call_quintic 1 t0 t1 _ _ _ _ _ _ _ _ x Hne (reals_intro 2 [p t0; p' t0] eq_refl) (reals_intro 2 [p t1; p' t1] eq_refl) (reals_intro 1 [p'' t0] eq_refl) (reals_intro 1 [p'' t1] eq_refl)) as (r & Er & Lr & Nr).
  refine (eq_trans Er _). destruct r as [|r0 [|r1 [|? ?]]]; try discriminate Lr. cbn [map].
  pose proof (Nr 0%nat ltac:(lia)) as N0. pose proof (Nr 1%nat ltac:(lia)) as N1. cbn [nth Nat.ltb Nat.leb Nat.add Nat.sub] in N0, N1. rewrite N0, N1.
  f_equal; [|f_equal]; f_equal; unfold quin_x, quin_v, p, p', p''; field; lra.
Qed.

(** the dense output of a Nystrom solver; dense_output may replace the stored state
    (Fi5N, interpolant 1): then it joins the replaced one *)
Definition dense_joins_n (T : TabN RX) (impl : dimpl RX) (n : nat) (keeps vd : bool) : Prop :=
  forall G g m c v v' t0 y0 t1, lifts2 n G g -> uses_tabn m T n -> made_step m c v v' -> fn c = g ->
    length y0 = (n + n)%nat -> t (st v) = Fin t0 -> y (st v) = map Fin y0 -> t (st v') = Fin t1 -> t1 <> t0 ->
    exists D s' y1 z1, dense_output impl c v' = DenseOk D s' /\ y (st v') = map Fin y1 /\ y s' = map Fin z1 /\
      (keeps = true -> z1 = y1) /\ skipn n z1 = skipn n y1 /\ length z1 = (n + n)%nat /\
      joins (n + n) D t0 y0 (skipn n y0 ++ G t0 y0) t1 z1 (skipn n z1 ++ G t1 y1) /\ (vd = true -> velocity_is_derivative n D).

Theorem quintic_joins s A Ap b bp c e ep n : length A = s -> length Ap = s -> length c = s -> nth 0 c 0%Q = 0%Q ->
  dense_joins_n (mk_tabn s A Ap b bp c e ep) (dense_quintic n) n true true.
Proof.
  intros LA LAp LC C0 G g m cf v v' t0 y0 t1 HL HU HM Hg Hy E0 Ey E1 Hne.
  assert (Hd : (0 < n + n)%nat) by (apply (y0_pos y0 _ Hy); rewrite <- Ey; apply (made_step_ne m cf v v' HM)).
  destruct (made_step_real_n n G g s A Ap b bp c e ep m cf v v' t0 y0 t1 HL Hy LA LAp LC C0 HU HM Hg E0 Ey E1) as (ks & SF & EY & EK).
  rewrite (dense_enter _ cf v v' _ ks t0 t1 SF E0 E1 Hne) by (rewrite EY, map_length, npoint_length; lia).
  unfold dense_quintic. rewrite (sf_yold _ _ _ _ _ SF), (sf_fold _ _ _ _ _ SF).
  match type of EY with _ = map Fin ?z => set (yn := z) in * end.
  assert (Ln : length yn = (n + n)%nat) by apply npoint_length.
  eexists. eexists. exists yn, yn. split; [reflexivity|]. split; [exact EY|]. split; [exact EY|]. split; [reflexivity|]. split; [reflexivity|]. split; [exact Ln|].
  destruct (HL t0 y0 Hy) as (L0 & G0). destruct (HL t1 yn Ln) as (L1 & G1).
  match goal with |- joins _ ?D _ _ _ _ _ _ /\ _ => cut (joins (n + n) D t0 y0 (skipn n y0 ++ G t0 y0) t1 yn (skipn n yn ++ G t1 yn) /\ velocity_is_derivative n D); [tauto|] end.
  apply quintic_facts; auto. rewrite E1, Ey, EY, (sf_f0 _ _ _ _ _ SF), (sf_f _ _ _ _ _ SF), E0, E1, Ey, EY, Hg, G0, G1. reflexivity.
Qed.

(** ** Nystrom interpolants *)
Definition joinn_ok (vd : bool) (s N : nat) (bx bp : list Q) (P Pp : list (list Q)) : bool :=
  Nat.leb 1 (qcols P) && Nat.eqb (qcols P) (qcols Pp) && forallb (fun r => Nat.eqb (length r) (qcols P)) P && forallb (fun r => Nat.eqb (length r) (qcols P)) Pp &&
  Nat.eqb (length P) N && Nat.eqb (length Pp) N &&
  forallb (fun i => Qeq_bool (qsum (nth i P [])) (nth i bx 0%Q) && Qeq_bool (qsum (nth i Pp [])) (nth i bp 0%Q) &&
                    Qeq_bool (nth 0 (nth i Pp []) 0%Q) (qdelta 0 i) && Qeq_bool (qdsum 1 (nth i Pp [])) (qdelta s i) && Qeq_bool (qdsum 2 (nth i P [])) (nth i bp 0%Q) &&
                    implb vd (forallb (fun j => Qeq_bool (nth j (nth i Pp []) 0%Q) ((Z.of_nat (j + 2) # 1) * nth j (nth i P []) 0%Q)) (seq 0 (qcols P)))) (seq 0 N).
Lemma joinn_spec vd s N bx bp P Pp : joinn_ok vd s N bx bp P Pp = true -> (1 <= qcols P)%nat /\ qcols P = qcols Pp /\ forall i, (i < N)%nat ->
  pw QN 2 (qcols P) P 1 i = vq bx i /\ pw QN 1 (qcols Pp) Pp 1 i = vq bp i /\ dpw 1 (qcols Pp) Pp 0 i = delta 0 i /\ dpw 1 (qcols Pp) Pp 1 i = delta s i /\
  dpw 2 (qcols P) P 1 i = vq bp i /\ (vd = true -> forall th, dpw 2 (qcols P) P th i = pw QN 1 (qcols Pp) Pp th i).
Proof.
  intros H. unfold joinn_ok in H. rewrite !andb_true_iff in H. destruct H as ((((((Hc & Hcc) & HR) & HRp) & HL) & HLp) & HC).
  apply Nat.leb_le in Hc. apply Nat.eqb_eq in HL, HLp, Hcc. split; [auto|]. split; [auto|]. intros i Hi.
  rewrite forallb_forall in HC. specialize (HC i ltac:(apply in_seq; lia)). rewrite !andb_true_iff in HC. destruct HC as (((((C1 & C2) & C3) & C4) & C6) & C5).
  apply Qeq_bool_eq in C1, C2, C3, C4, C6. apply Qeq_eqR in C1, C2, C3, C4, C6.
  rewrite forallb_forall in HR, HRp. assert (Lr : length (nth i P []) = qcols P) by (apply Nat.eqb_eq, HR, nth_In; lia).
  assert (Lrp : length (nth i Pp []) = qcols Pp) by (rewrite <- Hcc; apply Nat.eqb_eq, HRp, nth_In; lia).
  assert (EM : forall P j, mR QN P i j = Q2R (nth j (nth i P []) 0%Q)) by reflexivity.
  split; [|split; [|split; [|split; [|split]]]].
  - unfold pw. rewrite (rsum_ext _ _ (fun j => Q2R (nth j (nth i P []) 0%Q))) by (intros; rewrite pow1, EM, Rmult_1_r; reflexivity).
    rewrite (qsum_rsum _ _ Lr), C1. reflexivity.
  - unfold pw. rewrite (rsum_ext _ _ (fun j => Q2R (nth j (nth i Pp []) 0%Q))) by (intros; rewrite pow1, EM, Rmult_1_r; reflexivity).
    rewrite (qsum_rsum _ _ Lrp), C2. reflexivity.
  - unfold dpw. destruct (qcols Pp) as [|n] eqn:EQ; [lia|]. rewrite rsum_split. rewrite rsum_zero.
    2:{ intros j _. replace (S j + 1 - 1)%nat with (S j) by lia. rewrite pow_ne_zero by lia. ring. }
    cbn [Nat.add Nat.sub pow]. change (mq Pp i 0) with (Q2R (nth 0 (nth i Pp []) 0%Q)). rewrite C3, qdelta_delta. simpl. ring.
  - unfold dpw. rewrite <- qdelta_delta, <- C4, <- (qdsum_rsum _ _ 1 Lrp). apply rsum_ext. intros j _. rewrite pow1. change (mq Pp i j) with (Q2R (nth j (nth i Pp []) 0%Q)). rewrite Rmult_1_r. reflexivity.
  - unfold dpw. rewrite vq_nth, <- C6, <- (qdsum_rsum _ _ 2 Lr). apply rsum_ext. intros j _. rewrite pow1. change (mq P i j) with (Q2R (nth j (nth i P []) 0%Q)). rewrite Rmult_1_r. reflexivity.
  - intros -> th. cbn [implb] in C5. rewrite forallb_forall in C5. unfold dpw, pw. rewrite <- Hcc. apply rsum_ext. intros j Hj. specialize (C5 j ltac:(apply in_seq; lia)). apply Qeq_bool_eq, Qeq_eqR in C5.
    change (mq P i j) with (Q2R (nth j (nth i P []) 0%Q)). change (mR QN Pp i j) with (Q2R (nth j (nth i Pp []) 0%Q)). rewrite C5, Q2R_mult.
    replace (Q2R (Z.of_nat (j + 2) # 1)) with (INR (j + 2)) by (rewrite INR_IZR_INZ; unfold Q2R; cbn [Qnum Qden]; rewrite Rinv_1, Rmult_1_r; reflexivity).
    replace (j + 2 - 1)%nat with (j + 1)%nat by lia. ring.
Qed.

(** position after the step, with the weights bx in place of the method's *)
Definition nystrom_state (impl : dimpl RX) (n : nat) (X Xp : list (list Q)) (x : list Q) (keeps : bool) (bi : list Q) : Prop :=
  forall c to s yo h D s', y_old s = Some yo -> h_previous s = Some h -> impl c to s = Some (D, s') ->
    y s' = if keeps then y s else
      (vadd (firstn n yo) (vadd (vscale (nmul RX h h) (lincomb n (lv bi) (fst (extra_stages_n (fn c) n to yo h (lm X) (lm Xp) (lv x) (K s) (calls s))))) (vscale h (skipn n yo))) ++ skipn n (y s))%list.

Theorem nystrom_joins s A Ap b bp c e ep X Xp x P Pp n impl (keeps vd : bool) bi :
  length A = s -> length Ap = s -> length b = s -> length bp = s -> length c = s -> nth 0 c 0%Q = 0%Q -> length x = length X -> length Xp = length X -> (1 <= s)%nat ->
  joinn_ok vd s (S s + length X) (if keeps then b else bi) bp P Pp = true ->
  nystrom_impl impl n X Xp x P Pp -> nystrom_state impl n X Xp x keeps bi -> dense_joins_n (mk_tabn s A Ap b bp c e ep) impl n keeps vd.
Proof.
  intros LA LAp LB LBp LC C0 Lx LXp Hs HOK HI HS G g m cf v v' t0 y0 t1 HL HU HM Hg Hy E0 Ey E1 Hne.
  destruct (joinn_spec _ _ _ _ _ _ _ HOK) as (Hc & Hcc & HW).
  assert (Hd : (0 < n + n)%nat) by (apply (y0_pos y0 _ Hy); rewrite <- Ey; apply (made_step_ne m cf v v' HM)).
  destruct (made_step_real_n n G g s A Ap b bp c e ep m cf v v' t0 y0 t1 HL Hy LA LAp LC C0 HU HM Hg E0 Ey E1) as (ks & SF & EY & EK).
  set (h := t1 - t0) in *. assert (Hh : h <> 0) by (unfold h; lra).
  match type of EY with _ = map Fin ?z => set (yn := z) in * end.
  assert (Ln : length yn = (n + n)%nat) by apply npoint_length.
  rewrite (dense_enter _ cf v v' _ ks t0 t1 SF E0 E1 Hne) by (rewrite EY, map_length, Ln; lia).
  assert (SY := sf_yold _ _ _ _ _ SF). rewrite Ey in SY.
  destruct (HI cf (Fin t0) (st v') (map Fin y0) (Fin h) SY (sf_h _ _ _ _ _ SF)) as (s' & ES). rewrite ES.
  pose proof (HS _ _ _ _ _ _ _ SY (sf_h _ _ _ _ _ SF) ES) as EYs.
  rewrite EK, Hg in EYs. rewrite EK, Hg, E1.
  destruct (extra_all_n n G g A Ap b bp c X Xp x t0 y0 h s (calls (st v')) HL LA LAp LC Hy Lx LXp) as (cl' & EX). rewrite EX in *. cbn [fst] in *.
  set (N := (S s + length X)%nat) in *. set (RSs := nstages n G (mq (extA A b X)) (mq (extA Ap bp Xp)) (vq (extC c x)) t0 y0 h N) in *.
  assert (LR : length RSs = N) by apply nstages_length.
  assert (RK : realsK n (map (map Fin) RSs) (fun i q => nth q (nth i RSs []) 0)) by (apply (realsK_nstages n G g _ _ _ t0 y0 h N HL Hy)).
  (* the step in terms of all N stages *)
  assert (Epre : forall q w l, length l = s -> w = vq l -> lcomb s w (nstages n G (mq A) (mq Ap) (vq c) t0 y0 h s) q = lcomb N w RSs q).
  { intros q w l Ll ->. rewrite <- (nstages_ext n G (mq (extA A b X)) (mq (extA Ap bp Xp)) (vq (extC c x)) (mq A) (mq Ap) (vq c)); [apply lcomb_ext_zero2; [unfold N; lia|]; intros i Hi; apply vq_overflow; lia| | |].
    - intros i Hi. rewrite !vq_nth. unfold extC. rewrite app_nth1 by lia. reflexivity.
    - intros i l0 Hi _; unfold mq, mR, extA; rewrite app_nth1 by lia; reflexivity.
    - intros i l0 Hi _; unfold mq, mR, extA; rewrite app_nth1 by lia; reflexivity. }
  set (bx := if keeps then b else bi) in *.
  assert (HZ : exists z1, y s' = map Fin z1 /\ length z1 = (n + n)%nat /\ (keeps = true -> z1 = yn) /\ skipn n z1 = skipn n yn /\
     forall q, (q < n)%nat -> nth q z1 0 = nth q y0 0 + (h * h * lcomb N (vq bx) RSs q + h * nth (n + q) y0 0)).
  { destruct keeps.
    - exists yn. split; [exact (eq_trans EYs EY)|]. split; [exact Ln|]. split; [reflexivity|]. split; [reflexivity|]. intros q Hq. unfold yn. rewrite npoint_x by auto.
      rewrite (Epre q (vq b) b LB eq_refl). unfold bx. ring.
    - rewrite EY in EYs.
      pose proof (lincomb_reals n (map Q2R bi) _ _ RK) as HLc.
      pose proof (reals_add n _ _ _ _ (reals_firstn n n _ _ (reals_intro _ y0 Hy)) (reals_add n _ _ _ _ (reals_scale n (h * h) _ _ HLc) (reals_scale n h _ _ (reals_skipn n n _ _ (reals_intro _ y0 Hy))))) as (r & Er & Lr & Nr).
      exists (r ++ skipn n yn). split.
      { rewrite EYs. rewrite map_app. apply f_equal2; [|exact (skipn_map Fin n yn)]. rewrite <- Er. rewrite lv_fin. reflexivity. }
      split; [rewrite app_length, skipn_length, Lr, Ln; lia|]. split; [discriminate|]. split.
      { rewrite skipn_app, Lr, Nat.sub_diag. rewrite skipn_all2 by lia. reflexivity. }
      intros q Hq. rewrite app_nth1 by lia. rewrite Nr by auto. f_equal. f_equal. f_equal. unfold lcomb. rewrite map_length, LR. apply rsum_ext. intros i Hi. f_equal. rewrite nth_Q2R, vq_nth. reflexivity. }
  destruct HZ as (z1 & Ez & Lz & Hk & Hsk & Nz).
  assert (Vz : forall q, (q < n)%nat -> nth (n + q) z1 0 = nth (n + q) y0 0 + h * lcomb N (vq bp) RSs q).
  { intros q Hq. rewrite <- nth_skipn, Hsk, nth_skipn. unfold yn. rewrite npoint_v by auto. rewrite (Epre q (vq bp) bp LBp eq_refl). reflexivity. }
  eexists. exists s', yn, z1. split; [reflexivity|]. split; [exact EY|]. split; [exact Ez|]. split; [exact Hk|]. split; [exact Hsk|]. split; [exact Lz|].
  set (k i q := nth q (nth i RSs []) 0).
  set (px q z := nth q y0 0 + ((z - t0) / h * h * nth (n + q) y0 0 + h * (h * rsum N (fun i => pw QN 2 (qcols P) P ((z - t0) / h) i * k i q)))).
  set (pv q z := wval N (pw QN 1 (qcols Pp) Pp) (fun q => nth (n + q) y0 0) k t0 h z q).
  set (val x q := if Nat.ltb q n then px q x else pv (q - n)%nat x).
  match goal with |- joins _ ?D _ _ _ _ _ _ /\ _ => set (DD := D) end.
  assert (HV : forall z, call DD (Fin z) = map Fin (ind (n + n) (val z)) /\ length (ind (n + n) (val z)) = (n + n)%nat).
  { intros z. split; [|apply ind_len].
    pose proof (call_nystrom n P Pp t0 h ((z - t0) / h) (map Fin y0) _ _ _ Hh ltac:(lia) ltac:(lia) (reals_intro _ y0 Hy) RK) as HR.
    replace (t0 + h) with t1 in HR by (unfold h; ring). replace (t0 + (z - t0) / h * h) with z in HR by (field; auto).
    destruct HR as (r & Er & Lr & Nr). unfold DD. refine (eq_trans Er _). f_equal. apply nth_eq_list; [rewrite ind_len; auto|]. intros q Hq. rewrite ind_nth by congruence. rewrite Nr by congruence.
    rewrite map_length, LR. unfold val. destruct (Nat.ltb_spec q n); [reflexivity|]. unfold pv, wval. replace (n + (q - n))%nat with q by lia. reflexivity. }
  assert (Vx : forall x q, (q < n)%nat -> nth q (ind (n + n) (val x)) 0 = px q x).
  { intros z q Hq. rewrite ind_nth by lia. unfold val. destruct (Nat.ltb_spec q n); [reflexivity|lia]. }
  assert (Vv : forall x q, (q < n)%nat -> nth (n + q) (ind (n + n) (val x)) 0 = pv q x).
  { intros z q Hq. rewrite ind_nth by lia. unfold val. destruct (Nat.ltb_spec (n + q) n); [lia|]. replace (n + q - n)%nat with q by lia. reflexivity. }
  assert (T1 : (t1 - t0) / h = 1) by (unfold h; field; unfold h in Hh; auto).
  assert (T0 : (t0 - t0) / h = 0) by (field; auto).
  set (pd q th := nth (n + q) y0 0 + h * rsum N (fun i => dpw 2 (qcols P) P th i * k i q)).
  assert (Dx : forall q z, derivable_pt_lim (px q) z (pd q ((z - t0) / h))).
  { intros q z. unfold px. apply dlim_shift. unfold pd.
    replace z with (t0 + (z - t0) / h * h) at 1 by (field; auto). set (th := (z - t0) / h).
    replace (nth (n + q) y0 0 + h * rsum N (fun i => dpw 2 (qcols P) P th i * k i q)) with ((h * nth (n + q) y0 0 + h * (h * rsum N (fun i => dpw 2 (qcols P) P th i * k i q))) / h) by (field; auto).
    apply (dlim_lin (fun s => s * h * nth (n + q) y0 0 + h * (h * rsum N (fun i => pw QN 2 (qcols P) P s i * k i q)))); auto.
    apply (derivable_pt_lim_plus (fun s => s * h * nth (n + q) y0 0)).
    - replace (h * nth (n + q) y0 0) with (1 * (h * nth (n + q) y0 0)) by ring. eapply derivable_pt_lim_ext; [|apply (dlim_scal_r (h * nth (n + q) y0 0) id), derivable_pt_lim_id]. intros; unfold id; simpl; ring.
    - apply dlim_scal, dlim_scal. apply (dlim_rsum N (fun i s => pw QN 2 (qcols P) P s i * k i q) (fun i => dpw 2 (qcols P) P th i * k i q)). intros i Hi. apply dlim_scal_r. apply dlim_pw. lia. }
  assert (D0 : forall q, pd q 0 = nth (n + q) y0 0).
  { intros q. unfold pd. rewrite rsum_zero; [ring|]. intros i _. unfold dpw. rewrite rsum_zero; [ring|]. intros j _. rewrite (pow_ne_zero (j + 2 - 1)) by lia. ring. }
  assert (D1 : forall q, (q < n)%nat -> pd q 1 = nth (n + q) z1 0).
  { intros q Hq. unfold pd. rewrite Vz by auto. f_equal. f_equal. unfold lcomb. apply rsum_ext. intros i Hi. destruct (HW i Hi) as (_ & _ & _ & _ & -> & _). reflexivity. }
  assert (Dv : vd = true -> forall q z, pd q ((z - t0) / h) = pv q z).
  { intros Hvd q z. unfold pd, pv, wval. f_equal. f_equal. apply rsum_ext. intros i Hi. destruct (HW i Hi) as (_ & _ & _ & _ & _ & E). rewrite (E Hvd). reflexivity. }
  assert (PZ : forall e0 i, (0 < e0)%nat -> forall cols M, pw QN e0 cols M 0 i = 0).
  { intros e0 i He0 cols M. unfold pw. apply rsum_zero. intros j _. rewrite pow_ne_zero by lia. ring. }
  assert (P0 : forall q, px q t0 = nth q y0 0).
  { intros q. unfold px. rewrite T0. rewrite rsum_zero; [ring|]. intros i _. rewrite PZ by lia. ring. }
  assert (P1 : forall q, (q < n)%nat -> px q t1 = nth q z1 0).
  { intros q Hq. unfold px. rewrite T1, Nz by auto. f_equal. unfold lcomb. rewrite (rsum_ext N (fun i => pw QN 2 (qcols P) P 1 i * k i q) (fun i => vq bx i * k i q)); [unfold k; ring|]. intros i Hi. destruct (HW i Hi) as (-> & _). reflexivity. }
  assert (V0 : forall q, pv q t0 = nth (n + q) y0 0).
  { intros q. unfold pv, wval. rewrite T0. rewrite rsum_zero; [ring|]. intros i _. rewrite PZ by lia. ring. }
  assert (V1 : forall q, (q < n)%nat -> pv q t1 = nth (n + q) z1 0).
  { intros q Hq. unfold pv, wval. rewrite T1, Vz by auto. f_equal. f_equal. unfold lcomb. apply rsum_ext. intros i Hi. destruct (HW i Hi) as (_ & -> & _). reflexivity. }
  assert (K0 : forall q, k 0%nat q = nth q (G t0 y0) 0).
  { intros q. unfold k, RSs. rewrite nstages_nth by (unfold N; lia). rewrite vq_nth. unfold extC. rewrite app_nth1 by lia. rewrite C0, Q2R_0'. replace (t0 + 0 * h) with t0 by ring.
    f_equal. f_equal. apply nth_eq_list; [rewrite npoint_length; auto|]. intros j Hj. rewrite npoint_length in Hj. destruct (Nat.ltb_spec j n).
    - rewrite npoint_x by auto. unfold lcomb. simpl. ring.
    - replace j with (n + (j - n))%nat by lia. rewrite npoint_v by lia. unfold lcomb. simpl. ring. }
  assert (K1 : forall q, k s q = nth q (G t1 yn) 0).
  { intros q. unfold k, RSs.
    pose proof (ext_all_n n G g A Ap b bp c t0 y0 h s HL LA LAp LC Hy) as EA. cbv zeta in EA. fold yn in EA. rewrite <- (ext_prefix_n n G A Ap b bp c X Xp x t0 y0 h s LA LAp LC) in EA.
    rewrite nstages_nth by (unfold N; lia).
    rewrite <- (nstages_nth n G (mq (extA A b X)) (mq (extA Ap bp Xp)) (vq (extC c x)) t0 y0 h (S s) s) by lia. rewrite EA.
    rewrite app_nth2 by (rewrite nstages_length; lia). rewrite nstages_length, Nat.sub_diag. cbn [nth]. replace (t0 + h) with t1 by (unfold h; ring). reflexivity. }
  assert (A0 : forall q, derivable_pt_lim (pv q) t0 (nth q (G t0 y0) 0)).
  { intros q. pose proof (wval_lim N (pw QN 1 (qcols Pp) Pp) (dpw 1 (qcols Pp) Pp 0) (fun q => nth (n + q) y0 0) k t0 h 0 q Hh (fun i _ => dlim_pw 1 _ _ i 0 ltac:(lia))) as L. rewrite Rmult_0_l, Rplus_0_r in L.
    rewrite (rsum_ext N _ (fun i => delta 0 i * k i q)) in L by (intros i Hi; destruct (HW i Hi) as (_ & _ & -> & _); reflexivity). rewrite (rsum_delta N 0 (fun i => k i q)) in L by (unfold N; lia). rewrite K0 in L. exact L. }
  assert (A1 : forall q, derivable_pt_lim (pv q) t1 (nth q (G t1 yn) 0)).
  { intros q. pose proof (wval_lim N (pw QN 1 (qcols Pp) Pp) (dpw 1 (qcols Pp) Pp 1) (fun q => nth (n + q) y0 0) k t0 h 1 q Hh (fun i _ => dlim_pw 1 _ _ i 1 ltac:(lia))) as L. replace (t0 + 1 * h) with t1 in L by (unfold h; ring).
    rewrite (rsum_ext N _ (fun i => delta s i * k i q)) in L by (intros i Hi; destruct (HW i Hi) as (_ & _ & _ & -> & _); reflexivity). rewrite (rsum_delta N s (fun i => k i q)) in L by (unfold N; lia). rewrite K1 in L. exact L. }
  split.
  - exists (fun x => ind (n + n) (val x)). split; [exact HV|]. split; [|split].
    + apply nth_eq_list; [rewrite ind_len; auto|]. intros q Hq. rewrite ind_len in Hq. destruct (Nat.ltb_spec q n).
      * rewrite Vx by auto. apply P0.
      * replace q with (n + (q - n))%nat by lia. rewrite Vv by lia. apply V0.
    + apply nth_eq_list; [rewrite ind_len; auto|]. intros q Hq. rewrite ind_len in Hq. destruct (Nat.ltb_spec q n).
      * rewrite Vx by auto. apply P1. auto.
      * replace q with (n + (q - n))%nat by lia. rewrite Vv by lia. apply V1. lia.
    + intros q Hq. destruct (Nat.ltb_spec q n).
      * rewrite !app_nth1 by (rewrite skipn_length; lia). rewrite !nth_skipn. rewrite <- D0, <- D1 by auto. pose proof (Dx q t0) as X0. pose proof (Dx q t1) as X1. rewrite T0 in X0. rewrite T1 in X1.
        split; (apply (derivable_pt_lim_ext (px q)); [intros z; symmetry; apply Vx; auto|assumption]).
      * rewrite !app_nth2 by (rewrite skipn_length; lia). rewrite !skipn_length, Hy, Lz. replace (q - (n + n - n))%nat with (q - n)%nat by lia.
        split; (apply (derivable_pt_lim_ext (pv (q - n)%nat)); [intros z; symmetry; replace q with (n + (q - n))%nat at 1 by lia; apply Vv; lia|first [apply A0|apply A1]]).
  - intros Hvd. exists (fun x => ind (n + n) (val x)). split; [exact HV|]. intros q Hq z. rewrite Vv by auto. rewrite <- (Dv Hvd).
    apply (derivable_pt_lim_ext (px q)); [intros z'; symmetry; apply Vx; auto|apply Dx].
Qed.

Lemma nystrom_state_free n P Pp : nystrom_state (dense_rkn n (lm P) (lm Pp)) n [] [] [] true [].
Proof. intros c to s yo h D s' Hy Hh H. unfold dense_rkn in H. rewrite Hy in H. injection H as _ <-. reflexivity. Qed.
Lemma nystrom_state_fi5n1 n : nystrom_state (dense_fi5n 1 n) n Fi5N_A_extra1 Fi5N_Ap_extra1 Fi5N_C_extra1 false Fi5N_Bi.
Proof.
  intros c to s yo h D s' Hy Hh H. unfold dense_fi5n in H. rewrite Hy, Hh in H. cbn [fi5n_extra] in H.
  destruct (extra_stages_n _ _ _ _ _ _ _ _ _ _) as [K' cl]. injection H as _ <-. cbn [fst y with_calls Nat.eqb]. reflexivity.
Qed.
Lemma nystrom_state_fi5n2 n : nystrom_state (dense_fi5n 2 n) n Fi5N_A_extra2 Fi5N_Ap_extra2 Fi5N_C_extra2 true [].
Proof.
  intros c to s yo h D s' Hy Hh H. unfold dense_fi5n in H. rewrite Hy, Hh in H. cbn [fi5n_extra] in H.
  destruct (extra_stages_n _ _ _ _ _ _ _ _ _ _) as [K' cl]. injection H as _ <-. reflexivity.
Qed.
Lemma nystrom_state_mu5 n : nystrom_state (dense_mu5 false n) n [Mu5Nmb_A_extra] [Mu5Nmb_Ap_extra] [Mu5Nmb_C_extra] true [].
Proof.
  intros c to s yo h D s' Hy Hh H. unfold dense_mu5 in H. rewrite Hy, Hh in H.
  destruct (extra_stages_n _ _ _ _ _ _ _ _ _ _) as [K' cl]. injection H as _ <-. reflexivity.
Qed.
