(** Order of accuracy of the dense outputs (first order systems). *)
From Coq Require Import String Reals Lra QArith Qreals Lia List Arith Bool FunctionalExtensionality.
From Verif Require Import Arith Common RK RKGen RKHist RX SpecRK RKSpecProofs RKTop Classes Tableaux Series Trees OrderThm OrderCheck OrderRK OrderRKN OrderModel OrderPair OrderPairN Dense DenseReal DenseStep.
Import ListNotations.
Close Scope string_scope.
Open Scope nat_scope.
Open Scope R_scope.

(** ** all checks for one interpolant on the tableau extended by the new point and
    the extra stages X *)
Definition ext_ok (s : nat) (A : list (list Q)) (b c : list Q) (X : list (list Q)) (x : list Q) : bool :=
  Nat.eqb (length A) s && Nat.eqb (length b) s && Nat.eqb (length c) s && Nat.eqb (length x) (length X) &&
  lower (extA A b X) && match nth 0 c 0%Q with (0 # 1)%Q => true | _ => false end.
Definition interp_ok (s : nat) (A : list (list Q)) (b c : list Q) (X : list (list Q)) (x : list Q) (P : list (list Q)) (p : nat) : bool :=
  ext_ok s A b c X x && Nat.leb 1 (qcols P) &&
  checkP QN (snd (tables QN false true (extC c x) [] (extA A b X) p)) p (qcols P) P (rhsV QN).

Lemma ext_ok_spec s A b c X x : ext_ok s A b c X x = true ->
  length A = s /\ length b = s /\ length c = s /\ length x = length X /\ nth 0 c 0%Q = 0%Q /\
  (forall i l, (i <= l)%nat -> mq (extA A b X) i l = 0) /\
  length (extC c x) = (S s + length X)%nat /\ length (extA A b X) = (S s + length X)%nat.
Proof.
  intros H. unfold ext_ok in H. repeat rewrite andb_true_iff in H. destruct H as (((((HA & Hb) & Hc) & Hx) & Hlow) & Hc0).
  apply Nat.eqb_eq in HA, Hb, Hc, Hx.
  split; [auto|]. split; [auto|]. split; [auto|]. split; [auto|].
  split; [destruct (nth 0 c 0%Q) as [[| |] [| |]]; try discriminate Hc0; reflexivity|].
  split; [apply lower_spec; auto|]. unfold extC, extA. rewrite !app_length. simpl. lia.
Qed.

Lemma pw_bound P cols th i : Rabs th <= 1 -> Rabs (pw QN 1 cols P th i) <= rsum cols (fun j => Rabs (mR QN P i j)).
Proof.
  intros H. unfold pw. apply rsum_abs_le'. intros j _. rewrite Rabs_mult. rewrite <- (Rmult_1_r (Rabs (mR QN P i j))) at 2.
  apply Rmult_le_compat_l; [apply Rabs_pos|]. rewrite <- RPow_abs. rewrite <- (pow1 (j + 1)). apply pow_incr. split; [apply Rabs_pos|auto].
Qed.

Section Interp.
Variables (s : nat) (A : list (list Q)) (b c : list Q) (X : list (list Q)) (x : list Q) (P : list (list Q)) (p : nat).
Hypothesis HOK : interp_ok s A b c X x P p = true.
Notation N := (S s + length X)%nat.
Notation RS F t y h := (rstages F (mq (extA A b X)) (vq (extC c x)) t y h N).

Lemma interp_real d F t0 y0 Y : length y0 = d -> smooth_at p F t0 y0 -> solves F t0 y0 Y ->
  exists C del, 0 < del /\ forall th h, 0 <= th <= 1 -> Rabs h < del -> forall q, (q < d)%nat ->
    Rabs (nth q y0 0 + h * lcomb N (pw QN 1 (qcols P) P th) (RS F t0 y0 h) q - nth q (Y (t0 + th * h)) 0) <= C * Rabs h ^ S p.
Proof.
  intros Hy HF HY. unfold interp_ok in HOK. rewrite !andb_true_iff in HOK. destruct HOK as ((He & Hc) & HC). apply Nat.leb_le in Hc.
  destruct (ext_ok_spec s A b c X x He) as (LA & LB & LC & Lx & C0 & Hlow & L1 & L2).
  destruct (weights_bound N (fun i => rsum (qcols P) (fun j => Rabs (mR QN P i j)))) as (B & HB & Hb).
  apply (uniform_q d (S p) (fun th => 0 <= th <= 1) (fun q th h => nth q y0 0 + h * lcomb N (pw QN 1 (qcols P) P th) (RS F t0 y0 h) q - nth q (Y (t0 + th * h)) 0)).
  intros q Hq.
  apply (rk_order F t0 y0 p HF Y HY N (mq (extA A b X)) (vq (extC c x)) Hlow (fun th => 0 <= th <= 1) (pw QN 1 (qcols P) P) B p q); try lia; auto.
  intros th Hth. assert (Ha : Rabs th <= 1) by (apply Rabs_le; lra). split; [exact Ha|]. split.
  - intros i Hi. eapply Rle_trans; [apply pw_bound; exact Ha|]. eapply Rle_trans; [apply Rle_abs|apply Hb; exact Hi].
  - assert (E := checkP_V QN false true (extC c x) [] (extA A b X) ltac:(discriminate) (fun _ => eq_trans L2 (eq_sym L1)) p p (qcols P) P th ltac:(lia) HC).
    rewrite mR_nil in E. change (@length QN (extC c x)) with (length (extC c x)) in E. rewrite L1 in E. exact E.
Qed.
End Interp.

(** ** dense output of a solver *)
(** [impl] gives, after every successful step of the method with tableau T, a dense
    output whose value at every fraction theta of the step has error O(h^(p+1)) *)
Definition dense_accurate (T : Tab RX) (impl : dimpl RX) (d p : nat) : Prop :=
  forall F t0 y0 Y g, lifts d F g -> length y0 = d -> smooth_at p F t0 y0 -> solves F t0 y0 Y ->
  exists C del, 0 < del /\ forall m c v v' t1 th, uses_tab m T d -> made_step m c v v' -> fn c = g ->
    t (st v) = Fin t0 -> y (st v) = map Fin y0 -> t (st v') = Fin t1 -> t1 <> t0 -> Rabs (t1 - t0) < del -> 0 <= th <= 1 ->
    exists D s' r, dense_output impl c v' = DenseOk D s' /\
      call D (Fin (t0 + th * (t1 - t0))) = map Fin r /\ length r = d /\
      forall q, (q < d)%nat -> Rabs (nth q r 0 - nth q (Y (t0 + th * (t1 - t0))) 0) <= C * Rabs (t1 - t0) ^ S p.

Lemma dense_enter impl c v v' h ks t0 t1 : step_facts c v v' h ks -> t (st v) = Fin t0 -> t (st v') = Fin t1 -> t1 <> t0 -> length (y (st v')) <> 0%nat ->
  dense_output impl c v' = match impl c (Fin t0) (st v') with Some (d, s) => DenseOk d s | None => @DenseExn RX (AttributeError "y_old"%string) end.
Proof.
  intros SF E0 E1 Hne HL. unfold dense_output. rewrite (sf_told _ _ _ _ _ SF), E0, E1.
  destruct (Nat.eqb_spec (length (y (st v'))) 0); [contradiction|].
  replace (neqb RX (Fin t1) (Fin t0)) with false; [reflexivity|]. symmetry. apply Reqb_false. exact Hne.
Qed.

(** the step in real terms *)
Lemma made_step_real d F g s A b c e m cf v v' t0 y0 t1 : lifts d F g -> length y0 = d -> (0 < d)%nat -> length A = s -> length b = s -> length c = s ->
  nth 0 c 0%Q = 0%Q -> uses_tab m (mk_tab s A b c e) d -> made_step m cf v v' -> fn cf = g -> t (st v) = Fin t0 -> y (st v) = map Fin y0 ->
  t (st v') = Fin t1 -> 
  let h := t1 - t0 in let rs := rstages F (mq A) (vq c) t0 y0 h s in
  exists ks, step_facts cf v v' (Fin h) ks /\ y (st v') = map Fin (rpoint d y0 h (lcomb s (vq b) rs)) /\
    K (st v') = map (map Fin) (rstages F (mq (extA A b [])) (vq (extC c [])) t0 y0 h (S s)).
Proof.
  intros HL Hy Hd LA LB LC C0 HU HM Hg E0 Ey E1 h rs.
  destruct (made_step_facts m _ d cf v v' HU HM) as (hx & ks & HT & SF).
  pose proof (sf_t _ _ _ _ _ SF) as Et. rewrite E0, E1 in Et. symmetry in Et. apply Fin_add_inv in Et. fold h in Et. subst hx.
  rewrite E0, E1, Ey, Hg in HT.
  destruct (textbook_real d F g s A b c e t0 y0 h ks _ _ HL Hy C0 HT) as (Eks & _ & EY). fold rs in Eks, EY.
  exists ks. split; [exact SF|]. split; [exact EY|]. rewrite (sf_K _ _ _ _ _ SF), Hg, E1, EY.
  rewrite (ext_all d F g A b c t0 y0 h s HL LA LB LC Hy). fold rs. rewrite map_app, Eks. f_equal. cbn [map]. f_equal.
  replace (t0 + h) with t1 by (unfold h; ring). apply HL. apply rpoint_len.
Qed.

Lemma y0_pos (y0 : list R) d : length y0 = d -> map Fin y0 <> [] -> (0 < d)%nat.
Proof. intros H E. destruct y0; [contradiction|]. simpl in H. lia. Qed.

Lemma made_step_ne {A : Arith} (m : Meth A) c v v' : made_step m c v v' -> y (st v) <> [].
Proof. intros (v0 & j & k & _ & _ & _ & _ & H & _). exact H. Qed.

Theorem dense_rk_accurate s A b c e P p d : interp_ok s A b c [] [] P p = true ->
  dense_accurate (mk_tab s A b c e) (dense_rk d (lm P)) d p.
Proof.
  intros HOK F t0 y0 Y g HL Hy HF HY.
  destruct (interp_real s A b c [] [] P p HOK d F t0 y0 Y Hy HF HY) as (C & del & Hdel & H).
  exists C, del. split; auto. intros m cf v v' t1 th HU HM Hg E0 Ey E1 Hne Hh Hth.
  pose proof HOK as HOK'. unfold interp_ok in HOK'. rewrite !andb_true_iff in HOK'. destruct HOK' as ((He & Hc) & _). apply Nat.leb_le in Hc.
  destruct (ext_ok_spec s A b c [] [] He) as (LA & LB & LC & _ & C0 & _ & _ & _).
  assert (Hd : (0 < d)%nat) by (apply (y0_pos y0 d Hy); rewrite <- Ey; apply (made_step_ne m cf v v' HM)).
  destruct (made_step_real d F g s A b c e m cf v v' t0 y0 t1 HL Hy Hd LA LB LC C0 HU HM Hg E0 Ey E1) as (ks & SF & EY & EK).
  rewrite (dense_enter _ cf v v' _ ks t0 t1 SF E0 E1 Hne) by (rewrite EY, map_length, rpoint_len; lia).
  unfold dense_rk. rewrite (sf_yold _ _ _ _ _ SF), E1, EK, Ey.
  set (h := t1 - t0) in *.
  pose proof (call_horner d P t0 h th (map Fin y0) _ _ _ ltac:(unfold h; lra) Hc (reals_intro d y0 Hy)
     (realsK_stages d F g (mq (extA A b [])) (vq (extC c [])) t0 y0 h (S s) HL Hy)) as HR.
  replace (t0 + h) with t1 in HR by (unfold h; ring). destruct HR as (r & Er & Lr & Nr).
  eexists. eexists. exists r. split; [reflexivity|]. split; [exact Er|]. split; [exact Lr|].
  intros q Hq. rewrite Nr by auto. rewrite map_length, rstages_length.
  specialize (H th h Hth Hh q Hq). replace (S s + length (@nil (list Q)))%nat with (S s) in H by (simpl; lia). exact H.
Qed.


(** ** interpolants with extra stages (BS5 'low') *)
Lemma ext_prefix F A b c X x t y h s : length A = s -> length c = s ->
  rstages F (mq (extA A b X)) (vq (extC c x)) t y h (S s) = rstages F (mq (extA A b [])) (vq (extC c [])) t y h (S s).
Proof.
  intros LA LC. apply rstages_ext.
  - intros i Hi. rewrite !vq_nth. unfold extC. destruct (Nat.eq_dec i s) as [->|].
    + rewrite !app_nth2 by lia. rewrite LC, Nat.sub_diag. reflexivity.
    + rewrite !app_nth1 by lia. reflexivity.
  - intros i l Hi _. unfold mq, mR, extA. destruct (Nat.eq_dec i s) as [->|].
    + rewrite !app_nth2 by lia. rewrite LA, Nat.sub_diag. reflexivity.
    + rewrite !app_nth1 by lia. reflexivity.
Qed.

Lemma extra_all d F g A b c X x t y h s cl : lifts d F g -> length A = s -> length c = s -> length y = d -> length x = length X ->
  exists cl', extra_stages g d (Fin t) (map Fin y) (Fin h) (lm X) (lv x)
    (map (map Fin) (rstages F (mq (extA A b [])) (vq (extC c [])) t y h (S s))) cl
  = (map (map Fin) (rstages F (mq (extA A b X)) (vq (extC c x)) t y h (S s + length X)), cl').
Proof.
  intros HL LA LC Ly Lx. rewrite <- (ext_prefix F A b c X x t y h s LA LC).
  destruct (extra_stages_real d F g A b c X x t y h HL ltac:(lia) Ly Lx X [] [] x cl eq_refl eq_refl eq_refl) as (cl' & E).
  rewrite LA in E. simpl (length []) in E. rewrite Nat.add_0_r in E. exists cl'. exact E.
Qed.

(** the dense outputs of this file with extra stages X, x and the polynomial P *)
Definition dense_xrk (n : nat) (X : list (list Q)) (x : list Q) (P : list (list Q)) : dimpl RX := fun c to s =>
  match y_old s, h_previous s with
  | Some yo, Some h =>
    let '(K', cl) := extra_stages (fn c) n to yo h (lm X) (lv x) (K s) (calls s) in
    Some (mk_horner to (t s) yo (KtP n K' (lm P)), with_calls s (K s) cl (y s))
  | _, _ => None end.
Lemma dense_bs5_low_xrk n : dense_bs5_low n = dense_xrk n (firstn 1 BS5_A_extra) (firstn 1 BS5_C_extra) BS5_Plow.
Proof. reflexivity. Qed.

Theorem dense_xrk_accurate s A b c e X x P p d : interp_ok s A b c X x P p = true ->
  dense_accurate (mk_tab s A b c e) (dense_xrk d X x P) d p.
Proof.
  intros HOK F t0 y0 Y g HL Hy HF HY.
  destruct (interp_real s A b c X x P p HOK d F t0 y0 Y Hy HF HY) as (C & del & Hdel & H).
  exists C, del. split; auto. intros m cf v v' t1 th HU HM Hg E0 Ey E1 Hne Hh Hth.
  pose proof HOK as HOK'. unfold interp_ok in HOK'. rewrite !andb_true_iff in HOK'. destruct HOK' as ((He & Hc) & _). apply Nat.leb_le in Hc.
  destruct (ext_ok_spec s A b c X x He) as (LA & LB & LC & Lx & C0 & _ & _ & _).
  assert (Hd : (0 < d)%nat) by (apply (y0_pos y0 d Hy); rewrite <- Ey; apply (made_step_ne m cf v v' HM)).
  destruct (made_step_real d F g s A b c e m cf v v' t0 y0 t1 HL Hy Hd LA LB LC C0 HU HM Hg E0 Ey E1) as (ks & SF & EY & EK).
  rewrite (dense_enter _ cf v v' _ ks t0 t1 SF E0 E1 Hne) by (rewrite EY, map_length, rpoint_len; lia).
  unfold dense_xrk. rewrite (sf_yold _ _ _ _ _ SF), (sf_h _ _ _ _ _ SF), E1, EK, Ey, Hg.
  set (h := t1 - t0) in *.
  destruct (extra_all d F g A b c X x t0 y0 h s (calls (st v')) HL LA LC Hy Lx) as (cl' & EX). rewrite EX.
  pose proof (call_horner d P t0 h th (map Fin y0) _ _ _ ltac:(unfold h; lra) Hc (reals_intro d y0 Hy)
     (realsK_stages d F g (mq (extA A b X)) (vq (extC c x)) t0 y0 h (S s + length X) HL Hy)) as HR.
  replace (t0 + h) with t1 in HR by (unfold h; ring). destruct HR as (r & Er & Lr & Nr).
  eexists. eexists. exists r. split; [reflexivity|]. split; [exact Er|]. split; [exact Lr|].
  intros q Hq. rewrite Nr by auto. rewrite map_length, rstages_length.
  exact (H th h Hth Hh q Hq).
Qed.

(** ** BS5 'best': polynomial in (t - t_new)/h, added to the new value *)
Definition interp_best_ok (s : nat) (A : list (list Q)) (b c : list Q) (X : list (list Q)) (x : list Q) (P : list (list Q)) (p : nat) : bool :=
  ext_ok s A b c X x && Nat.leb 1 (qcols P) &&
  let tb := snd (tables QN false true (extC c x) [] (extA A b X) p) in
  check QN tb p b (rhsV QN) && checkB QN tb p (qcols P) P.

Section InterpB.
Variables (s : nat) (A : list (list Q)) (b c : list Q) (X : list (list Q)) (x : list Q) (P : list (list Q)) (p : nat).
Hypothesis HOK : interp_best_ok s A b c X x P p = true.
Notation N := (S s + length X)%nat.
Notation RS F t y h := (rstages F (mq (extA A b X)) (vq (extC c x)) t y h N).

Lemma interp_best_real d F t0 y0 Y : length y0 = d -> smooth_at p F t0 y0 -> solves F t0 y0 Y ->
  exists C del, 0 < del /\ forall th h, 0 <= th <= 1 -> Rabs h < del -> forall q, (q < d)%nat ->
    Rabs (nth q y0 0 + h * lcomb N (fun i => vq b i + pw QN 1 (qcols P) P (th - 1) i) (RS F t0 y0 h) q - nth q (Y (t0 + th * h)) 0) <= C * Rabs h ^ S p.
Proof.
  intros Hy HF HY. unfold interp_best_ok in HOK. cbv zeta in HOK. rewrite !andb_true_iff in HOK. destruct HOK as ((He & Hc) & HC & HB'). apply Nat.leb_le in Hc.
  destruct (ext_ok_spec s A b c X x He) as (LA & LB & LC & Lx & C0 & Hlow & L1 & L2).
  destruct (weights_bound N (fun i => Rabs (vq b i) + rsum (qcols P) (fun j => Rabs (mR QN P i j)))) as (B & HB & Hb).
  apply (uniform_q d (S p) (fun th => 0 <= th <= 1) (fun q th h => nth q y0 0 + h * lcomb N (fun i => vq b i + pw QN 1 (qcols P) P (th - 1) i) (RS F t0 y0 h) q - nth q (Y (t0 + th * h)) 0)).
  intros q Hq.
  apply (rk_order F t0 y0 p HF Y HY N (mq (extA A b X)) (vq (extC c x)) Hlow (fun th => 0 <= th <= 1) (fun th i => vq b i + pw QN 1 (qcols P) P (th - 1) i) B p q); try lia; auto.
  intros th Hth. split; [apply Rabs_le; lra|]. split.
  - intros i Hi. eapply Rle_trans; [apply Rabs_triang|]. eapply Rle_trans; [apply Rplus_le_compat_l, pw_bound; apply Rabs_le; lra|].
    eapply Rle_trans; [apply Rle_abs|apply (Hb i Hi)].
  - assert (E := checkB_V QN false true (extC c x) [] (extA A b X) ltac:(discriminate) (fun _ => eq_trans L2 (eq_sym L1)) p p (qcols P) P b th ltac:(lia) HC HB').
    rewrite mR_nil in E. change (@length QN (extC c x)) with (length (extC c x)) in E. rewrite L1 in E. exact E.
Qed.
End InterpB.

Lemma reals_zero d : reals d (repeat (@n0 RX) d) (fun _ => 0).
Proof.
  exists (repeat 0 d). split.
  - unfold n0, lit. cbn [nofQ RX]. rewrite Q2R_0'. induction d; simpl; f_equal; auto.
  - split; [apply repeat_length|]. intros q Hq. apply nth_repeat.
Qed.
Definition isum (l : list nat) (f : nat -> R) : R := fold_left (fun a i => a + f i) l 0.
Lemma vsum_idx_reals d KP kp idx : realsK d KP kp -> (forall i, In i idx -> (i < length KP)%nat) ->
  reals d (vsum_idx d KP idx) (fun q => isum idx (fun i => kp i q)).
Proof.
  intros HK Hi. unfold vsum_idx, isum.
  assert (G : forall idx acc r, (forall i, In i idx -> (i < length KP)%nat) -> reals d acc r ->
     reals d (fold_left (fun acc i => vadd acc (nth i KP [])) idx acc) (fun q => fold_left (fun a i => a + kp i q) idx (r q))).
  { intros l; induction l as [|i l IH]; intros acc r Hl Hr; cbn [fold_left]; [exact Hr|].
    apply (IH _ (fun q => r q + kp i q)); [intros j Hj; apply Hl; right; auto|]. apply reals_add; auto. apply HK. apply Hl. left; auto. }
  apply (G idx _ (fun _ => 0)); auto. apply reals_zero.
Qed.
Lemma map2_vscale_reals d w K k : length w = length K -> realsK d K k ->
  length (map2 vscale (map Fin w) K) = length K /\
  realsK d (map2 vscale (map Fin w) K) (fun i q => nth i w 0 * k i q).
Proof.
  revert K k. induction w as [|a w IH]; intros [|v K] k L HK; try discriminate L.
  - split; [reflexivity|]. intros i Hi. simpl in Hi. lia.
  - injection L as L. destruct (IH K (fun i => k (S i)) L ltac:(intros i Hi; apply (HK (S i)); apply -> Nat.succ_lt_mono; exact Hi)) as (L' & H').
    cbn [map map2]. split; [cbn [length]; f_equal; exact L'|].
    intros [|i] Hi; cbn [nth].
    + apply reals_scale. apply (HK 0%nat). apply Nat.lt_0_succ.
    + apply (H' i). exact (proj2 (Nat.succ_lt_mono _ _) Hi).
Qed.
Lemma bs5_best_reals d K k : length K = 11%nat -> realsK d K k ->
  length (bs5_best_Q d K) = 6%nat /\
  realsK d (bs5_best_Q d K) (fun j q => rsum 11 (fun i => mq BS5_Pbest i j * k i q)).
Proof.
  intros LK HK. unfold bs5_best_Q. split; [reflexivity|].
  assert (G : forall j, In j [1;2;3;4;5]%nat -> reals d (vsum_idx d (map2 vscale (column j (lm BS5_Pbest)) K) (bs5_order j))
                                       (fun q => rsum 11 (fun i => mq BS5_Pbest i j * k i q))).
  { intros j Hj. assert (Ecol : column j (@lm RX BS5_Pbest) = map Fin (map (fun i => mq BS5_Pbest i j) (seq 0 11))).
    { unfold column, mq, mR, vR, BS5_Pbest. cbn [seq map lm]. repeat f_equal;
      destruct Hj as [<-|[<-|[<-|[<-|[<-|[]]]]]]; reflexivity. }
    rewrite Ecol. destruct (map2_vscale_reals d (map (fun i => mq BS5_Pbest i j) (seq 0 11)) K k) as (L' & H'); [rewrite LK; reflexivity|exact HK|].
    eapply reals_ext; [eapply vsum_idx_reals; [exact H'|]|].
    - intros i Hi. eapply Nat.lt_le_trans; [|apply Nat.eq_le_incl; symmetry; exact (eq_trans L' LK)].
      destruct Hj as [<-|[<-|[<-|[<-|[<-|[]]]]]]; simpl in Hi; repeat (destruct Hi as [<-|Hi]; [lia|]); destruct Hi.
    - intros q Hq. assert (Z : mq BS5_Pbest 1 j = 0) by (destruct Hj as [<-|[<-|[<-|[<-|[<-|[]]]]]]; unfold mq, mR, vR; simpl; apply Q2R_0').
      destruct Hj as [<-|[<-|[<-|[<-|[<-|[]]]]]]; unfold isum; cbn [bs5_order fold_left seq map nth rsum]; rewrite Z; ring. }
  intros [|j] Hj.
  - cbn [nth]. eapply reals_ext; [apply (HK 7%nat); rewrite LK; lia|]. intros q Hq. cbn [rsum].
    assert (Z : forall i, (i < 11)%nat -> i <> 7%nat -> mq BS5_Pbest i 0 = 0).
    { intros i Hi H7. do 11 (destruct i as [|i]; [first [exfalso; lia | unfold mq, mR, vR, BS5_Pbest; cbn [nth cv QN]; apply Q2R_0']|]). lia. }
    assert (O : mq BS5_Pbest 7 0 = 1) by (unfold mq, mR, vR; simpl; apply Q2R_1').
    rewrite O. rewrite !Z by lia. ring.
  - cbn [nth map]. cbn [length map] in Hj. do 5 (destruct j as [|j]; [cbn [nth]; apply G; simpl; tauto|]). lia.
Qed.

Definition BS5_s : nat := 7%nat.
Theorem dense_bs5_best_accurate e p d : interp_best_ok 7 BS5_A BS5_B BS5_C BS5_A_extra BS5_C_extra BS5_Pbest p = true ->
  dense_accurate (mk_tab 7 BS5_A BS5_B BS5_C e) (dense_bs5_best d) d p.
Proof.
  intros HOK F t0 y0 Y g HL Hy HF HY.
  destruct (interp_best_real 7 BS5_A BS5_B BS5_C BS5_A_extra BS5_C_extra BS5_Pbest p HOK d F t0 y0 Y Hy HF HY) as (C & del & Hdel & H).
  exists C, del. split; auto. intros m cf v v' t1 th HU HM Hg E0 Ey E1 Hne Hh Hth.
  pose proof HOK as HOK'. unfold interp_best_ok in HOK'. rewrite !andb_true_iff in HOK'. destruct HOK' as ((He & Hc) & _). apply Nat.leb_le in Hc.
  destruct (ext_ok_spec _ _ _ _ _ _ He) as (LA & LB & LC & Lx & C0 & _ & _ & _).
  assert (Hd : (0 < d)%nat) by (apply (y0_pos y0 d Hy); rewrite <- Ey; apply (made_step_ne m cf v v' HM)).
  destruct (made_step_real d F g 7 BS5_A BS5_B BS5_C e m cf v v' t0 y0 t1 HL Hy Hd LA LB LC C0 HU HM Hg E0 Ey E1) as (ks & SF & EY & EK).
  rewrite (dense_enter _ cf v v' _ ks t0 t1 SF E0 E1 Hne) by (rewrite EY, map_length, rpoint_len; lia).
  unfold dense_bs5_best. rewrite (sf_yold _ _ _ _ _ SF), (sf_h _ _ _ _ _ SF), E1, EK, EY, Ey, Hg.
  set (h := t1 - t0) in *.
  destruct (extra_all d F g BS5_A BS5_B BS5_C BS5_A_extra BS5_C_extra t0 y0 h 7 (calls (st v')) HL LA LC Hy Lx) as (cl' & EX). rewrite EX.
  set (RSs := rstages F (mq (extA BS5_A BS5_B BS5_A_extra)) (vq (extC BS5_C BS5_C_extra)) t0 y0 h (8 + length BS5_A_extra)) in *.
  assert (LR : length RSs = 11%nat) by (unfold RSs; rewrite rstages_length; reflexivity).
  destruct (bs5_best_reals d (map (map Fin) RSs) (fun i q => nth q (nth i RSs []) 0)) as (LQ & HQ).
  { rewrite map_length. exact LR. }
  { apply (realsK_stages d F g _ _ t0 y0 h _ HL Hy). }
  change (nadd RX (Fin t1) (Fin h)) with (Fin (t1 + h)).
  set (yn := rpoint d y0 h (lcomb 7 (vq BS5_B) (rstages F (mq BS5_A) (vq BS5_C) t0 y0 h 7))) in *.
  assert (Lq : (0 < length (bs5_best_Q d (map (map Fin) RSs)))%nat) by (rewrite LQ; lia).
  pose proof (call_mk_horner d t1 h (th - 1) (map Fin yn) _ _ _ ltac:(unfold h; lra) Lq (reals_intro d yn (rpoint_len _ _ _ _)) HQ) as HR.
  replace (t1 + (th - 1) * h) with (t0 + th * h) in HR by (unfold h; ring). destruct HR as (r & Er & Lr & Nr).
  eexists. eexists. exists r. split; [reflexivity|]. split; [exact Er|]. split; [exact Lr|].
  intros q Hq. rewrite Nr by auto. rewrite LQ. unfold yn. rewrite rpoint_nth by auto.
  specialize (H th h Hth Hh q Hq). fold RSs in H.
  assert (EB : lcomb 7 (vq BS5_B) (rstages F (mq BS5_A) (vq BS5_C) t0 y0 h 7) q = lcomb 11 (vq BS5_B) RSs q).
  { rewrite <- (ext_stages F BS5_A BS5_B BS5_C BS5_A_extra BS5_C_extra t0 y0 h 7 LA LC). apply lcomb_ext_zero; [lia|]. intros l Hl. apply vq_overflow. exact Hl. }
  rewrite EB. 
  replace (nth q y0 0 + h * lcomb 11 (vq BS5_B) RSs q + h * rsum 6 (fun j => rsum 11 (fun i => mq BS5_Pbest i j * nth q (nth i RSs []) 0) * (th - 1) ^ S j))
    with (nth q y0 0 + h * lcomb 11 (fun i => vq BS5_B i + pw QN 1 (qcols BS5_Pbest) BS5_Pbest (th - 1) i) RSs q); [exact H|].
  assert (EP : rsum 6 (fun j => rsum 11 (fun i => mq BS5_Pbest i j * nth q (nth i RSs []) 0) * (th - 1) ^ S j) = lcomb 11 (pw QN 1 (qcols BS5_Pbest) BS5_Pbest (th - 1)) RSs q).
  { unfold lcomb. rewrite (rsum_ext 6 _ (fun j => rsum 11 (fun i => mq BS5_Pbest i j * (th - 1) ^ S j * nth q (nth i RSs []) 0))).
    - rewrite rsum_swap. apply rsum_ext. intros i Hi. unfold pw. rewrite (Rmult_comm (rsum _ _)), <- rsum_scal. apply rsum_ext. intros j Hj. unfold mq. replace (j + 1)%nat with (S j) by lia. ring.
    - intros j Hj. rewrite Rmult_comm, <- rsum_scal. apply rsum_ext. intros; ring. }
  rewrite EP. unfold lcomb. rewrite Rplus_assoc, <- Rmult_plus_distr_l, <- rsum_plus. f_equal. f_equal. apply rsum_ext. intros i Hi. ring.
Qed.
