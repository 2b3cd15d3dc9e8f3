(** Real-number reading of the dense outputs of Dense.v. *)
From Coq Require Import Reals Lra QArith Qreals Lia List Arith Bool FunctionalExtensionality.
From Verif Require Import Arith Common RK RX SpecRK RKSpecProofs Classes Tableaux Series Trees OrderThm OrderCheck OrderRK OrderRKN OrderModel OrderPair OrderPairN Dense.
Import ListNotations.
Open Scope R_scope.

(** r are the d real components of the model vector v *)
Definition reals (d : nat) (v : list (num RX)) (r : nat -> R) : Prop :=
  exists l, v = map Fin l /\ length l = d /\ forall q, (q < d)%nat -> nth q l 0 = r q.

Lemma reals_intro d l : length l = d -> reals d (map Fin l) (fun q => nth q l 0).
Proof. intros H. exists l. auto. Qed.
Lemma reals_ext d v r r' : reals d v r -> (forall q, (q < d)%nat -> r q = r' q) -> reals d v r'.
Proof. intros (l & E & L & N) H. exists l. split; auto. split; auto. intros q Hq. rewrite N, H; auto. Qed.
Lemma reals_add d u v r r' : reals d u r -> reals d v r' -> reals d (vadd u v) (fun q => r q + r' q).
Proof.
  intros (l & -> & L & N) (l' & -> & L' & N'). destruct (vadd_fin l l') as (m & E & Lm & Nm); [congruence|].
  exists m. split; [exact E|]. split; [congruence|]. intros q Hq. rewrite Nm, N, N' by congruence. reflexivity.
Qed.
Lemma reals_scale d c u r : reals d u r -> reals d (vscale (Fin c) u) (fun q => c * r q).
Proof.
  intros (l & -> & L & N). destruct (vscale_fin c l) as (m & E & Lm & Nm).
  exists m. split; [exact E|]. split; [congruence|]. intros q Hq. rewrite Nm, N by congruence. reflexivity.
Qed.
Lemma reals_mulr d c u r : reals d u r -> reals d (map (fun a => nmul RX a (Fin c)) u) (fun q => r q * c).
Proof.
  intros (l & -> & L & N). exists (map (fun a => a * c) l). split; [rewrite !map_map; reflexivity|]. split; [rewrite map_length; auto|].
  intros q Hq. rewrite (nth_indep _ 0 (0 * c)) by (rewrite map_length; lia). rewrite (map_nth (fun a => a * c)). rewrite N; auto.
Qed.
Lemma reals_divr d c u r : c <> 0 -> reals d u r -> reals d (map (fun a => ndiv RX a (Fin c)) u) (fun q => r q / c).
Proof.
  intros Hc (l & -> & L & N). exists (map (fun a => a / c) l). split.
  { rewrite !map_map. apply map_ext. intros a. simpl. unfold xdiv. destruct (Req_EM_T c 0); [contradiction|reflexivity]. }
  split; [rewrite map_length; auto|].
  intros q Hq. rewrite (nth_indep _ 0 (0 / c)) by (rewrite map_length; lia). rewrite (map_nth (fun a => a / c)). rewrite N; auto.
Qed.
Lemma reals_app n m u v r r' : reals n u r -> reals m v r' -> reals (n + m) (u ++ v) (fun q => if Nat.ltb q n then r q else r' (q - n)%nat).
Proof.
  intros (l & -> & L & N) (l' & -> & L' & N'). exists (l ++ l'). split; [symmetry; apply map_app|]. split; [rewrite app_length; lia|].
  intros q Hq. destruct (Nat.ltb_spec q n); [rewrite app_nth1 by lia; auto|]. rewrite app_nth2, L by lia. apply N'. lia.
Qed.
Lemma reals_firstn n m u r : reals (n + m) u r -> reals n (firstn n u) r.
Proof.
  intros (l & -> & L & N). exists (firstn n l). split; [apply firstn_map|]. split; [rewrite firstn_length; lia|].
  intros q Hq. rewrite nth_firstn_lt by auto. apply N. lia.
Qed.
Lemma reals_skipn n m u r : reals (n + m) u r -> reals m (skipn n u) (fun q => r (n + q)%nat).
Proof.
  intros (l & -> & L & N). exists (skipn n l). split; [apply skipn_map|]. split; [rewrite skipn_length; lia|].
  intros q Hq. rewrite nth_skipn. apply N. lia.
Qed.

(** stage matrices: each K_i is real with components k i *)
Definition realsK (d : nat) (K : list (list (num RX))) (k : nat -> nat -> R) : Prop :=
  forall i, (i < length K)%nat -> reals d (nth i K []) (k i).
Lemma realsK_fin d ks : Forall (fun k => length k = d) ks -> realsK d (map (map Fin) ks) (fun i q => nth q (nth i ks []) 0).
Proof.
  intros H i Hi. rewrite map_length in Hi. exists (nth i ks []).
  split; [exact (map_nth (map Fin) ks [] i)|]. split; [|reflexivity]. rewrite Forall_forall in H. apply H. apply nth_In. auto.
Qed.
Lemma lincomb_reals d w : forall K k, realsK d K k ->
  reals d (lincomb d (map Fin w) K) (fun q => rsum (length K) (fun i => nth i w 0 * k i q)).
Proof.
  intros K k HK. rewrite lincomb_eq.
  assert (G : forall w K k acc r0, realsK d K k -> reals d acc r0 ->
    reals d (wsum acc (map Fin w) K) (fun q => r0 q + rsum (length K) (fun i => nth i w 0 * k i q))).
  { clear. induction w as [|a w IH]; intros K k acc r0 HK HA.
    - apply (reals_ext d acc r0); [destruct K; exact HA|]. intros q _. rewrite rsum_zero; [ring|]. intros l _. destruct l; simpl; ring.
    - destruct K as [|k0 K]; [apply (reals_ext d acc r0); [exact HA|]; intros q _; simpl; ring|].
      cbn [map wsum]. eapply reals_ext.
      + apply (IH K (fun i => k (S i)) _ (fun q => r0 q + a * k 0%nat q)).
        * intros i Hi. apply (HK (S i)). apply (proj1 (Nat.succ_lt_mono _ _)). exact Hi.
        * apply reals_add; auto. apply reals_scale. apply (HK 0%nat). apply Nat.lt_0_succ.
      + intros q Hq. cbn beta. cbn [length]. rewrite (rsum_split (length K)). simpl. ring. }
  eapply reals_ext; [apply (G w K k _ (fun _ => 0) HK)|intros; cbn beta; ring].
  rewrite repeat_fin. exists (repeat 0 d). split; [reflexivity|]. split; [apply repeat_length|]. intros; apply nth_repeat0.
Qed.

Lemma column_fin P j : column j (@lm RX P) = map Fin (map Q2R (map (fun row => nth j row 0%Q) P)).
Proof.
  unfold column, lm. rewrite !map_map. apply map_ext. intros row. unfold n0. unfold lv. rewrite (map_nth (@lit RX)). reflexivity.
Qed.
Lemma ncols_fin P : ncols (@lm RX P) = match P with [] => 0%nat | r :: _ => length r end.
Proof. destruct P as [|r P]; [reflexivity|]. simpl. unfold lv. apply map_length. Qed.
Definition qcols (P : list (list Q)) : nat := match P with [] => 0%nat | r :: _ => length r end.

Lemma nth_map_seq_gen {X : Type} (g : nat -> X) d0 : forall d a q, (q < d)%nat -> nth q (map g (seq a d)) d0 = g (a + q)%nat.
Proof.
  induction d as [|d IH]; intros a q H; [lia|]. destruct q as [|q]; simpl; [f_equal; lia|]. rewrite IH by lia. f_equal. lia.
Qed.

(** K.T @ P *)
Lemma KtP_reals d P K k : realsK d K k ->
  length (KtP d K (@lm RX P)) = qcols P /\
  realsK d (KtP d K (@lm RX P)) (fun j q => rsum (length K) (fun i => mq P i j * k i q)).
Proof.
  intros HK. unfold KtP. rewrite ncols_fin. fold (qcols P). split; [rewrite map_length, seq_length; auto|].
  intros j Hj. rewrite map_length, seq_length in Hj.
  rewrite (nth_map_seq_gen (fun j => lincomb d (column j (lm P)) K)) by auto. rewrite Nat.add_0_l, column_fin.
  eapply reals_ext; [apply lincomb_reals; eassumption|]. intros q Hq. cbn beta. apply rsum_ext. intros i Hi. f_equal.
  rewrite nth_Q2R, vq_nth. unfold mq, mR, vR. cbn [cv QN c_0]. f_equal.
  rewrite <- (map_nth (fun row => nth j row 0%Q) P []). f_equal. destruct j; reflexivity.
Qed.
Lemma realsK_scale d c K k : realsK d K k -> realsK d (map (vscale (Fin c)) K) (fun i q => c * k i q).
Proof.
  intros HK i Hi. rewrite map_length in Hi. specialize (HK i Hi).
  replace (nth i (map (vscale (Fin c)) K) []) with (vscale (Fin c) (nth i K [])) by (symmetry; apply (map_nth (vscale (Fin c)) K [])).
  apply reals_scale. exact HK.
Qed.

(** ** Horner's rule *)
Lemma horner_snoc rows q x : horner (rows ++ [q]) x =
  fold_right (fun r acc => map (fun a => nmul RX a x) (vadd acc r)) (map (fun a => nmul RX a x) q) rows.
Proof. unfold horner. rewrite rev_app_distr. cbn [rev app]. rewrite <- fold_left_rev_right, rev_involutive. reflexivity. Qed.
Lemma horner0_snoc rows q x : horner0 (rows ++ [q]) x =
  fold_right (fun r acc => vadd (map (fun a => nmul RX a x) acc) r) q rows.
Proof. unfold horner0. rewrite rev_app_distr. cbn [rev app]. rewrite <- fold_left_rev_right, rev_involutive. reflexivity. Qed.

Lemma horner_reals d rows k x : rows <> [] -> realsK d rows k ->
  reals d (horner rows (Fin x)) (fun q => rsum (length rows) (fun j => k j q * x ^ S j)).
Proof.
  intros Hne. destruct (exists_last Hne) as (rs & l & ->). rewrite horner_snoc, app_length. cbn [length]. rewrite Nat.add_1_r.
  clear Hne. revert k. induction rs as [|r rs IH]; intros k HK.
  - cbn [fold_right length app]. eapply reals_ext; [apply reals_mulr; apply (HK 0%nat); apply Nat.lt_0_succ|]. intros q _. simpl. ring.
  - cbn [fold_right length app]. eapply reals_ext.
    + apply reals_mulr. apply reals_add; [apply (IH (fun i => k (S i)))|].
      * intros i Hi. apply (HK (S i)). apply (proj1 (Nat.succ_lt_mono _ _)). exact Hi.
      * apply (HK 0%nat). apply Nat.lt_0_succ.
    + intros q _. cbn beta. rewrite (rsum_split (S (length rs))). rewrite Rmult_plus_distr_r, (Rmult_comm (rsum _ _) x), <- rsum_scal.
      rewrite Rplus_comm. f_equal; [simpl; ring|]. apply rsum_ext. intros j _. simpl. ring.
Qed.
Lemma horner0_reals d rows k x : rows <> [] -> realsK d rows k ->
  reals d (horner0 rows (Fin x)) (fun q => rsum (length rows) (fun j => k j q * x ^ j)).
Proof.
  intros Hne. destruct (exists_last Hne) as (rs & l & ->). rewrite horner0_snoc, app_length. cbn [length]. rewrite Nat.add_1_r.
  clear Hne. revert k. induction rs as [|r rs IH]; intros k HK.
  - cbn [fold_right length app]. eapply reals_ext; [apply (HK 0%nat); apply Nat.lt_0_succ|]. intros q _. simpl. ring.
  - cbn [fold_right length app]. eapply reals_ext.
    + apply reals_add; [apply reals_mulr; apply (IH (fun i => k (S i)))|].
      * intros i Hi. apply (HK (S i)). apply (proj1 (Nat.succ_lt_mono _ _)). exact Hi.
      * apply (HK 0%nat). apply Nat.lt_0_succ.
    + intros q _. cbn beta. rewrite (rsum_split (S (length rs))). rewrite (Rmult_comm (rsum _ _) x), <- rsum_scal.
      rewrite Rplus_comm. f_equal; [simpl; ring|]. apply rsum_ext. intros j _. simpl. ring.
Qed.
