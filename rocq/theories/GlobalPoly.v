(** Polynomial right-hand sides satisfy the smoothness and Lipschitz conditions of the global
    error theorems along every solution on a compact interval. *)
From Coq Require Import Reals Lra Psatz Lia List Arith.
From Verif Require Import Series Trees OrderThm OrderRK OrderRKN Smooth GlobalRK.
Import ListNotations.
Open Scope R_scope.

Lemma lsum_le {X} (l : list X) (g h : X -> R) : (forall x, In x l -> g x <= h x) -> lsum l g <= lsum l h.
Proof. induction l as [|x l IH]; intros H; cbn [lsum]; [lra|]. pose proof (H x (or_introl eq_refl)). specialize (IH (fun z Hz => H z (or_intror Hz))). lra. Qed.
Lemma lsum_pos {X} (l : list X) (g : X -> R) : (forall x, In x l -> 0 <= g x) -> 0 <= lsum l g.
Proof. induction l as [|x l IH]; intros H; cbn [lsum]; [lra|]. pose proof (H x (or_introl eq_refl)). specialize (IH (fun z Hz => H z (or_intror Hz))). lra. Qed.

(** the total weight of the coefficients *)
Definition pnorm (B : R) (P : list (R * list nat)) : R := lsum P (fun m => Rabs (fst m) * B ^ length (snd m)).
Lemma expand_norm w0 e B js : 0 <= B -> (forall j, (j < e)%nat -> Rabs (w0 j) <= B) -> Forall (fun j => (j < e)%nat) js ->
  lsum (expand w0 js) (fun t => Rabs (fst t)) <= (B + 1) ^ length js.
Proof.
  intros HB Hw H. induction H as [|j js Hj Hjs IH]; cbn [expand length pow]; [cbn [lsum fst]; rewrite Rabs_R1; lra|].
  rewrite lsum_flat_map. rewrite (lsum_ext _ _ (fun m => (Rabs (w0 j) + 1) * Rabs (fst m))).
  - rewrite lsum_scal. apply Rmult_le_compat; auto.
    + pose proof (Rabs_pos (w0 j)). lra.
    + apply lsum_pos. intros; apply Rabs_pos.
    + specialize (Hw j Hj). lra.
  - intros m _. cbn [lsum fst]. rewrite Rabs_mult. ring.
Qed.
Lemma shift_norm w0 e B P : 0 <= B -> (forall j, (j < e)%nat -> Rabs (w0 j) <= B) -> Forall (fun m => Forall (fun j => (j < e)%nat) (snd m)) P ->
  lsum (shift w0 P) (fun t => Rabs (fst t)) <= pnorm (B + 1) P.
Proof.
  intros HB Hw H. unfold shift, pnorm. rewrite lsum_flat_map. apply lsum_le. intros m Hm. rewrite lsum_map.
  rewrite (lsum_ext _ _ (fun m' => Rabs (fst m) * Rabs (fst m'))).
  - rewrite lsum_scal. apply Rmult_le_compat_l; [apply Rabs_pos|]. rewrite Forall_forall in H. apply (expand_norm w0 e); auto.
  - intros m' _. cbn [fst]. apply Rabs_mult.
Qed.
Lemma coef_norm P js : Rabs (coef P js) <= lsum P (fun t => Rabs (fst t)).
Proof. unfold coef. apply lsum_abs_le. intros m _. destruct (list_eq_dec _ _ _); [lra|]. rewrite Rabs_R0. apply Rabs_pos. Qed.

(** Lipschitz estimates on boxes *)
Lemma mono_box e B w js : 1 <= B -> (forall j, (j < e)%nat -> Rabs (w j) <= B) -> Forall (fun j => (j < e)%nat) js -> Rabs (mono w js) <= B ^ length js.
Proof.
  intros HB Hw H. induction H as [|j js Hj Hjs IH]; cbn [mono fold_right length pow]; [rewrite Rabs_R1; lra|].
  rewrite Rabs_mult. apply Rmult_le_compat; try apply Rabs_pos; auto.
Qed.
Lemma mono_lip e B w w' a js : 1 <= B -> (forall j, (j < e)%nat -> Rabs (w j) <= B) -> (forall j, (j < e)%nat -> Rabs (w' j) <= B) ->
  (forall j, (j < e)%nat -> Rabs (w j - w' j) <= a) -> 0 <= a -> Forall (fun j => (j < e)%nat) js ->
  Rabs (mono w js - mono w' js) <= INR (length js) * B ^ length js * a.
Proof.
  intros HB Hw Hw' Ha Ha0 H. induction H as [|j js Hj Hjs IH]; [cbn [mono fold_right length]; rewrite Rminus_diag_eq, Rabs_R0 by auto; simpl; lra|].
  cbn [length]. rewrite S_INR. change (mono w (j :: js)) with (w j * mono w js). change (mono w' (j :: js)) with (w' j * mono w' js).
  replace (w j * mono w js - w' j * mono w' js) with ((w j - w' j) * mono w js + w' j * (mono w js - mono w' js)) by ring.
  eapply Rle_trans; [apply Rabs_triang|]. rewrite !Rabs_mult. cbn [pow].
  pose proof (mono_box e B w js HB Hw Hjs) as M1. specialize (Ha j Hj). specialize (Hw' j Hj).
  assert (P0 : 0 <= B ^ length js) by (apply pow_le; lra). pose proof (pos_INR (length js)) as N0.
  assert (T1 : Rabs (w j - w' j) * Rabs (mono w js) <= a * B ^ length js) by (apply Rmult_le_compat; auto; apply Rabs_pos).
  assert (T2 : Rabs (w' j) * Rabs (mono w js - mono w' js) <= B * (INR (length js) * B ^ length js * a)) by (apply Rmult_le_compat; auto; apply Rabs_pos).
  assert (T3 : a * B ^ length js <= B * (a * B ^ length js)) by (rewrite <- (Rmult_1_l (a * B ^ length js)) at 1; apply Rmult_le_compat_r; [apply Rmult_le_pos; auto|auto]).
  nra.
Qed.
Definition plip (B : R) (P : list (R * list nat)) : R := lsum P (fun m => Rabs (fst m) * (INR (length (snd m)) * B ^ length (snd m))).
Lemma pval_lip e B w w' a P : 1 <= B -> (forall j, (j < e)%nat -> Rabs (w j) <= B) -> (forall j, (j < e)%nat -> Rabs (w' j) <= B) ->
  (forall j, (j < e)%nat -> Rabs (w j - w' j) <= a) -> 0 <= a -> Forall (fun m => Forall (fun j => (j < e)%nat) (snd m)) P ->
  Rabs (pval w P - pval w' P) <= plip B P * a.
Proof.
  intros HB Hw Hw' Ha Ha0 H. unfold pval, plip. rewrite <- lsum_scal_r.
  replace (lsum P (fun m => fst m * mono w (snd m)) - lsum P (fun m => fst m * mono w' (snd m))) with (lsum P (fun m => fst m * (mono w (snd m) - mono w' (snd m)))).
  2:{ clear. induction P as [|m P IH]; cbn [lsum]; [ring|]. rewrite IH. ring. }
  apply lsum_abs_le. intros m Hm. rewrite Rabs_mult, Rmult_assoc. apply Rmult_le_compat_l; [apply Rabs_pos|].
  rewrite Forall_forall in H. apply (mono_lip e); auto.
Qed.
Lemma plip_pos B P : 1 <= B -> 0 <= plip B P.
Proof. intros H. apply lsum_pos. intros m _. apply Rmult_le_pos; [apply Rabs_pos|]. apply Rmult_le_pos; [apply pos_INR|apply pow_le; lra]. Qed.
Lemma pnorm_pos B P : 0 <= B -> 0 <= pnorm B P.
Proof. intros H. apply lsum_pos. intros m _. apply Rmult_le_pos; [apply Rabs_pos|]. apply pow_le; lra. Qed.

(** continuous functions are bounded on [lo, hi] *)
Lemma bounded_on (g : nat -> R -> R) n lo hi : (forall q t, (q < n)%nat -> lo <= t <= hi -> continuity_pt (g q) t) ->
  exists B, 0 <= B /\ forall q t, (q < n)%nat -> lo <= t <= hi -> Rabs (g q t) <= B.
Proof.
  intros H. destruct (Rle_dec lo hi) as [Hlh|Hlh]; [|exists 0; split; [lra|]; intros; lra].
  induction n as [|n IH]; [exists 0; split; [lra|]; intros; lia|].
  destruct IH as (B & HB & H1); [intros; apply H; auto|].
  destruct (continuity_ab_maj (g n) lo hi Hlh) as (Mx & HM & _); [intros; apply H; auto|].
  destruct (continuity_ab_min (g n) lo hi Hlh) as (mx & Hm & _); [intros; apply H; auto|].
  exists (B + (Rabs (g n Mx) + Rabs (g n mx))). pose proof (Rabs_pos (g n Mx)). pose proof (Rabs_pos (g n mx)). split; [lra|].
  intros q t Hq Ht. destruct (Nat.eq_dec q n) as [->|Hne]; [|specialize (H1 q t ltac:(lia) Ht); lra].
  specialize (HM t Ht). specialize (Hm t Ht). apply Rabs_le. pose proof (Rle_abs (g n Mx)). pose proof (Rle_abs (- g n mx)). rewrite Rabs_Ropp in *. lra.
Qed.
Lemma sum_bound_ex n (g : nat -> R) : exists B, 0 <= B /\ forall q, (q < n)%nat -> g q <= B.
Proof.
  induction n as [|n (B & HB & H)]; [exists 0; split; [lra|]; intros; lia|].
  exists (B + Rabs (g n)). pose proof (Rabs_pos (g n)). split; [lra|]. intros q Hq.
  destruct (Nat.eq_dec q n) as [->|Hne]; [pose proof (Rle_abs (g n)); lra|]. specialize (H q ltac:(lia)). lra.
Qed.

Section Poly.
Variables (e d : nat) (f : (nat -> R) -> nat -> R) (P : nat -> list (R * list nat)).
Hypothesis HP : forall q, (q < d)%nat -> Forall (fun m => Forall (fun j => (j < e)%nat) (snd m)) (P q).
Hypothesis Hf : forall w q, (q < d)%nat -> f w q = pval w (P q).
Lemma poly_uniform (w0 : R -> nat -> R) (lo hi B : R) p : 0 <= B -> (forall t j, lo <= t <= hi -> (j < e)%nat -> Rabs (w0 t j) <= B) ->
  exists (T : R -> nat -> list nat -> R) C M del, 0 < del /\ forall t q, lo <= t <= hi -> (q < d)%nat ->
    (forall js, Rabs (T t q js) <= M) /\
    forall z : nat -> R, (forall j, (j < e)%nat -> Rabs (z j) < del) ->
      Rabs (f (fun j => w0 t j + z j) q - rsum p (fun m => lsum (idx e m) (fun js => T t q js * fold_right (fun j pr => z j * pr) 1 js)))
      <= C * rsum e (fun j => Rabs (z j)) ^ p.
Proof.
  intros HB Hw. destruct (sum_bound_ex d (fun q => pnorm (B + 1) (P q))) as (N & HN & H1).
  exists (fun t q js => coef (shift (w0 t) (P q)) js), N, N, (/ (INR e + 1)).
  split; [apply Rinv_0_lt_compat; pose proof (pos_INR e); lra|]. intros t q Ht Hq.
  assert (HS : lsum (shift (w0 t) (P q)) (fun t => Rabs (fst t)) <= N).
  { eapply Rle_trans; [apply (shift_norm (w0 t) e B)|apply H1]; auto. }
  split; [intros js; eapply Rle_trans; [apply coef_norm|exact HS]|]. intros z Hz.
  eapply Rle_trans; [apply (poly_taylor_at e d f (w0 t) P p HP Hf q Hq z Hz)|]. apply Rmult_le_compat_r; [|exact HS].
  apply pow_le. clear. induction e as [|n IH]; simpl; [lra|]. pose proof (Rabs_pos (z n)). lra.
Qed.
Lemma poly_lip B : 1 <= B -> exists L, 0 <= L /\ forall w w' a, (forall j, (j < e)%nat -> Rabs (w j) <= B) -> (forall j, (j < e)%nat -> Rabs (w' j) <= B) ->
  (forall j, (j < e)%nat -> Rabs (w j - w' j) <= a) -> 0 <= a -> forall q, (q < d)%nat -> Rabs (f w q - f w' q) <= L * a.
Proof.
  intros HB. destruct (sum_bound_ex d (fun q => plip B (P q))) as (L & HL & H1). exists L. split; [auto|].
  intros w w' a H2 H3 H4 Ha q Hq. rewrite !Hf by auto. eapply Rle_trans; [apply (pval_lip e B w w' a (P q)); auto|].
  apply Rmult_le_compat_r; auto.
Qed.
End Poly.

Lemma poly_form d F : polynomial d F -> exists P : nat -> list (R * list nat),
  (forall q, (q < d)%nat -> Forall (fun m => Forall (fun j => (j < S d)%nat) (snd m)) (P q)) /\ forall w q, (q < d)%nat -> fo F d w q = pval w (P q).
Proof.
  intros (P & HP & HF). exists P. split.
  - intros q Hq. eapply Forall_impl; [|apply (HP q Hq)]. intros m Hm. eapply Forall_impl; [|exact Hm]. intros j Hj. simpl in *. lia.
  - intros w q Hq. unfold fo. destruct (HF (w 0%nat) (map (fun k => w (S k)) (seq 0 d)) ltac:(rewrite map_length, seq_length; reflexivity)) as (_ & E).
    rewrite E by auto. unfold pval. apply lsum_ext. intros [c js] Hin. cbn [fst snd]. f_equal.
    specialize (HP q Hq). rewrite Forall_forall in HP. specialize (HP _ Hin). cbn [snd] in HP.
    apply (mono_ext _ w (S d)); [eapply Forall_impl; [|exact HP]; intros; simpl in *; lia|]. intros j Hj. apply coords. exact Hj.
Qed.
Lemma fo_pt F d t y q : length y = d -> fo F d (pt t y) q = nth q (F t y) 0.
Proof. intros H. unfold fo. f_equal. f_equal. transitivity (map (fun j => nth j y 0) (seq 0 d)); [reflexivity|]. apply map_seq_nth; auto. Qed.
Lemma traj_bound d F lo hi Y : solution_on d F lo hi Y -> exists B, 0 <= B /\ forall t j, lo <= t <= hi -> (j < S d)%nat -> Rabs (pt t (Y t) j) <= B.
Proof.
  intros (m & Hm & H).
  destruct (bounded_on (fun q t => nth q (Y t) 0) d lo hi) as (B & HB & H1).
  { intros q t Hq Ht. apply derivable_continuous_pt. exists (nth q (F t (Y t)) 0). apply H; auto. lra. }
  exists (B + (Rabs lo + Rabs hi)). pose proof (Rabs_pos lo). pose proof (Rabs_pos hi). split; [lra|]. intros t [|j] Ht Hj; unfold pt; cbn [nth].
  - apply Rabs_le. pose proof (Rle_abs hi). pose proof (Rle_abs (- lo)). rewrite Rabs_Ropp in *. lra.
  - specialize (H1 j t ltac:(lia) Ht). lra.
Qed.

Theorem polynomial_smooth_along d F lo hi Y p : polynomial d F -> solution_on d F lo hi Y -> smooth_along p d F lo hi Y.
Proof.
  intros HP HY. destruct (poly_form d F HP) as (P & H1 & H2). destruct (traj_bound d F lo hi Y HY) as (B & HB & H3).
  destruct (poly_uniform (S d) d (fo F d) P H1 H2 (fun t => pt t (Y t)) lo hi B p HB H3) as (T & C & M & del & Hd & H4).
  exists T, C, M, del. split; [auto|]. intros t q Ht Hq. destruct (H4 t q Ht Hq) as (H5 & H6). split; [intros; apply H5|exact H6].
Qed.
Theorem polynomial_lipschitz_along d F lo hi Y : polynomial d F -> solution_on d F lo hi Y -> lipschitz_along d F lo hi Y.
Proof.
  intros HP HY. destruct (poly_form d F HP) as (P & H1 & H2). destruct (traj_bound d F lo hi Y HY) as (B & HB & H3).
  destruct (poly_lip (S d) d (fo F d) P H1 H2 (B + 1) ltac:(lra)) as (L & HL & H4).
  exists L, 1. split; [auto|]. split; [lra|]. intros t s u v e Ht Hs Lu Lv Hu Hv Huv q Hq.
  rewrite <- !(fo_pt F d) by auto.
  assert (He : 0 <= e) by (eapply Rle_trans; [apply Rabs_pos|apply (Huv q Hq)]).
  apply H4; auto.
  - intros [|j] Hj.
    + specialize (H3 t 0%nat Ht Hj). unfold pt in *; cbn [nth] in *. replace s with ((s - t) + t) by ring. eapply Rle_trans; [apply Rabs_triang|]. lra.
    + specialize (H3 t (S j) Ht Hj). unfold pt in *; cbn [nth] in *. specialize (Hu j ltac:(lia)).
      replace (nth j u 0) with ((nth j u 0 - nth j (Y t) 0) + nth j (Y t) 0) by ring. eapply Rle_trans; [apply Rabs_triang|]. lra.
  - intros [|j] Hj.
    + specialize (H3 t 0%nat Ht Hj). unfold pt in *; cbn [nth] in *. replace s with ((s - t) + t) by ring. eapply Rle_trans; [apply Rabs_triang|]. lra.
    + specialize (H3 t (S j) Ht Hj). unfold pt in *; cbn [nth] in *. specialize (Hv j ltac:(lia)).
      replace (nth j v 0) with ((nth j v 0 - nth j (Y t) 0) + nth j (Y t) 0) by ring. eapply Rle_trans; [apply Rabs_triang|]. lra.
  - intros [|j] Hj; unfold pt; cbn [nth]; [rewrite Rminus_diag_eq, Rabs_R0 by auto; auto|]. apply Huv. lia.
Qed.
