(** The order theorem of GOrder.v for a dense output: weights that depend on the relative time
    th in [0, 1], constants uniform in th. *)
From Coq Require Import Reals Lra Psatz Lia List Arith Bool.
From Verif Require Import Series Trees OrderThm GOrder.
Import ListNotations.
Open Scope R_scope.

Section GDense.
Variable I : Type.
Variable hh : I -> R.
Variables uU uV : bool.
Variables e d p : nat.
Variable T : nat -> list nat -> R.
Variable ell : nat -> R.
Variables pu pv : nat -> option nat.
Hypothesis Hpu : forall j q, pu j = Some q -> (q < d)%nat.
Hypothesis Hpv : forall j q, pv j = Some q -> (q < d)%nat.
Variable f : (nat -> R) -> nat -> R.
Variable w0 : nat -> R.
Hypothesis HT : taylor_at e d f w0 T p.
Variable s : nat.
Variables AU AV : nat -> nat -> R.
Variable c : nat -> R.
Variable eps : R.
Variable k : nat -> I -> nat -> R.
Hypothesis Hb : forall i q, (i < s)%nat -> (q < d)%nat -> GOrder.Oh I hh 0 (fun h => k i h q).
Hypothesis Hk : exists del, 0 < del /\ forall h, Rabs (hh h) < del -> forall i q, (i < s)%nat -> (q < d)%nat ->
  k i h q = f (fun j => w0 j + gstage_arg I hh uU uV ell pu pv s AU AV c k i h j) q.
Notation Ak := (Acoef uU uV c (st_op s AU) (st_op s AV) e T ell pu pv).
Notation Ae := (Acoef uU uV (fun _ => 1) ex_U ex_V e T ell pu pv).
Notation mass := (mass uU uV e T ell pu pv).

Lemma g_comb_unif B m q : (q < d)%nat -> (m <= p)%nat -> 0 <= B ->
  exists C del, 0 < del /\ forall b h, (forall i, (i < s)%nat -> Rabs (b i) <= B) -> Rabs (hh h) < del ->
    Rabs (rsum s (fun i => b i * k i h q) - rsum m (fun r => rsum s (fun i => b i * Ak i q r) * hh h ^ r)) <= C * Rabs (hh h) ^ m.
Proof.
  intros Hq Hm HB.
  destruct (Oh_unif_i I hh m s (fun i h => k i h q - rsum m (fun r => Ak i q r * hh h ^ r))) as (C & del & HC & Hd & H1).
  { intros i Hi. apply (GOrder.asy_weaken I hh p m); auto. apply (stages_expand I hh uU uV e d p T ell pu pv Hpu Hpv f w0 HT s AU AV c k Hb Hk); auto. }
  exists (INR s * (B * C)), del. split; auto. intros b h Hbb Hh.
  replace (rsum s (fun i => b i * k i h q) - rsum m (fun r => rsum s (fun i => b i * Ak i q r) * hh h ^ r))
    with (rsum s (fun i => b i * (k i h q - rsum m (fun r => Ak i q r * hh h ^ r)))).
  - rewrite Rmult_assoc. apply rsum_abs_le. intros i Hi. rewrite Rabs_mult, Rmult_assoc.
    apply Rmult_le_compat; auto using Rabs_pos.
  - rewrite (rsum_ext m _ (fun r => rsum s (fun i => b i * (Ak i q r * hh h ^ r)))).
    2:{ intros. rewrite Rmult_comm, <- rsum_scal. apply rsum_ext. intros; ring. }
    rewrite rsum_swap.
    rewrite (rsum_ext s _ (fun i => b i * k i h q + -1 * rsum m (fun r => b i * (Ak i q r * hh h ^ r)))).
    2:{ intros. rewrite rsum_scal. ring. }
    rewrite rsum_plus, rsum_scal. ring.
Qed.

Variables K YV YU : R -> nat -> R.
Hypothesis HYV : exists del, 0 < del /\ forall h, Rabs h < del -> forall q, (q < d)%nat -> derivable_pt_lim (fun x => YV x q) h (K h q).
Hypothesis HYU : uU = true -> exists del, 0 < del /\ forall h, Rabs h < del -> forall q, (q < d)%nat -> derivable_pt_lim (fun x => YU x q) h (YV h q - YV 0 q).
Hypothesis HKb : forall q, (q < d)%nat -> Series.Oh 0 (fun h => K h q).
Hypothesis HK : exists del, 0 < del /\ forall h, Rabs h < del -> forall q, (q < d)%nat ->
  K h q = f (fun j => w0 j + exact_arg uU uV ell pu pv YV YU h j) q.

(** weights b th, bounded on [0, 1], whose conditions hold up to eps *)
Definition dense_V (b : R -> nat -> R) (m : nat) : Prop := forall th n fs, 0 <= th <= 1 -> (n < m)%nat -> In fs (FOREST uU uV n) ->
  Rabs (rsum s (fun i => b th i * stage_weight s AU AV c fs i) - th ^ S n / INR (S n) * exact_weight fs) <= eps.
Definition dense_U (b : R -> nat -> R) (m : nat) : Prop := forall th n fs, 0 <= th <= 1 -> (n < m)%nat -> In fs (FOREST uU uV n) ->
  Rabs (rsum s (fun i => b th i * stage_weight s AU AV c fs i) - th ^ S (S n) / (INR (S (S n)) * INR (S n)) * exact_weight fs) <= eps.
Definition wbounded (b : R -> nat -> R) : Prop := exists B, 0 <= B /\ forall th i, 0 <= th <= 1 -> (i < s)%nat -> Rabs (b th i) <= B.

Lemma th_abs th x del : 0 <= th <= 1 -> Rabs x < del -> Rabs (th * x) < del.
Proof. intros Ht Hx. rewrite Rabs_mult, (Rabs_right th) by lra. pose proof (Rabs_pos x). nra. Qed.
Lemma th_pow th x n : 0 <= th <= 1 -> Rabs (th * x) ^ n <= Rabs x ^ n.
Proof. intros Ht. apply pow_incr. rewrite Rabs_mult, (Rabs_right th) by lra. pose proof (Rabs_pos x). split; nra. Qed.
(** a bound with a nonnegative constant *)
Lemma pos_const C x n v : v <= C * Rabs x ^ n -> v <= Rabs C * Rabs x ^ n.
Proof. intros H. eapply Rle_trans; [exact H|]. apply Rmult_le_compat_r; [apply pow_le, Rabs_pos|apply Rle_abs]. Qed.

Theorem g_dense_V (b : R -> nat -> R) (m q : nat) : (q < d)%nat -> (m <= p)%nat -> wbounded b -> dense_V b m ->
  exists C del, 0 < del /\ forall h th, Rabs (hh h) < del -> 0 <= th <= 1 ->
    Rabs (hh h * rsum s (fun i => b th i * k i h q) - (YV (th * hh h) q - YV 0 q)) <= eps * rsum m (fun n => mass n q * Rabs (hh h) ^ S n) + C * Rabs (hh h) ^ S m.
Proof.
  intros Hq Hm (B & HB & HW) HO. destruct (g_comb_unif B m q Hq Hm HB) as (C1 & d1 & Hd1 & H1).
  assert (HE := YV_expand uU uV e d T ell pu pv K YV HYV m q Hq (Series.asy_weaken p m _ _ Hm (exact_expand uU uV e d p T ell pu pv Hpu Hpv f w0 HT K YV YU HYV HYU HKb HK q Hq))).
  destruct HE as (C2 & d2 & Hd2 & H2).
  exists (C1 + Rabs C2), (Rmin d1 d2). split; [apply Rmin_case; auto|]. intros h th Hh Hth.
  assert (A1 : Rabs (hh h) < d1) by (eapply Rlt_le_trans; [exact Hh|apply Rmin_l]).
  assert (A2 : Rabs (th * hh h) < d2) by (apply th_abs; [exact Hth|eapply Rlt_le_trans; [exact Hh|apply Rmin_r]]).
  specialize (H1 (b th) h (fun i Hi => HW th i Hth Hi) A1). specialize (H2 (th * hh h) A2). apply pos_const in H2.
  assert (H2' : Rabs (YV (th * hh h) q - YV 0 q - hh h * rsum m (fun n => th ^ S n / INR (S n) * Ae 0%nat q n * hh h ^ n)) <= Rabs C2 * Rabs (hh h) ^ S m).
  { eapply Rle_trans; [|apply Rmult_le_compat_l; [apply Rabs_pos|apply (th_pow th (hh h) (S m) Hth)]]. eapply Rle_trans; [|exact H2]. rewrite rsum_split.
    rewrite (rsum_ext m (fun r => Ae 0%nat q r / INR (S r) * (th * hh h) ^ S r) (fun r => hh h * (th ^ S r / INR (S r) * Ae 0%nat q r * hh h ^ r))).
    2:{ intros r Hr. rewrite Rpow_mult_distr, <- (tech_pow_Rmult (hh h)). unfold Rdiv. ring. }
    rewrite rsum_scal. right. f_equal. ring. }
  clear H2.
  pose proof (near_poly uU uV e T ell pu pv s AU AV c eps (b th) m q (fun n => th ^ S n / INR (S n)) (hh h)
    (fun n Hn => near_coef uU uV e T ell pu pv s AU AV c eps (b th) q n (th ^ S n / INR (S n)) (fun fs Hfs => HO th n fs Hth Hn Hfs))) as H3.
  rewrite (rsum_ext m (fun n => mass n q * Rabs (hh h) ^ S n) (fun n => Rabs (hh h) * (mass n q * Rabs (hh h) ^ n))) by (intros; rewrite <- tech_pow_Rmult; ring). rewrite rsum_scal.
  set (S1 := rsum s (fun i => b th i * k i h q)) in *. set (S2 := rsum m (fun n => th ^ S n / INR (S n) * Ae 0%nat q n * hh h ^ n)) in *.
  set (S3 := rsum m (fun n => rsum s (fun i => b th i * Ak i q n) * hh h ^ n)) in *. set (S4 := rsum m (fun n => mass n q * Rabs (hh h) ^ n)) in *.
  replace (hh h * S1 - (YV (th * hh h) q - YV 0 q)) with ((hh h * (S1 - S3) + hh h * (S3 - S2)) - (YV (th * hh h) q - YV 0 q - hh h * S2)) by ring.
  eapply Rle_trans; [apply Rabs_triang|]. rewrite Rabs_Ropp. eapply Rle_trans; [apply Rplus_le_compat_r, Rabs_triang|].
  rewrite !Rabs_mult. pose proof (Rabs_pos (hh h)) as P.
  apply (Rmult_le_compat_l _ _ _ P) in H1. apply (Rmult_le_compat_l _ _ _ P) in H3.
  rewrite Rmult_plus_distr_r. rewrite <- (tech_pow_Rmult (Rabs (hh h)) m) at 1. lra.
Qed.

Theorem g_dense_U (b : R -> nat -> R) (m q : nat) : uU = true -> (q < d)%nat -> (m <= p)%nat -> wbounded b -> dense_U b m ->
  exists C del, 0 < del /\ forall h th, Rabs (hh h) < del -> 0 <= th <= 1 ->
    Rabs (hh h * (hh h * rsum s (fun i => b th i * k i h q)) - (YU (th * hh h) q - YU 0 q)) <= eps * rsum m (fun n => mass n q * Rabs (hh h) ^ S (S n)) + C * Rabs (hh h) ^ S (S m).
Proof.
  intros Hu Hq Hm (B & HB & HW) HO. destruct (g_comb_unif B m q Hq Hm HB) as (C1 & d1 & Hd1 & H1).
  assert (HE := YU_expand uU uV e d T ell pu pv K YV YU HYV HYU m q Hu Hq (Series.asy_weaken p m _ _ Hm (exact_expand uU uV e d p T ell pu pv Hpu Hpv f w0 HT K YV YU HYV HYU HKb HK q Hq))).
  destruct HE as (C2 & d2 & Hd2 & H2).
  exists (C1 + Rabs C2), (Rmin d1 d2). split; [apply Rmin_case; auto|]. intros h th Hh Hth.
  assert (A1 : Rabs (hh h) < d1) by (eapply Rlt_le_trans; [exact Hh|apply Rmin_l]).
  assert (A2 : Rabs (th * hh h) < d2) by (apply th_abs; [exact Hth|eapply Rlt_le_trans; [exact Hh|apply Rmin_r]]).
  specialize (H1 (b th) h (fun i Hi => HW th i Hth Hi) A1). specialize (H2 (th * hh h) A2). apply pos_const in H2.
  assert (H2' : Rabs (YU (th * hh h) q - YU 0 q - hh h * hh h * rsum m (fun n => th ^ S (S n) / (INR (S (S n)) * INR (S n)) * Ae 0%nat q n * hh h ^ n)) <= Rabs C2 * Rabs (hh h) ^ S (S m)).
  { eapply Rle_trans; [|apply Rmult_le_compat_l; [apply Rabs_pos|apply (th_pow th (hh h) (S (S m)) Hth)]]. eapply Rle_trans; [|exact H2]. rewrite rsum_split, rsum_split.
    rewrite (rsum_ext m (fun r => Ae 0%nat q r / (INR (S (S r)) * INR (S (S r) - 1)) * (th * hh h) ^ S (S r)) (fun r => hh h * hh h * (th ^ S (S r) / (INR (S (S r)) * INR (S r)) * Ae 0%nat q r * hh h ^ r))).
    2:{ intros r Hr. replace (S (S r) - 1)%nat with (S r) by lia. rewrite Rpow_mult_distr, <- !(tech_pow_Rmult (hh h)). unfold Rdiv. ring. }
    rewrite rsum_scal. right. f_equal. ring. }
  clear H2.
  pose proof (near_poly uU uV e T ell pu pv s AU AV c eps (b th) m q (fun n => th ^ S (S n) / (INR (S (S n)) * INR (S n))) (hh h)
    (fun n Hn => near_coef uU uV e T ell pu pv s AU AV c eps (b th) q n (th ^ S (S n) / (INR (S (S n)) * INR (S n))) (fun fs Hfs => HO th n fs Hth Hn Hfs))) as H3.
  rewrite (rsum_ext m (fun n => mass n q * Rabs (hh h) ^ S (S n)) (fun n => Rabs (hh h) * Rabs (hh h) * (mass n q * Rabs (hh h) ^ n))) by (intros; rewrite <- !tech_pow_Rmult; ring). rewrite rsum_scal.
  set (S1 := rsum s (fun i => b th i * k i h q)) in *. set (S2 := rsum m (fun n => th ^ S (S n) / (INR (S (S n)) * INR (S n)) * Ae 0%nat q n * hh h ^ n)) in *.
  set (S3 := rsum m (fun n => rsum s (fun i => b th i * Ak i q n) * hh h ^ n)) in *. set (S4 := rsum m (fun n => mass n q * Rabs (hh h) ^ n)) in *.
  replace (hh h * (hh h * S1) - (YU (th * hh h) q - YU 0 q)) with ((hh h * hh h * (S1 - S3) + hh h * hh h * (S3 - S2)) - (YU (th * hh h) q - YU 0 q - hh h * hh h * S2)) by ring.
  eapply Rle_trans; [apply Rabs_triang|]. rewrite Rabs_Ropp. eapply Rle_trans; [apply Rplus_le_compat_r, Rabs_triang|].
  rewrite !Rabs_mult. pose proof (Rabs_pos (hh h)) as P0. assert (P : 0 <= Rabs (hh h) * Rabs (hh h)) by nra.
  apply (Rmult_le_compat_l _ _ _ P) in H1. apply (Rmult_le_compat_l _ _ _ P) in H3.
  rewrite Rmult_plus_distr_r. replace (C1 * Rabs (hh h) ^ S (S m)) with (Rabs (hh h) * Rabs (hh h) * (C1 * Rabs (hh h) ^ m)) by (rewrite <- !tech_pow_Rmult; ring). lra.
Qed.
End GDense.
