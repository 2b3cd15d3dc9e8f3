(** Asymptotic expansions of real functions of the step size at 0. *)
From Coq Require Import Reals Lra Psatz Lia List Arith.
Import ListNotations.
Open Scope R_scope.

Fixpoint rsum (n : nat) (f : nat -> R) : R :=
  match n with O => 0 | S n' => rsum n' f + f n' end.
Fixpoint lsum {X} (l : list X) (f : X -> R) : R :=
  match l with [] => 0 | x :: l' => f x + lsum l' f end.

Lemma rsum_ext n f g : (forall k, (k < n)%nat -> f k = g k) -> rsum n f = rsum n g.
Proof. induction n as [|n IH]; intros H; simpl; [reflexivity|]. rewrite IH by (intros; apply H; lia). rewrite H by lia. reflexivity. Qed.
Lemma rsum_plus n f g : rsum n (fun k => f k + g k) = rsum n f + rsum n g.
Proof. induction n as [|n IH]; simpl; [ring|]. rewrite IH. ring. Qed.
Lemma rsum_scal n c f : rsum n (fun k => c * f k) = c * rsum n f.
Proof. induction n as [|n IH]; simpl; [ring|]. rewrite IH. ring. Qed.
Lemma rsum_zero n f : (forall k, (k < n)%nat -> f k = 0) -> rsum n f = 0.
Proof. induction n as [|n IH]; intros H; simpl; [reflexivity|]. rewrite IH by (intros; apply H; lia). rewrite H by lia. ring. Qed.
Lemma rsum_swap n m f : rsum n (fun i => rsum m (fun j => f i j)) = rsum m (fun j => rsum n (fun i => f i j)).
Proof.
  induction n as [|n IH]; simpl.
  - symmetry. apply rsum_zero. reflexivity.
  - rewrite IH, <- rsum_plus. reflexivity.
Qed.
Lemma rsum_split n f : rsum (S n) f = f 0%nat + rsum n (fun k => f (S k)).
Proof. induction n as [|n IH]; [simpl; ring|]. change (rsum (S (S n)) f) with (rsum (S n) f + f (S n)). rewrite IH. simpl. ring. Qed.

Lemma lsum_ext {X} (l : list X) f g : (forall x, In x l -> f x = g x) -> lsum l f = lsum l g.
Proof. induction l as [|x l IH]; intros H; simpl; [reflexivity|]. rewrite H by (left; reflexivity). rewrite IH by (intros; apply H; right; auto). reflexivity. Qed.
Lemma lsum_app {X} (l m : list X) f : lsum (l ++ m) f = lsum l f + lsum m f.
Proof. induction l as [|x l IH]; simpl; [ring|]. rewrite IH. ring. Qed.
Lemma lsum_map {X Y} (g : X -> Y) l f : lsum (map g l) f = lsum l (fun x => f (g x)).
Proof. induction l as [|x l IH]; simpl; [reflexivity|]. rewrite IH. reflexivity. Qed.
Lemma lsum_flat_map {X Y} (g : X -> list Y) l f : lsum (flat_map g l) f = lsum l (fun x => lsum (g x) f).
Proof. induction l as [|x l IH]; simpl; [reflexivity|]. rewrite lsum_app, IH. reflexivity. Qed.
Lemma lsum_plus {X} (l : list X) f g : lsum l (fun x => f x + g x) = lsum l f + lsum l g.
Proof. induction l as [|x l IH]; simpl; [ring|]. rewrite IH. ring. Qed.
Lemma lsum_scal {X} (l : list X) c f : lsum l (fun x => c * f x) = c * lsum l f.
Proof. induction l as [|x l IH]; simpl; [ring|]. rewrite IH. ring. Qed.
Lemma lsum_scal_r {X} (l : list X) c f : lsum l (fun x => f x * c) = lsum l f * c.
Proof. induction l as [|x l IH]; simpl; [ring|]. rewrite IH. ring. Qed.
Lemma lsum_zero {X} (l : list X) f : (forall x, In x l -> f x = 0) -> lsum l f = 0.
Proof. induction l as [|x l IH]; intros H; simpl; [reflexivity|]. rewrite H by (left; auto). rewrite IH by (intros; apply H; right; auto). ring. Qed.
Lemma lsum_swap {X Y} (l : list X) (m : list Y) f : lsum l (fun x => lsum m (fun y => f x y)) = lsum m (fun y => lsum l (fun x => f x y)).
Proof. induction l as [|x l IH]; simpl; [symmetry; apply lsum_zero; reflexivity|]. rewrite IH, <- lsum_plus. reflexivity. Qed.
Lemma lsum_rsum_swap {X} (l : list X) n f : lsum l (fun x => rsum n (fun k => f x k)) = rsum n (fun k => lsum l (fun x => f x k)).
Proof. induction l as [|x l IH]; simpl; [symmetry; apply rsum_zero; reflexivity|]. rewrite IH, <- rsum_plus. reflexivity. Qed.
Lemma lsum_seq n f : lsum (seq 0 n) f = rsum n f.
Proof.
  induction n as [|n IH]; [reflexivity|]. rewrite seq_S, lsum_app, IH. simpl. ring.
Qed.

(** ** O(h^n) as h -> 0 *)
Definition Oh (n : nat) (g : R -> R) : Prop :=
  exists C d, 0 < d /\ forall h, Rabs h < d -> Rabs (g h) <= C * Rabs h ^ n.

Lemma Oh_pos n g : Oh n g -> exists C d, 0 <= C /\ 0 < d <= 1 /\ forall h, Rabs h < d -> Rabs (g h) <= C * Rabs h ^ n.
Proof.
  intros (C & d & Hd & H). exists (Rabs C), (Rmin d 1). split; [apply Rabs_pos|].
  split; [split; [apply Rmin_case; lra|apply Rmin_r]|].
  intros h Hh. assert (Rabs h < d) by (eapply Rlt_le_trans; [exact Hh|apply Rmin_l]).
  eapply Rle_trans; [apply H; auto|]. apply Rmult_le_compat_r; [apply pow_le, Rabs_pos|apply Rle_abs].
Qed.
Lemma Oh_ext n f g : (forall h, f h = g h) -> Oh n f -> Oh n g.
Proof. intros E (C & d & Hd & H). exists C, d. split; [auto|]. intros h Hh. rewrite <- E. auto. Qed.
Lemma Oh_ext_loc n f g : (exists d, 0 < d /\ forall h, Rabs h < d -> f h = g h) -> Oh n f -> Oh n g.
Proof.
  intros (d1 & Hd1 & E) (C & d & Hd & H). exists C, (Rmin d d1). split; [apply Rmin_case; auto|].
  intros h Hh. assert (Rabs h < d) by (eapply Rlt_le_trans; [exact Hh|apply Rmin_l]).
  assert (Rabs h < d1) by (eapply Rlt_le_trans; [exact Hh|apply Rmin_r]). rewrite <- E; auto.
Qed.
Lemma Oh_plus n f g : Oh n f -> Oh n g -> Oh n (fun h => f h + g h).
Proof.
  intros (C & d & Hd & H) (C' & d' & Hd' & H'). exists (C + C'), (Rmin d d'). split; [apply Rmin_case; auto|].
  intros h Hh. assert (Rabs h < d) by (eapply Rlt_le_trans; [exact Hh|apply Rmin_l]).
  assert (Rabs h < d') by (eapply Rlt_le_trans; [exact Hh|apply Rmin_r]).
  eapply Rle_trans; [apply Rabs_triang|]. rewrite Rmult_plus_distr_r. apply Rplus_le_compat; auto.
Qed.
Lemma Oh_mult n m f g : Oh n f -> Oh m g -> Oh (n + m) (fun h => f h * g h).
Proof.
  intros HF HG. apply Oh_pos in HF. apply Oh_pos in HG.
  destruct HF as (C & d & HC & Hd & H). destruct HG as (C' & d' & HC' & Hd' & H').
  exists (C * C'), (Rmin d d'). split; [apply Rmin_case; lra|].
  intros h Hh. assert (Rabs h < d) by (eapply Rlt_le_trans; [exact Hh|apply Rmin_l]).
  assert (Rabs h < d') by (eapply Rlt_le_trans; [exact Hh|apply Rmin_r]).
  rewrite Rabs_mult, pow_add. replace (C * C' * (Rabs h ^ n * Rabs h ^ m)) with ((C * Rabs h ^ n) * (C' * Rabs h ^ m)) by ring.
  apply Rmult_le_compat; auto using Rabs_pos.
Qed.
Lemma Oh_const c : Oh 0 (fun _ => c).
Proof. exists (Rabs c), 1. split; [lra|]. intros. simpl. lra. Qed.
Lemma Oh_pow n : Oh n (fun h => h ^ n).
Proof. exists 1, 1. split; [lra|]. intros. rewrite RPow_abs. lra. Qed.
Lemma Oh_zero n : Oh n (fun _ => 0).
Proof. exists 0, 1. split; [lra|]. intros. rewrite Rabs_R0. lra. Qed.
Lemma Oh_scal n c f : Oh n f -> Oh n (fun h => c * f h).
Proof. intros H. exact (Oh_mult 0 n _ _ (Oh_const c) H). Qed.
Lemma Oh_opp n f : Oh n f -> Oh n (fun h => - f h).
Proof. intros H. apply (Oh_ext n (fun h => (-1) * f h)); [intros; ring|]. apply Oh_scal; auto. Qed.
Lemma Oh_minus n f g : Oh n f -> Oh n g -> Oh n (fun h => f h - g h).
Proof. intros HF HG. apply (Oh_plus n f (fun h => - g h)); auto. apply Oh_opp; auto. Qed.
Lemma Oh_weaken n m f : (m <= n)%nat -> Oh n f -> Oh m f.
Proof.
  intros Hnm H. apply Oh_pos in H. destruct H as (C & d & HC & Hd & H). exists C, d. split; [lra|].
  intros h Hh. eapply Rle_trans; [apply H; auto|]. apply Rmult_le_compat_l; auto.
  replace n with (m + (n - m))%nat by lia. rewrite pow_add.
  rewrite <- (Rmult_1_r (Rabs h ^ m)) at 2. apply Rmult_le_compat_l; [apply pow_le, Rabs_pos|].
  assert (0 <= Rabs h <= 1) by (split; [apply Rabs_pos|lra]).
  rewrite <- (pow1 (n - m)). apply pow_incr. lra.
Qed.
Lemma Oh_rsum n k f : (forall i, (i < k)%nat -> Oh n (f i)) -> Oh n (fun h => rsum k (fun i => f i h)).
Proof. induction k as [|k IH]; intros H; simpl; [apply Oh_zero|]. apply Oh_plus; [apply IH; intros; apply H; lia|apply H; lia]. Qed.
Lemma Oh_lsum {X} n (l : list X) f : (forall x, In x l -> Oh n (f x)) -> Oh n (fun h => lsum l (fun x => f x h)).
Proof. induction l as [|x l IH]; intros H; simpl; [apply Oh_zero|]. apply Oh_plus; [apply H; left; auto|apply IH; intros; apply H; right; auto]. Qed.
Lemma Oh_le n f g : (exists d, 0 < d /\ forall h, Rabs h < d -> Rabs (f h) <= Rabs (g h)) -> Oh n g -> Oh n f.
Proof.
  intros (d1 & Hd1 & E) (C & d & Hd & H). exists C, (Rmin d d1). split; [apply Rmin_case; auto|].
  intros h Hh. assert (Rabs h < d) by (eapply Rlt_le_trans; [exact Hh|apply Rmin_l]).
  assert (Rabs h < d1) by (eapply Rlt_le_trans; [exact Hh|apply Rmin_r]).
  eapply Rle_trans; [apply E; auto|apply H; auto].
Qed.

(** ** expansions: g(h) = a 0 + a 1 h + ... + a (n-1) h^(n-1) + O(h^n) *)
Definition asy (n : nat) (g : R -> R) (a : nat -> R) : Prop := Oh n (fun h => g h - rsum n (fun r => a r * h ^ r)).

Lemma asy_ext n g a b : (forall r, (r < n)%nat -> a r = b r) -> asy n g a -> asy n g b.
Proof. intros E H. apply (Oh_ext n (fun h => g h - rsum n (fun r => a r * h ^ r))); [|exact H]. intros h. f_equal. apply rsum_ext. intros; rewrite E; auto. Qed.
Lemma asy_ext_fun n f g a : (forall h, f h = g h) -> asy n f a -> asy n g a.
Proof. intros E. apply Oh_ext. intros h. rewrite E. reflexivity. Qed.
Lemma asy_ext_loc n f g a : (exists d, 0 < d /\ forall h, Rabs h < d -> f h = g h) -> asy n f a -> asy n g a.
Proof. intros (d & Hd & E). apply Oh_ext_loc. exists d. split; auto. intros h Hh. rewrite E; auto. Qed.
Lemma asy_zero n : asy n (fun _ => 0) (fun _ => 0).
Proof. apply (Oh_ext n (fun _ => 0)); [|apply Oh_zero]. intros h. rewrite rsum_zero; [ring|]. intros; ring. Qed.
Lemma asy_plus n f g a b : asy n f a -> asy n g b -> asy n (fun h => f h + g h) (fun r => a r + b r).
Proof.
  intros HF HG. apply (Oh_ext n (fun h => (f h - rsum n (fun r => a r * h ^ r)) + (g h - rsum n (fun r => b r * h ^ r)))).
  - intros h. rewrite (rsum_ext n (fun r => (a r + b r) * h ^ r) (fun r => a r * h ^ r + b r * h ^ r)) by (intros; ring).
    rewrite rsum_plus. ring.
  - apply Oh_plus; auto.
Qed.
Lemma asy_scal n c f a : asy n f a -> asy n (fun h => c * f h) (fun r => c * a r).
Proof.
  intros HF. apply (Oh_ext n (fun h => c * (f h - rsum n (fun r => a r * h ^ r)))).
  - intros h. rewrite (rsum_ext n (fun r => c * a r * h ^ r) (fun r => c * (a r * h ^ r))) by (intros; ring).
    rewrite rsum_scal. ring.
  - apply Oh_scal; auto.
Qed.
Lemma asy_rsum n k f a : (forall i, (i < k)%nat -> asy n (f i) (a i)) -> asy n (fun h => rsum k (fun i => f i h)) (fun r => rsum k (fun i => a i r)).
Proof. induction k as [|k IH]; intros H; simpl; [apply asy_zero|]. apply asy_plus; [apply IH; intros; apply H; lia|apply H; lia]. Qed.
Lemma asy_lsum {X} n (l : list X) f a : (forall x, In x l -> asy n (f x) (a x)) -> asy n (fun h => lsum l (fun x => f x h)) (fun r => lsum l (fun x => a x r)).
Proof. induction l as [|x l IH]; intros H; simpl; [apply asy_zero|]. apply asy_plus; [apply H; left; auto|apply IH; intros; apply H; right; auto]. Qed.
Lemma asy_0 g a : Oh 0 g -> asy 0 g a.
Proof. apply Oh_ext. intros h. simpl. ring. Qed.
Lemma asy_poly n m (a : nat -> R) : (n <= m)%nat -> asy n (fun h => rsum m (fun r => a r * h ^ r)) a.
Proof.
  intros H. unfold asy. induction m as [|m IH].
  - replace n with 0%nat by lia. simpl. apply (Oh_ext 0 (fun _ => 0)); [intros; ring|apply Oh_zero].
  - destruct (Nat.eq_dec n (S m)) as [->|Hn].
    + apply (Oh_ext _ (fun _ => 0)); [intros; ring|apply Oh_zero].
    + apply (Oh_ext n (fun h => (rsum m (fun r => a r * h ^ r) - rsum n (fun r => a r * h ^ r)) + a m * h ^ m)).
      { intros h. simpl. ring. }
      apply Oh_plus; [apply IH; lia|]. apply Oh_scal. apply (Oh_weaken m); [lia|apply Oh_pow].
Qed.
Lemma asy_weaken n m g a : (m <= n)%nat -> asy n g a -> asy m g a.
Proof.
  intros H HG. apply (Oh_ext m (fun h => (g h - rsum n (fun r => a r * h ^ r)) + (rsum n (fun r => a r * h ^ r) - rsum m (fun r => a r * h ^ r)))).
  - intros; ring.
  - apply Oh_plus; [apply (Oh_weaken n); auto|]. apply asy_poly; auto.
Qed.
(** multiplication by h shifts *)
Definition shift (a : nat -> R) (r : nat) : R := match r with O => 0 | S r' => a r' end.
Lemma asy_shift n g a : asy n g a -> asy (S n) (fun h => h * g h) (shift a).
Proof.
  intros H. apply (Oh_ext (S n) (fun h => h * (g h - rsum n (fun r => a r * h ^ r)))).
  - intros h. rewrite rsum_split. simpl. rewrite Rmult_minus_distr_l, <- rsum_scal.
    rewrite (rsum_ext n (fun k => h * (a k * h ^ k)) (fun k => a k * (h * h ^ k))) by (intros; ring). ring.
  - apply (Oh_mult 1 n (fun h => h)); [|exact H]. apply (Oh_ext 1 (fun h => h ^ 1)); [intros; ring|apply Oh_pow].
Qed.
Definition conv (a b : nat -> R) (r : nat) : R := rsum (S r) (fun k => a k * b (r - k)%nat).
Lemma conv_id (a b : nat -> R) h n :
  rsum n (fun k => a k * h ^ k * rsum (n - k) (fun l => b l * h ^ l)) = rsum n (fun r => conv a b r * h ^ r).
Proof.
  induction n as [|n IH]; [reflexivity|].
  change (rsum (S n) (fun r => conv a b r * h ^ r)) with (rsum n (fun r => conv a b r * h ^ r) + conv a b n * h ^ n).
  rewrite <- IH. unfold conv.
  change (rsum (S n) (fun k => a k * h ^ k * rsum (S n - k) (fun l => b l * h ^ l)))
    with (rsum n (fun k => a k * h ^ k * rsum (S n - k) (fun l => b l * h ^ l)) + a n * h ^ n * rsum (S n - n) (fun l => b l * h ^ l)).
  rewrite (rsum_ext n (fun k => a k * h ^ k * rsum (S n - k) (fun l => b l * h ^ l))
    (fun k => a k * h ^ k * rsum (n - k) (fun l => b l * h ^ l) + h ^ n * (a k * b (n - k)%nat))).
  2:{ intros k Hk. replace (S n - k)%nat with (S (n - k)) by lia. simpl.
      replace (h ^ n) with (h ^ k * h ^ (n - k)) by (rewrite <- pow_add; f_equal; lia). ring. }
  rewrite rsum_plus, rsum_scal. replace (S n - n)%nat with 1%nat by lia. simpl.
  replace (n - n)%nat with 0%nat by lia. ring.
Qed.
Lemma asy_mult n f g a b : asy n f a -> asy n g b -> asy n (fun h => f h * g h) (conv a b).
Proof.
  intros HF HG.
  assert (HP : Oh 0 (fun h => rsum n (fun r => b r * h ^ r))).
  { apply Oh_rsum. intros i _. apply Oh_scal. apply (Oh_weaken i); [lia|apply Oh_pow]. }
  assert (HQ : Oh 0 (fun h => rsum n (fun r => a r * h ^ r))).
  { apply Oh_rsum. intros i _. apply Oh_scal. apply (Oh_weaken i); [lia|apply Oh_pow]. }
  assert (HG0 : Oh 0 g).
  { apply (Oh_ext 0 (fun h => (g h - rsum n (fun r => b r * h ^ r)) + rsum n (fun r => b r * h ^ r))); [intros; ring|].
    apply Oh_plus; [apply (Oh_weaken n); [lia|exact HG]|exact HP]. }
  apply (Oh_ext n (fun h =>
     (f h - rsum n (fun r => a r * h ^ r)) * g h
     + (rsum n (fun r => a r * h ^ r)) * (g h - rsum n (fun r => b r * h ^ r))
     + (rsum n (fun k => a k * h ^ k * (rsum n (fun l => b l * h ^ l) - rsum (n - k) (fun l => b l * h ^ l)))))).
  - intros h. rewrite <- conv_id.
    rewrite (rsum_ext n (fun k => a k * h ^ k * (rsum n (fun l => b l * h ^ l) - rsum (n - k) (fun l => b l * h ^ l)))
      (fun k => rsum n (fun l => b l * h ^ l) * (a k * h ^ k) + (-1) * (a k * h ^ k * rsum (n - k) (fun l => b l * h ^ l)))) by (intros; ring).
    rewrite rsum_plus, !rsum_scal. ring.
  - apply Oh_plus; [apply Oh_plus|].
    + apply (Oh_weaken (n + 0)); [lia|]. apply Oh_mult; auto.
    + exact (Oh_mult 0 n _ _ HQ HG).
    + apply Oh_rsum. intros k Hk.
      replace n with (k + (n - k))%nat at 1 by lia.
      apply Oh_mult; [apply Oh_scal, Oh_pow|]. apply asy_poly. lia.
Qed.
Lemma asy_const n c : asy n (fun _ => c) (fun r => match r with O => c | _ => 0 end).
Proof.
  apply (Oh_ext n (fun h => match n with O => c | _ => 0 end)).
  - intros h. destruct n as [|n]; [simpl; ring|]. rewrite rsum_split. rewrite rsum_zero by (intros; ring). simpl. ring.
  - destruct n; [apply Oh_const|apply Oh_zero].
Qed.
(** coefficient product of a list of expansions *)
Fixpoint convl (l : list (nat -> R)) : nat -> R :=
  match l with [] => fun r => match r with O => 1 | _ => 0 end | a :: l' => conv a (convl l') end.
Lemma asy_prod {X} n (l : list X) (f : X -> R -> R) (a : X -> nat -> R) :
  (forall x, In x l -> asy n (f x) (a x)) ->
  asy n (fun h => fold_right (fun x p => f x h * p) 1 l) (convl (map a l)).
Proof.
  induction l as [|x l IH]; intros H; simpl; [apply asy_const|].
  apply asy_mult; [apply H; left; auto|apply IH; intros; apply H; right; auto].
Qed.
(** integration *)
Lemma asy_integrate n (Y g : R -> R) a :
  (exists d, 0 < d /\ forall s, Rabs s < d -> derivable_pt_lim Y s (g s)) ->
  asy n g a -> asy (S n) (fun s => Y s - Y 0) (fun r => match r with O => 0 | S r' => a r' / INR r end).
Proof.
  intros (d1 & Hd1 & HD) HA. apply Oh_pos in HA. destruct HA as (C & d & HC & Hd & H).
  exists C, (Rmin d d1). split; [apply Rmin_case; lra|].
  set (P := fun s => rsum n (fun r => a r / INR (S r) * s ^ (S r))).
  assert (HP : forall s, derivable_pt_lim P s (rsum n (fun r => a r * s ^ r))).
  { intros s. unfold P. clear. induction n as [|n IH]; simpl rsum.
    - apply derivable_pt_lim_const.
    - apply (derivable_pt_lim_plus (fun s => rsum n (fun r => a r / INR (S r) * s ^ S r)) (fun s => a n / INR (S n) * s ^ S n)).
      + exact IH.
      + replace (a n * s ^ n) with (a n / INR (S n) * (INR (S n) * s ^ n)).
        * apply derivable_pt_lim_scal. apply (derivable_pt_lim_pow s (S n)).
        * field. apply not_0_INR. lia. }
  assert (E : forall s, rsum (S n) (fun r => match r with O => 0 | S r' => a r' / INR r end * s ^ r) = P s).
  { intros s. rewrite rsum_split. unfold P. simpl pow at 1. rewrite Rmult_0_l, Rplus_0_l. reflexivity. }
  intros s Hs. rewrite E.
  assert (Hsd : Rabs s < d) by (eapply Rlt_le_trans; [exact Hs|apply Rmin_l]).
  assert (Hsd1 : Rabs s < d1) by (eapply Rlt_le_trans; [exact Hs|apply Rmin_r]).
  set (G := fun s => Y s - P s).
  assert (HG : forall x, Rabs x <= Rabs s -> derivable_pt_lim G x (g x - rsum n (fun r => a r * x ^ r))).
  { intros x Hx. apply derivable_pt_lim_minus; [apply HD; lra|apply HP]. }
  assert (HB : forall x, Rabs x <= Rabs s -> Rabs (g x - rsum n (fun r => a r * x ^ r)) <= C * Rabs s ^ n).
  { intros x Hx. eapply Rle_trans; [apply H; lra|]. apply Rmult_le_compat_l; auto. apply pow_incr. split; [apply Rabs_pos|auto]. }
  assert (P0 : P 0 = 0). { unfold P. apply rsum_zero. intros k _. rewrite pow_i by lia. ring. }
  replace (Y s - Y 0 - P s) with (G s - G 0) by (unfold G; rewrite P0; ring).
  destruct (Rtotal_order s 0) as [Hn|[->|Hp]].
  - destruct (MVT_cor2 G (fun x => g x - rsum n (fun r => a r * x ^ r)) s 0 Hn) as (x & Hx1 & Hx2).
    { intros x Hx. apply HG. rewrite !Rabs_left1 by lra. lra. }
    replace (G s - G 0) with (- (G 0 - G s)) by ring. rewrite Rabs_Ropp, Hx1, Rabs_mult.
    replace (Rabs (0 - s)) with (Rabs s) by (rewrite <- Rabs_Ropp; f_equal; ring).
    assert (Rabs x <= Rabs s) by (rewrite !Rabs_left1 by lra; lra).
    specialize (HB x H0). simpl pow. rewrite (Rmult_comm (Rabs s)), <- Rmult_assoc.
    apply Rmult_le_compat_r; [apply Rabs_pos|exact HB].
  - rewrite Rminus_eq_0, Rabs_R0. simpl. rewrite !Rmult_0_l, Rmult_0_r. lra.
  - destruct (MVT_cor2 G (fun x => g x - rsum n (fun r => a r * x ^ r)) 0 s Hp) as (x & Hx1 & Hx2).
    { intros x Hx. apply HG. rewrite !Rabs_right by lra. lra. }
    rewrite Hx1, Rabs_mult. replace (Rabs (s - 0)) with (Rabs s) by (f_equal; ring).
    assert (Rabs x <= Rabs s) by (rewrite !Rabs_right by lra; lra).
    specialize (HB x H0). simpl pow. rewrite (Rmult_comm (Rabs s)), <- Rmult_assoc.
    apply Rmult_le_compat_r; [apply Rabs_pos|exact HB].
Qed.
(** two functions with the same expansion differ by O(h^n) *)
Lemma asy_same n f g a : asy n f a -> asy n g a -> Oh n (fun h => f h - g h).
Proof.
  intros HF HG. apply (Oh_ext n (fun h => (f h - rsum n (fun r => a r * h ^ r)) - (g h - rsum n (fun r => a r * h ^ r)))); [intros; ring|].
  apply Oh_minus; auto.
Qed.
