(** The expansions of Series.v and the order theorem of OrderThm.v for stages indexed by an
    arbitrary set: I is a set of solutions of the stage equations, hh the step size of each.
    Needed for implicit methods, where the stages are not a function of h; the order conditions
    may hold up to a residual (coefficients given as decimals). *)
From Coq Require Import Reals Lra Psatz Lia List Arith Bool.
From Verif Require Import Series Trees OrderThm.
Import ListNotations.
Open Scope R_scope.

Section Indexed.
Variable I : Type.
Variable hh : I -> R.
(** ** O(h^n) as h -> 0 *)
Definition Oh (n : nat) (g : I -> R) : Prop :=
  exists C d, 0 < d /\ forall h, Rabs (hh h) < d -> Rabs (g h) <= C * Rabs (hh h) ^ n.

Lemma Oh_pos n g : Oh n g -> exists C d, 0 <= C /\ 0 < d <= 1 /\ forall h, Rabs (hh h) < d -> Rabs (g h) <= C * Rabs (hh h) ^ n.
Proof.
  intros (C & d & Hd & H). exists (Rabs C), (Rmin d 1). split; [apply Rabs_pos|].
  split; [split; [apply Rmin_case; lra|apply Rmin_r]|].
  intros h Hh. assert (Rabs (hh h) < d) by (eapply Rlt_le_trans; [exact Hh|apply Rmin_l]).
  eapply Rle_trans; [apply H; auto|]. apply Rmult_le_compat_r; [apply pow_le, Rabs_pos|apply Rle_abs].
Qed.
Lemma Oh_ext n f g : (forall h, f h = g h) -> Oh n f -> Oh n g.
Proof. intros E (C & d & Hd & H). exists C, d. split; [auto|]. intros h Hh. rewrite <- E. auto. Qed.
Lemma Oh_ext_loc n f g : (exists d, 0 < d /\ forall h, Rabs (hh h) < d -> f h = g h) -> Oh n f -> Oh n g.
Proof.
  intros (d1 & Hd1 & E) (C & d & Hd & H). exists C, (Rmin d d1). split; [apply Rmin_case; auto|].
  intros h Hh. assert (Rabs (hh h) < d) by (eapply Rlt_le_trans; [exact Hh|apply Rmin_l]).
  assert (Rabs (hh h) < d1) by (eapply Rlt_le_trans; [exact Hh|apply Rmin_r]). rewrite <- E; auto.
Qed.
Lemma Oh_plus n f g : Oh n f -> Oh n g -> Oh n (fun h => f h + g h).
Proof.
  intros (C & d & Hd & H) (C' & d' & Hd' & H'). exists (C + C'), (Rmin d d'). split; [apply Rmin_case; auto|].
  intros h Hh. assert (Rabs (hh h) < d) by (eapply Rlt_le_trans; [exact Hh|apply Rmin_l]).
  assert (Rabs (hh h) < d') by (eapply Rlt_le_trans; [exact Hh|apply Rmin_r]).
  eapply Rle_trans; [apply Rabs_triang|]. rewrite Rmult_plus_distr_r. apply Rplus_le_compat; auto.
Qed.
Lemma Oh_mult n m f g : Oh n f -> Oh m g -> Oh (n + m) (fun h => f h * g h).
Proof.
  intros HF HG. apply Oh_pos in HF. apply Oh_pos in HG.
  destruct HF as (C & d & HC & Hd & H). destruct HG as (C' & d' & HC' & Hd' & H').
  exists (C * C'), (Rmin d d'). split; [apply Rmin_case; lra|].
  intros h Hh. assert (Rabs (hh h) < d) by (eapply Rlt_le_trans; [exact Hh|apply Rmin_l]).
  assert (Rabs (hh h) < d') by (eapply Rlt_le_trans; [exact Hh|apply Rmin_r]).
  rewrite Rabs_mult, pow_add. replace (C * C' * (Rabs (hh h) ^ n * Rabs (hh h) ^ m)) with ((C * Rabs (hh h) ^ n) * (C' * Rabs (hh h) ^ m)) by ring.
  apply Rmult_le_compat; auto using Rabs_pos.
Qed.
Lemma Oh_const c : Oh 0 (fun _ => c).
Proof. exists (Rabs c), 1. split; [lra|]. intros. simpl. lra. Qed.
Lemma Oh_pow n : Oh n (fun h => (hh h) ^ n).
Proof. exists 1, 1. split; [lra|]. intros. rewrite RPow_abs. lra. Qed.
Lemma Oh_zero n : Oh n (fun _ => 0).
Proof. exists 0, 1. split; [lra|]. intros. rewrite Rabs_R0. lra. Qed.
Lemma Oh_scal n c f : Oh n f -> Oh n (fun h => c * f h).
Proof. intros H. exact (Oh_mult 0 n _ _ (Oh_const c) H). Qed.
Lemma Oh_opp n f : Oh n f -> Oh n (fun h => - f h).
Proof. intros H. apply (Oh_ext n (fun h => (-1) * f h)); [intros; ring|]. apply Oh_scal; auto. Qed.
Lemma Oh_minus n f g : Oh n f -> Oh n g -> Oh n (fun h => f h - g h).
Proof. intros HF HG. apply (Oh_plus n f (fun h => - g h)); auto. apply Oh_opp; auto. Qed.
Lemma Oh_weaken n m f : (m <= n)%nat -> Oh n f -> Oh m f.
Proof.
  intros Hnm H. apply Oh_pos in H. destruct H as (C & d & HC & Hd & H). exists C, d. split; [lra|].
  intros h Hh. eapply Rle_trans; [apply H; auto|]. apply Rmult_le_compat_l; auto.
  replace n with (m + (n - m))%nat by lia. rewrite pow_add.
  rewrite <- (Rmult_1_r (Rabs (hh h) ^ m)) at 2. apply Rmult_le_compat_l; [apply pow_le, Rabs_pos|].
  assert (0 <= Rabs (hh h) <= 1) by (split; [apply Rabs_pos|lra]).
  rewrite <- (pow1 (n - m)). apply pow_incr. lra.
Qed.
Lemma Oh_rsum n k f : (forall i, (i < k)%nat -> Oh n (f i)) -> Oh n (fun h => rsum k (fun i => f i h)).
Proof. induction k as [|k IH]; intros H; simpl; [apply Oh_zero|]. apply Oh_plus; [apply IH; intros; apply H; lia|apply H; lia]. Qed.
Lemma Oh_lsum {X} n (l : list X) f : (forall x, In x l -> Oh n (f x)) -> Oh n (fun h => lsum l (fun x => f x h)).
Proof. induction l as [|x l IH]; intros H; simpl; [apply Oh_zero|]. apply Oh_plus; [apply H; left; auto|apply IH; intros; apply H; right; auto]. Qed.
Lemma Oh_le n f g : (exists d, 0 < d /\ forall h, Rabs (hh h) < d -> Rabs (f h) <= Rabs (g h)) -> Oh n g -> Oh n f.
Proof.
  intros (d1 & Hd1 & E) (C & d & Hd & H). exists C, (Rmin d d1). split; [apply Rmin_case; auto|].
  intros h Hh. assert (Rabs (hh h) < d) by (eapply Rlt_le_trans; [exact Hh|apply Rmin_l]).
  assert (Rabs (hh h) < d1) by (eapply Rlt_le_trans; [exact Hh|apply Rmin_r]).
  eapply Rle_trans; [apply E; auto|apply H; auto].
Qed.

(** ** expansions: g(h) = a 0 + a 1 h + ... + a (n-1) h^(n-1) + O(h^n) *)
Definition asy (n : nat) (g : I -> R) (a : nat -> R) : Prop := Oh n (fun h => g h - rsum n (fun r => a r * (hh h) ^ r)).

Lemma asy_ext n g a b : (forall r, (r < n)%nat -> a r = b r) -> asy n g a -> asy n g b.
Proof. intros E H. apply (Oh_ext n (fun h => g h - rsum n (fun r => a r * (hh h) ^ r))); [|exact H]. intros h. f_equal. apply rsum_ext. intros; rewrite E; auto. Qed.
Lemma asy_ext_fun n f g a : (forall h, f h = g h) -> asy n f a -> asy n g a.
Proof. intros E. apply Oh_ext. intros h. rewrite E. reflexivity. Qed.
Lemma asy_ext_loc n f g a : (exists d, 0 < d /\ forall h, Rabs (hh h) < d -> f h = g h) -> asy n f a -> asy n g a.
Proof. intros (d & Hd & E). apply Oh_ext_loc. exists d. split; auto. intros h Hh. rewrite E; auto. Qed.
Lemma asy_zero n : asy n (fun _ => 0) (fun _ => 0).
Proof. apply (Oh_ext n (fun _ => 0)); [|apply Oh_zero]. intros h. rewrite rsum_zero; [ring|]. intros; ring. Qed.
Lemma asy_plus n f g a b : asy n f a -> asy n g b -> asy n (fun h => f h + g h) (fun r => a r + b r).
Proof.
  intros HF HG. apply (Oh_ext n (fun h => (f h - rsum n (fun r => a r * (hh h) ^ r)) + (g h - rsum n (fun r => b r * (hh h) ^ r)))).
  - intros h. rewrite (rsum_ext n (fun r => (a r + b r) * (hh h) ^ r) (fun r => a r * (hh h) ^ r + b r * (hh h) ^ r)) by (intros; ring).
    rewrite rsum_plus. ring.
  - apply Oh_plus; auto.
Qed.
Lemma asy_scal n c f a : asy n f a -> asy n (fun h => c * f h) (fun r => c * a r).
Proof.
  intros HF. apply (Oh_ext n (fun h => c * (f h - rsum n (fun r => a r * (hh h) ^ r)))).
  - intros h. rewrite (rsum_ext n (fun r => c * a r * (hh h) ^ r) (fun r => c * (a r * (hh h) ^ r))) by (intros; ring).
    rewrite rsum_scal. ring.
  - apply Oh_scal; auto.
Qed.
Lemma asy_rsum n k f a : (forall i, (i < k)%nat -> asy n (f i) (a i)) -> asy n (fun h => rsum k (fun i => f i h)) (fun r => rsum k (fun i => a i r)).
Proof. induction k as [|k IH]; intros H; simpl; [apply asy_zero|]. apply asy_plus; [apply IH; intros; apply H; lia|apply H; lia]. Qed.
Lemma asy_lsum {X} n (l : list X) f a : (forall x, In x l -> asy n (f x) (a x)) -> asy n (fun h => lsum l (fun x => f x h)) (fun r => lsum l (fun x => a x r)).
Proof. induction l as [|x l IH]; intros H; simpl; [apply asy_zero|]. apply asy_plus; [apply H; left; auto|apply IH; intros; apply H; right; auto]. Qed.
Lemma asy_0 g a : Oh 0 g -> asy 0 g a.
Proof. apply Oh_ext. intros h. simpl. ring. Qed.
Lemma asy_poly n m (a : nat -> R) : (n <= m)%nat -> asy n (fun h => rsum m (fun r => a r * (hh h) ^ r)) a.
Proof.
  intros H. unfold asy. induction m as [|m IH].
  - replace n with 0%nat by lia. simpl. apply (Oh_ext 0 (fun _ => 0)); [intros; ring|apply Oh_zero].
  - destruct (Nat.eq_dec n (S m)) as [->|Hn].
    + apply (Oh_ext _ (fun _ => 0)); [intros; ring|apply Oh_zero].
    + apply (Oh_ext n (fun h => (rsum m (fun r => a r * (hh h) ^ r) - rsum n (fun r => a r * (hh h) ^ r)) + a m * (hh h) ^ m)).
      { intros h. simpl. ring. }
      apply Oh_plus; [apply IH; lia|]. apply Oh_scal. apply (Oh_weaken m); [lia|apply Oh_pow].
Qed.
Lemma asy_weaken n m g a : (m <= n)%nat -> asy n g a -> asy m g a.
Proof.
  intros H HG. apply (Oh_ext m (fun h => (g h - rsum n (fun r => a r * (hh h) ^ r)) + (rsum n (fun r => a r * (hh h) ^ r) - rsum m (fun r => a r * (hh h) ^ r)))).
  - intros; ring.
  - apply Oh_plus; [apply (Oh_weaken n); auto|]. apply asy_poly; auto.
Qed.
(** multiplication by h shifts *)
Lemma asy_shift n g a : asy n g a -> asy (S n) (fun h => hh h * g h) (shift a).
Proof.
  intros H. apply (Oh_ext (S n) (fun h => hh h * (g h - rsum n (fun r => a r * (hh h) ^ r)))).
  - intros h. rewrite rsum_split. simpl. rewrite Rmult_minus_distr_l, <- rsum_scal.
    rewrite (rsum_ext n (fun k => hh h * (a k * (hh h) ^ k)) (fun k => a k * (hh h * (hh h) ^ k))) by (intros; ring). ring.
  - apply (Oh_mult 1 n (fun h => hh h)); [|exact H]. apply (Oh_ext 1 (fun h => (hh h) ^ 1)); [intros; ring|apply Oh_pow].
Qed.
Lemma asy_mult n f g a b : asy n f a -> asy n g b -> asy n (fun h => f h * g h) (conv a b).
Proof.
  intros HF HG.
  assert (HP : Oh 0 (fun h => rsum n (fun r => b r * (hh h) ^ r))).
  { apply Oh_rsum. intros i _. apply Oh_scal. apply (Oh_weaken i); [lia|apply Oh_pow]. }
  assert (HQ : Oh 0 (fun h => rsum n (fun r => a r * (hh h) ^ r))).
  { apply Oh_rsum. intros i _. apply Oh_scal. apply (Oh_weaken i); [lia|apply Oh_pow]. }
  assert (HG0 : Oh 0 g).
  { apply (Oh_ext 0 (fun h => (g h - rsum n (fun r => b r * (hh h) ^ r)) + rsum n (fun r => b r * (hh h) ^ r))); [intros; ring|].
    apply Oh_plus; [apply (Oh_weaken n); [lia|exact HG]|exact HP]. }
  apply (Oh_ext n (fun h =>
     (f h - rsum n (fun r => a r * (hh h) ^ r)) * g h
     + (rsum n (fun r => a r * (hh h) ^ r)) * (g h - rsum n (fun r => b r * (hh h) ^ r))
     + (rsum n (fun k => a k * (hh h) ^ k * (rsum n (fun l => b l * (hh h) ^ l) - rsum (n - k) (fun l => b l * (hh h) ^ l)))))).
  - intros h. rewrite <- conv_id.
    rewrite (rsum_ext n (fun k => a k * (hh h) ^ k * (rsum n (fun l => b l * (hh h) ^ l) - rsum (n - k) (fun l => b l * (hh h) ^ l)))
      (fun k => rsum n (fun l => b l * (hh h) ^ l) * (a k * (hh h) ^ k) + (-1) * (a k * (hh h) ^ k * rsum (n - k) (fun l => b l * (hh h) ^ l)))) by (intros; ring).
    rewrite rsum_plus, !rsum_scal. ring.
  - apply Oh_plus; [apply Oh_plus|].
    + apply (Oh_weaken (n + 0)); [lia|]. apply Oh_mult; auto.
    + exact (Oh_mult 0 n _ _ HQ HG).
    + apply Oh_rsum. intros k Hk.
      replace n with (k + (n - k))%nat at 1 by lia.
      apply Oh_mult; [apply Oh_scal, Oh_pow|]. apply asy_poly. lia.
Qed.
Lemma asy_const n c : asy n (fun _ => c) (fun r => match r with O => c | _ => 0 end).
Proof.
  apply (Oh_ext n (fun h => match n with O => c | _ => 0 end)).
  - intros h. destruct n as [|n]; [simpl; ring|]. rewrite rsum_split. rewrite rsum_zero by (intros; ring). simpl. ring.
  - destruct n; [apply Oh_const|apply Oh_zero].
Qed.
Lemma asy_prod {X} n (l : list X) (f : X -> I -> R) (a : X -> nat -> R) :
  (forall x, In x l -> asy n (f x) (a x)) ->
  asy n (fun h => fold_right (fun x p => f x h * p) 1 l) (convl (map a l)).
Proof.
  induction l as [|x l IH]; intros H; simpl; [apply asy_const|].
  apply asy_mult; [apply H; left; auto|apply IH; intros; apply H; right; auto].
Qed.
(** two functions with the same expansion differ by O(h^n) *)
Lemma asy_same n f g a : asy n f a -> asy n g a -> Oh n (fun h => f h - g h).
Proof.
  intros HF HG. apply (Oh_ext n (fun h => (f h - rsum n (fun r => a r * (hh h) ^ r)) - (g h - rsum n (fun r => a r * (hh h) ^ r)))); [intros; ring|].
  apply Oh_minus; auto.
Qed.
Section Boot.
Variables uU uV : bool.
Variable s : nat.
Variable c : nat -> R.
Variables Uop Vop : nat -> (nat -> R) -> nat -> R.
Hypothesis HU : forall n, linop (Uop n).
Hypothesis HV : forall n, linop (Vop n).
Variables e d p : nat.
Variable T : nat -> list nat -> R.
Variable ell : nat -> R.
Variables pu pv : nat -> option nat.
Variable f : (nat -> R) -> nat -> R.
Variable w0 : nat -> R.
Hypothesis HT : taylor_at e d f w0 T p.
Variable k z : nat -> I -> nat -> R.
Notation Ac := (Acoef uU uV c Uop Vop e T ell pu pv).
Notation Zc := (Zcoef uU uV c Uop Vop e T ell pu pv).
Hypothesis Hb : forall i q, (i < s)%nat -> (q < d)%nat -> Oh 0 (fun h => k i h q).
Hypothesis Hz : forall n, (forall i q, (i < s)%nat -> (q < d)%nat -> asy n (fun h => k i h q) (Ac i q)) ->
  forall i j, (i < s)%nat -> (j < e)%nat -> asy (S n) (fun h => z i h j) (Zc i j).
Hypothesis Hk : exists del, 0 < del /\ forall h, Rabs (hh h) < del -> forall i q, (i < s)%nat -> (q < d)%nat ->
  k i h q = f (fun j => w0 j + z i h j) q.

Lemma z_O1 i j : (i < s)%nat -> (j < e)%nat -> Oh 1 (fun h => z i h j).
Proof.
  intros Hi Hj. assert (H : asy 1 (fun h => z i h j) (Zc i j)).
  { apply Hz; auto. intros. apply asy_0. apply Hb; auto. }
  apply (Oh_ext 1 (fun h => z i h j - rsum 1 (fun r => Zc i j r * (hh h) ^ r))); [|exact H].
  intros h. simpl. rewrite Zcoef_0. ring.
Qed.

Lemma z_small i del : 0 < del -> (i < s)%nat -> exists d1, 0 < d1 /\ forall h, Rabs (hh h) < d1 -> forall j, (j < e)%nat -> Rabs (z i h j) < del.
Proof.
  intros Hd Hi.
  assert (H : forall m, (m <= e)%nat -> exists d1, 0 < d1 /\ forall h, Rabs (hh h) < d1 -> forall j, (j < m)%nat -> Rabs (z i h j) < del).
  { induction m as [|m IH]; intros Hm; [exists 1; split; [lra|]; intros; lia|].
    destruct IH as (d1 & Hd1 & H1); [lia|].
    destruct (Oh_pos _ _ (z_O1 i m Hi ltac:(lia))) as (C & d2 & HC & Hd2 & H2).
    exists (Rmin d1 (Rmin d2 (del / (C + 1)))). split.
    { apply Rmin_case; auto. apply Rmin_case; [lra|]. apply Rdiv_lt_0_compat; lra. }
    intros h Hh j Hj.
    assert (A1 : Rabs (hh h) < d1) by (eapply Rlt_le_trans; [exact Hh|apply Rmin_l]).
    assert (A2 : Rabs (hh h) < d2) by (eapply Rlt_le_trans; [exact Hh|eapply Rle_trans; [apply Rmin_r|apply Rmin_l]]).
    assert (A3 : Rabs (hh h) < del / (C + 1)) by (eapply Rlt_le_trans; [exact Hh|eapply Rle_trans; [apply Rmin_r|apply Rmin_r]]).
    destruct (Nat.eq_dec j m) as [->|Hne]; [|apply H1; auto; lia].
    eapply Rle_lt_trans; [apply H2; auto|]. simpl. rewrite Rmult_1_r.
    apply Rmult_lt_compat_r with (r := C + 1) in A3; [|lra].
    replace (del / (C + 1) * (C + 1)) with del in A3 by (field; lra).
    pose proof (Rabs_pos (hh h)). nra. }
  apply H; auto.
Qed.

Theorem bootstrap n : (n <= p)%nat -> forall i q, (i < s)%nat -> (q < d)%nat -> asy n (fun h => k i h q) (Ac i q).
Proof.
  induction n as [|n IH]; intros Hn i q Hi Hq; [apply asy_0, Hb; auto|].
  specialize (IH ltac:(lia)). pose proof (Hz n IH) as HZ.
  destruct (HT q Hq) as (C & del & Hdel & HTq).
  destruct (z_small i del Hdel Hi) as (d1 & Hd1 & Hz1).
  destruct Hk as (d2 & Hd2 & Hk2).
  set (G := fun h => rsum p (fun m => lsum (idx e m) (fun js => T q js * fold_right (fun j pr => z i h j * pr) 1 js))).
  assert (HR : Oh (S n) (fun h => k i h q - G h)).
  { apply (Oh_weaken p); [lia|].
    apply (Oh_le p _ (fun h => C * rsum e (fun j => Rabs (z i h j)) ^ p)).
    - exists (Rmin d1 d2). split; [apply Rmin_case; auto|]. intros h Hh.
      assert (A1 : Rabs (hh h) < d1) by (eapply Rlt_le_trans; [exact Hh|apply Rmin_l]).
      assert (A2 : Rabs (hh h) < d2) by (eapply Rlt_le_trans; [exact Hh|apply Rmin_r]).
      rewrite (Hk2 h A2 i q Hi Hq). eapply Rle_trans; [apply HTq, Hz1, A1|]. apply Rle_abs.
    - apply Oh_scal.
      assert (H1 : Oh 1 (fun h => rsum e (fun j => Rabs (z i h j)))).
      { apply Oh_rsum. intros j Hj. apply (Oh_le 1 _ (fun h => z i h j)); [|apply z_O1; auto].
        exists 1. split; [lra|]. intros. rewrite Rabs_Rabsolu. lra. }
      clear - H1. induction p as [|p0 IHp]; [apply (Oh_const 1)|]. exact (Oh_mult 1 p0 _ _ H1 IHp). }
  assert (HG : asy (S n) G (Ac i q)).
  { apply (asy_ext (S n) G (fun r => rsum p (fun m => lsum (idx e m) (fun js => T q js * convl (map (Zc i) js) r)))).
    { intros r Hr. symmetry. apply Acoef_eq; auto. lia. }
    apply asy_rsum. intros m Hm. apply asy_lsum. intros js Hjs. apply asy_scal.
    apply (asy_prod (S n) js (fun j h => z i h j) (Zc i)). intros j Hj. apply HZ; auto.
    apply idx_in in Hjs. rewrite Forall_forall in Hjs. auto. }
  unfold asy. apply (Oh_ext (S n) (fun h => (k i h q - G h) + (G h - rsum (S n) (fun r => Ac i q r * (hh h) ^ r)))); [intros; ring|].
  apply Oh_plus; auto.
Qed.
End Boot.

Lemma asy_opt0 n b f a : (b = true -> asy n f a) -> asy n (fun h => opt0 b (f h)) (fun r => opt0 b (a r)).
Proof. intros H. destruct b; [exact (H eq_refl)|apply asy_zero]. Qed.

Section Main.
Variables uU uV : bool.
Variables e d p : nat.
Variable T : nat -> list nat -> R.
Variable ell : nat -> R.
Variables pu pv : nat -> option nat.
Hypothesis Hpu : forall j q, pu j = Some q -> (q < d)%nat.
Hypothesis Hpv : forall j q, pv j = Some q -> (q < d)%nat.
Variable f : (nat -> R) -> nat -> R.
Variable w0 : nat -> R.
Hypothesis HT : taylor_at e d f w0 T p.

Lemma asy_inj (n : nat) (P : nat -> option nat) (g : I -> nat -> R) (a : nat -> nat -> R) j :
  (forall j q, P j = Some q -> (q < d)%nat) ->
  (forall q, (q < d)%nat -> asy n (fun h => g h q) (a q)) ->
  asy n (fun h => inj P (g h) j) (fun r => inj P (fun q => a q r) j).
Proof. intros HP H. unfold inj. destruct (P j) as [q|] eqn:E; [apply H; eauto|apply asy_zero]. Qed.

(** *** stages *)
Section Stages.
Variable s : nat.
Variables AU AV : nat -> nat -> R.
Variable c : nat -> R.
Variable k : nat -> I -> nat -> R.

Definition gstage_arg (i : nat) (h : I) (j : nat) : R :=
  hh h * (c i * ell j) + opt0 uU (hh h * (hh h * rsum s (fun l => AU i l * inj pu (k l h) j)))
  + opt0 uV (hh h * rsum s (fun l => AV i l * inj pv (k l h) j)).

Hypothesis Hb : forall i q, (i < s)%nat -> (q < d)%nat -> Oh 0 (fun h => k i h q).
Hypothesis Hk : exists del, 0 < del /\ forall h, Rabs (hh h) < del -> forall i q, (i < s)%nat -> (q < d)%nat ->
  k i h q = f (fun j => w0 j + gstage_arg i h j) q.

Notation Ac := (Acoef uU uV c (st_op s AU) (st_op s AV) e T ell pu pv).

Theorem stages_expand i q : (i < s)%nat -> (q < d)%nat -> asy p (fun h => k i h q) (Ac i q).
Proof.
  intros Hi Hq. eapply (bootstrap uU uV s c (st_op s AU) (st_op s AV)) with (f := f) (w0 := w0) (d := d) (z := gstage_arg); eauto using st_op_lin.
  clear i q Hi Hq. intros n IH i j Hi Hj.
  set (aU := fun r => match r with O => 0 | S r' => rsum s (fun l => AU i l * inj pu (fun q => Ac l q r') j) end).
  set (aV := fun r => rsum s (fun l => AV i l * inj pv (fun q => Ac l q r) j)).
  apply (asy_ext (S n) _ (fun r => (shift (fun r => match r with O => c i * ell j | _ => 0 end) r
     + opt0 uU (shift aU r)) + opt0 uV (shift aV r))).
  { intros r Hr. destruct r as [|r]; [rewrite Zcoef_0; unfold opt0; simpl; destruct uU, uV; ring|].
    rewrite Zcoef_S by (intros; apply st_op_lin). unfold opt0. simpl shift.
    unfold aU, aV, st_op. destruct uU, uV, r; ring. }
  unfold gstage_arg. apply asy_plus; [apply asy_plus|].
  - apply (asy_shift n (fun _ => c i * ell j)). apply asy_const.
  - apply asy_opt0; intros Hu.
    apply (asy_weaken (S (S n))); [lia|]. apply asy_shift. 
    apply (asy_ext (S n) _ (shift (fun r => rsum s (fun l => AU i l * inj pu (fun q => Ac l q r) j)))).
    { intros [|r] Hr; reflexivity. }
    apply asy_shift. apply asy_rsum. intros l Hl. apply asy_scal. apply (asy_inj n pu (k l) (Ac l)); auto.
  - apply asy_opt0; intros Hu.
    apply asy_shift. apply asy_rsum. intros l Hl. apply asy_scal. apply (asy_inj n pv (k l) (Ac l)); auto.
Qed.
End Stages.


(** *** order conditions, up to a residual eps, and the theorem *)
Section Near.
Variable s : nat.
Variables AU AV : nat -> nat -> R.
Variable c : nat -> R.
Variable eps : R.
Definition near_V (b : nat -> R) (m : nat) : Prop := forall n fs, (n < m)%nat -> In fs (FOREST uU uV n) ->
  Rabs (rsum s (fun i => b i * stage_weight s AU AV c fs i) - exact_weight fs / INR (S n)) <= eps.
Definition near_U (b : nat -> R) (m : nat) : Prop := forall n fs, (n < m)%nat -> In fs (FOREST uU uV n) ->
  Rabs (rsum s (fun i => b i * stage_weight s AU AV c fs i) - exact_weight fs / (INR (S (S n)) * INR (S n))) <= eps.
Definition near_Z (b : nat -> R) (m : nat) : Prop := forall n fs, (n < m)%nat -> In fs (FOREST uU uV n) ->
  Rabs (rsum s (fun i => b i * stage_weight s AU AV c fs i)) <= eps.
(** total size of the elementary differentials of order n *)
Definition mass (n q : nat) : R := lsum (FOREST uU uV n) (fun fs => Rabs (F e T ell pu pv fs q)).

Variable k : nat -> I -> nat -> R.
Hypothesis Hb : forall i q, (i < s)%nat -> (q < d)%nat -> Oh 0 (fun h => k i h q).
Hypothesis Hk : exists del, 0 < del /\ forall h, Rabs (hh h) < del -> forall i q, (i < s)%nat -> (q < d)%nat ->
  k i h q = f (fun j => w0 j + gstage_arg s AU AV c k i h j) q.
Notation Ak := (Acoef uU uV c (st_op s AU) (st_op s AV) e T ell pu pv).
Notation Ae := (Acoef uU uV (fun _ => 1) ex_U ex_V e T ell pu pv).

Lemma near_coef b q n (r : R) : 
  (forall fs, In fs (FOREST uU uV n) -> Rabs (rsum s (fun i => b i * stage_weight s AU AV c fs i) - r * exact_weight fs) <= eps) ->
  Rabs (rsum s (fun i => b i * Ak i q n) - r * Ae 0%nat q n) <= eps * mass n q.
Proof.
  intros H. unfold Acoef. rewrite <- lsum_scal.
  rewrite (rsum_ext s _ (fun i => lsum (FOREST uU uV n) (fun fs => F e T ell pu pv fs q * (b i * stage_weight s AU AV c fs i)))).
  2:{ intros i _. rewrite <- lsum_scal. apply lsum_ext. intros; unfold stage_weight; ring. }
  rewrite <- lsum_rsum_swap.
  replace (lsum (FOREST uU uV n) (fun x => rsum s (fun k0 => F e T ell pu pv x q * (b k0 * stage_weight s AU AV c x k0))) -
     lsum (FOREST uU uV n) (fun x => r * (wf (fun _ => 1) ex_U ex_V x 0%nat * F e T ell pu pv x q)))
    with (lsum (FOREST uU uV n) (fun x => F e T ell pu pv x q * (rsum s (fun i => b i * stage_weight s AU AV c x i) - r * exact_weight x))).
  - unfold mass. rewrite <- lsum_scal. revert H. generalize (FOREST uU uV n). induction l as [|x l IH]; intros H; cbn [lsum]; [rewrite Rabs_R0; lra|].
    eapply Rle_trans; [apply Rabs_triang|]. apply Rplus_le_compat; [|apply IH; intros; apply H; right; assumption].
    rewrite Rabs_mult, Rmult_comm. apply Rmult_le_compat_r; [apply Rabs_pos|apply H; left; reflexivity].
  - generalize (FOREST uU uV n). induction l as [|x l IH]; cbn [lsum]; [ring|]. rewrite IH, rsum_scal. unfold exact_weight. ring.
Qed.

Lemma Oh_unif_i (n m : nat) (g : nat -> I -> R) : (forall i, (i < m)%nat -> Oh n (g i)) ->
  exists C del, 0 <= C /\ 0 < del /\ forall h, Rabs (hh h) < del -> forall i, (i < m)%nat -> Rabs (g i h) <= C * Rabs (hh h) ^ n.
Proof.
  induction m as [|m IH]; intros H; [exists 0, 1; split; [lra|]; split; [lra|]; intros; lia|].
  destruct IH as (C1 & d1 & HC1 & Hd1 & H1); [intros; apply H; lia|].
  destruct (Oh_pos _ _ (H m ltac:(lia))) as (C2 & d2 & HC2 & Hd2 & H2).
  exists (C1 + C2), (Rmin d1 d2). split; [lra|]. split; [apply Rmin_case; lra|]. intros h Hh i Hi.
  assert (A1 : Rabs (hh h) < d1) by (eapply Rlt_le_trans; [exact Hh|apply Rmin_l]).
  assert (A2 : Rabs (hh h) < d2) by (eapply Rlt_le_trans; [exact Hh|apply Rmin_r]).
  assert (P : 0 <= Rabs (hh h) ^ n) by (apply pow_le, Rabs_pos).
  destruct (Nat.eq_dec i m) as [->|Hne]; [specialize (H2 h A2)|specialize (H1 h A1 i ltac:(lia))]; nra.
Qed.
Lemma bounded_fin (b : nat -> R) n : exists B, 0 <= B /\ forall i, (i < n)%nat -> Rabs (b i) <= B.
Proof.
  induction n as [|n (B & HB & H)]; [exists 0; split; [lra|intros; lia]|].
  exists (B + Rabs (b n)). pose proof (Rabs_pos (b n)). split; [lra|]. intros i Hi.
  destruct (Nat.eq_dec i n) as [->|Hne]; [lra|]. specialize (H i ltac:(lia)). lra.
Qed.

(** the combination of stages agrees with a polynomial up to O(h^m) *)
Lemma g_comb b m q : (q < d)%nat -> (m <= p)%nat ->
  exists C del, 0 < del /\ forall h, Rabs (hh h) < del ->
    Rabs (rsum s (fun i => b i * k i h q) - rsum m (fun r => rsum s (fun i => b i * Ak i q r) * hh h ^ r)) <= C * Rabs (hh h) ^ m.
Proof.
  intros Hq Hm. destruct (bounded_fin b s) as (B & HB & Hbb).
  destruct (Oh_unif_i m s (fun i h => k i h q - rsum m (fun r => Ak i q r * hh h ^ r))) as (C & del & HC & Hd & H1).
  { intros i Hi. apply (asy_weaken p m); auto. apply (stages_expand s AU AV c k Hb Hk); auto. }
  exists (INR s * (B * C)), del. split; auto. intros h Hh.
  replace (rsum s (fun i => b i * k i h q) - rsum m (fun r => rsum s (fun i => b i * Ak i q r) * hh h ^ r))
    with (rsum s (fun i => b i * (k i h q - rsum m (fun r => Ak i q r * hh h ^ r)))).
  - rewrite Rmult_assoc. apply rsum_abs_le. intros i Hi. rewrite Rabs_mult, Rmult_assoc.
    apply Rmult_le_compat; auto using Rabs_pos.
  - rewrite (rsum_ext m _ (fun r => rsum s (fun i => b i * (Ak i q r * hh h ^ r)))).
    2:{ intros. rewrite Rmult_comm, <- rsum_scal. apply rsum_ext. intros; ring. }
    rewrite rsum_swap.
    rewrite (rsum_ext s _ (fun i => b i * k i h q + -1 * rsum m (fun r => b i * (Ak i q r * hh h ^ r)))).
    2:{ intros. rewrite rsum_scal. ring. }
    rewrite rsum_plus, rsum_scal. ring.
Qed.
Lemma near_poly b m q (r : nat -> R) x :
  (forall n, (n < m)%nat -> Rabs (rsum s (fun i => b i * Ak i q n) - r n * Ae 0%nat q n) <= eps * mass n q) ->
  Rabs (rsum m (fun n => rsum s (fun i => b i * Ak i q n) * x ^ n) - rsum m (fun n => r n * Ae 0%nat q n * x ^ n)) <= eps * rsum m (fun n => mass n q * Rabs x ^ n).
Proof.
  intros H. rewrite <- rsum_scal. induction m as [|m IH]; cbn [rsum]; [rewrite Rminus_0_r, Rabs_R0; lra|].
  match goal with |- Rabs (?a + ?b - (?c + ?e)) <= _ => replace (a + b - (c + e)) with ((a - c) + (b - e)) by ring end.
  eapply Rle_trans; [apply Rabs_triang|]. apply Rplus_le_compat; [apply IH; intros; apply H; lia|].
  rewrite <- Rmult_minus_distr_r, Rabs_mult, <- RPow_abs, <- Rmult_assoc. apply Rmult_le_compat_r; [apply pow_le, Rabs_pos|]. apply H; lia.
Qed.

Variables K YV YU : R -> nat -> R.
Hypothesis HYV : exists del, 0 < del /\ forall h, Rabs h < del -> forall q, (q < d)%nat -> derivable_pt_lim (fun x => YV x q) h (K h q).
Hypothesis HYU : uU = true -> exists del, 0 < del /\ forall h, Rabs h < del -> forall q, (q < d)%nat -> derivable_pt_lim (fun x => YU x q) h (YV h q - YV 0 q).
Hypothesis HKb : forall q, (q < d)%nat -> Series.Oh 0 (fun h => K h q).
Hypothesis HK : exists del, 0 < del /\ forall h, Rabs h < del -> forall q, (q < d)%nat ->
  K h q = f (fun j => w0 j + exact_arg uU uV ell pu pv YV YU h j) q.

Theorem g_order_V (b : nat -> R) (m q : nat) : (q < d)%nat -> (m <= p)%nat -> near_V b m ->
  exists C del, 0 < del /\ forall h, Rabs (hh h) < del ->
    Rabs (hh h * rsum s (fun i => b i * k i h q) - (YV (hh h) q - YV 0 q)) <= eps * rsum m (fun n => mass n q * Rabs (hh h) ^ S n) + C * Rabs (hh h) ^ S m.
Proof.
  intros Hq Hm HO. destruct (g_comb b m q Hq Hm) as (C1 & d1 & Hd1 & H1).
  assert (HE := YV_expand uU uV e d T ell pu pv K YV HYV m q Hq (Series.asy_weaken p m _ _ Hm (exact_expand uU uV e d p T ell pu pv Hpu Hpv f w0 HT K YV YU HYV HYU HKb HK q Hq))).
  destruct HE as (C2 & d2 & Hd2 & H2).
  exists (C1 + C2), (Rmin d1 d2). split; [apply Rmin_case; auto|]. intros h Hh.
  assert (A1 : Rabs (hh h) < d1) by (eapply Rlt_le_trans; [exact Hh|apply Rmin_l]).
  assert (A2 : Rabs (hh h) < d2) by (eapply Rlt_le_trans; [exact Hh|apply Rmin_r]).
  specialize (H1 h A1). specialize (H2 (hh h) A2). rewrite rsum_split in H2.
  pose proof (near_poly b m q (fun n => / INR (S n)) (hh h) (fun n Hn => near_coef b q n (/ INR (S n)) (fun fs Hfs => ltac:(rewrite Rmult_comm; exact (HO n fs Hn Hfs))))) as H3.
  rewrite (rsum_ext m (fun r => Ae 0%nat q r / INR (S r) * hh h ^ S r) (fun r => hh h * (/ INR (S r) * Ae 0%nat q r * hh h ^ r))) in H2.
  2:{ intros r Hr. rewrite <- tech_pow_Rmult. unfold Rdiv. ring. }
  rewrite rsum_scal in H2.
  rewrite (rsum_ext m (fun n => mass n q * Rabs (hh h) ^ S n) (fun n => Rabs (hh h) * (mass n q * Rabs (hh h) ^ n))) by (intros; rewrite <- tech_pow_Rmult; ring). rewrite rsum_scal.
  set (S1 := rsum s (fun i => b i * k i h q)) in *. set (S2 := rsum m (fun n => / INR (S n) * Ae 0%nat q n * hh h ^ n)) in *.
  set (S3 := rsum m (fun n => rsum s (fun i => b i * Ak i q n) * hh h ^ n)) in *. set (S4 := rsum m (fun n => mass n q * Rabs (hh h) ^ n)) in *.
  replace (hh h * S1 - (YV (hh h) q - YV 0 q)) with ((hh h * (S1 - S3) + hh h * (S3 - S2)) - (YV (hh h) q - YV 0 q - (0 * hh h ^ 0 + hh h * S2))) by ring.
  eapply Rle_trans; [apply Rabs_triang|]. rewrite Rabs_Ropp. eapply Rle_trans; [apply Rplus_le_compat_r, Rabs_triang|].
  rewrite !Rabs_mult. pose proof (Rabs_pos (hh h)) as P.
  apply (Rmult_le_compat_l _ _ _ P) in H1. apply (Rmult_le_compat_l _ _ _ P) in H3.
  replace (C1 + C2) with (C1 + C2) by ring. rewrite Rmult_plus_distr_r. rewrite <- (tech_pow_Rmult (Rabs (hh h)) m) at 1. lra.
Qed.
Theorem g_order_U (b : nat -> R) (m q : nat) : uU = true -> (q < d)%nat -> (m <= p)%nat -> near_U b m ->
  exists C del, 0 < del /\ forall h, Rabs (hh h) < del ->
    Rabs (hh h * (hh h * rsum s (fun i => b i * k i h q)) - (YU (hh h) q - YU 0 q)) <= eps * rsum m (fun n => mass n q * Rabs (hh h) ^ S (S n)) + C * Rabs (hh h) ^ S (S m).
Proof.
  intros Hu Hq Hm HO. destruct (g_comb b m q Hq Hm) as (C1 & d1 & Hd1 & H1).
  assert (HE := YU_expand uU uV e d T ell pu pv K YV YU HYV HYU m q Hu Hq (Series.asy_weaken p m _ _ Hm (exact_expand uU uV e d p T ell pu pv Hpu Hpv f w0 HT K YV YU HYV HYU HKb HK q Hq))).
  destruct HE as (C2 & d2 & Hd2 & H2).
  exists (C1 + C2), (Rmin d1 d2). split; [apply Rmin_case; auto|]. intros h Hh.
  assert (A1 : Rabs (hh h) < d1) by (eapply Rlt_le_trans; [exact Hh|apply Rmin_l]).
  assert (A2 : Rabs (hh h) < d2) by (eapply Rlt_le_trans; [exact Hh|apply Rmin_r]).
  specialize (H1 h A1). specialize (H2 (hh h) A2). rewrite rsum_split, rsum_split in H2.
  pose proof (near_poly b m q (fun n => / (INR (S (S n)) * INR (S n))) (hh h) (fun n Hn => near_coef b q n (/ (INR (S (S n)) * INR (S n))) (fun fs Hfs => ltac:(rewrite (Rmult_comm (/ _)); exact (HO n fs Hn Hfs))))) as H3.
  rewrite (rsum_ext m (fun r => Ae 0%nat q r / (INR (S (S r)) * INR (S (S r) - 1)) * hh h ^ S (S r)) (fun r => hh h * hh h * (/ (INR (S (S r)) * INR (S r)) * Ae 0%nat q r * hh h ^ r))) in H2.
  2:{ intros r Hr. replace (S (S r) - 1)%nat with (S r) by lia. rewrite <- !tech_pow_Rmult. unfold Rdiv. ring. }
  rewrite rsum_scal in H2.
  rewrite (rsum_ext m (fun n => mass n q * Rabs (hh h) ^ S (S n)) (fun n => Rabs (hh h) * Rabs (hh h) * (mass n q * Rabs (hh h) ^ n))) by (intros; rewrite <- !tech_pow_Rmult; ring). rewrite rsum_scal.
  set (S1 := rsum s (fun i => b i * k i h q)) in *. set (S2 := rsum m (fun n => / (INR (S (S n)) * INR (S n)) * Ae 0%nat q n * hh h ^ n)) in *.
  set (S3 := rsum m (fun n => rsum s (fun i => b i * Ak i q n) * hh h ^ n)) in *. set (S4 := rsum m (fun n => mass n q * Rabs (hh h) ^ n)) in *.
  replace (hh h * (hh h * S1) - (YU (hh h) q - YU 0 q)) with ((hh h * hh h * (S1 - S3) + hh h * hh h * (S3 - S2)) - (YU (hh h) q - YU 0 q - (0 * hh h ^ 0 + (0 * hh h ^ 1 + hh h * hh h * S2)))) by ring.
  eapply Rle_trans; [apply Rabs_triang|]. rewrite Rabs_Ropp. eapply Rle_trans; [apply Rplus_le_compat_r, Rabs_triang|].
  rewrite !Rabs_mult. pose proof (Rabs_pos (hh h)) as P0. assert (P : 0 <= Rabs (hh h) * Rabs (hh h)) by nra.
  apply (Rmult_le_compat_l _ _ _ P) in H1. apply (Rmult_le_compat_l _ _ _ P) in H3.
  rewrite Rmult_plus_distr_r. replace (C1 * Rabs (hh h) ^ S (S m)) with (Rabs (hh h) * Rabs (hh h) * (C1 * Rabs (hh h) ^ m)) by (rewrite <- !tech_pow_Rmult; ring). lra.
Qed.
Theorem g_order_Z (b : nat -> R) (m q : nat) : (q < d)%nat -> (m <= p)%nat -> near_Z b m ->
  exists C del, 0 < del /\ forall h, Rabs (hh h) < del ->
    Rabs (hh h * rsum s (fun i => b i * k i h q)) <= eps * rsum m (fun n => mass n q * Rabs (hh h) ^ S n) + C * Rabs (hh h) ^ S m.
Proof.
  intros Hq Hm HO. destruct (g_comb b m q Hq Hm) as (C1 & d1 & Hd1 & H1).
  exists C1, d1. split; [exact Hd1|]. intros h Hh. specialize (H1 h Hh).
  pose proof (near_poly b m q (fun n => 0) (hh h) (fun n Hn => near_coef b q n 0 (fun fs Hfs => ltac:(rewrite Rmult_0_l, Rminus_0_r; exact (HO n fs Hn Hfs))))) as H3.
  rewrite (rsum_ext m (fun n => mass n q * Rabs (hh h) ^ S n) (fun n => Rabs (hh h) * (mass n q * Rabs (hh h) ^ n))) by (intros; rewrite <- tech_pow_Rmult; ring). rewrite rsum_scal.
  cbv beta in H3. assert (Z : rsum m (fun n => 0 * Ae 0%nat q n * hh h ^ n) = 0) by (apply rsum_zero; intros; ring). rewrite Z in H3. rewrite Rminus_0_r in H3.
  set (S1 := rsum s (fun i => b i * k i h q)) in *.
  set (S3 := rsum m (fun n => rsum s (fun i => b i * Ak i q n) * hh h ^ n)) in *. set (S4 := rsum m (fun n => mass n q * Rabs (hh h) ^ n)) in *.
  replace (hh h * S1) with (hh h * (S1 - S3) + hh h * S3) by ring.
  eapply Rle_trans; [apply Rabs_triang|]. rewrite !Rabs_mult. pose proof (Rabs_pos (hh h)) as P.
  apply (Rmult_le_compat_l _ _ _ P) in H1. apply (Rmult_le_compat_l _ _ _ P) in H3. rewrite <- (tech_pow_Rmult (Rabs (hh h)) m). lra.
Qed.
End Near.
End Main.
End Indexed.
