(** Uniform versions of the expansions of Series.v and of the order theorem of OrderThm.v:
    the base point of the step, the right-hand side's Taylor coefficients there and the
    Runge-Kutta coefficients may vary over a set I; all constants are common to the set. *)
From Coq Require Import Reals Lra Psatz Lia List Arith Bool.
From Verif Require Import Series Trees OrderThm OrderRK GOrder.
Import ListNotations.
Open Scope R_scope.

Section Indexed.
Variable I : Type.
Variable hh : I -> R.
Notation Oh := (GOrder.Oh I hh).
Definition uasy (n : nat) (g : I -> R) (a : I -> nat -> R) : Prop :=
  (forall r, (r < n)%nat -> Oh 0 (fun i => a i r)) /\ Oh n (fun i => g i - rsum n (fun r => a i r * (hh i) ^ r)).

Lemma Oh_hh : Oh 1 hh.
Proof. apply (GOrder.Oh_ext _ _ 1 (fun i => hh i ^ 1)); [intros; ring|apply GOrder.Oh_pow]. Qed.
Lemma Oh_bmul n f g : Oh 0 f -> Oh n g -> Oh n (fun i => f i * g i).
Proof. intros A B. exact (GOrder.Oh_mult _ _ 0 n _ _ A B). Qed.
Lemma uasy_ext n g a b : (forall i r, (r < n)%nat -> a i r = b i r) -> uasy n g a -> uasy n g b.
Proof.
  intros E (A & H). split.
  - intros r Hr. apply (GOrder.Oh_ext _ _ 0 (fun i => a i r)); auto.
  - eapply GOrder.Oh_ext; [|exact H]. intros i. cbv beta. f_equal. apply rsum_ext. intros; rewrite E; auto.
Qed.
Lemma uasy_ext_fun n f g a : (forall i, f i = g i) -> uasy n f a -> uasy n g a.
Proof. intros E (A & H). split; auto. eapply GOrder.Oh_ext; [|exact H]. intros i. cbv beta. rewrite E. reflexivity. Qed.
Lemma uasy_zero n : uasy n (fun _ => 0) (fun _ _ => 0).
Proof. split; [intros; apply GOrder.Oh_zero|]. apply (GOrder.Oh_ext _ _ n (fun _ => 0)); [|apply GOrder.Oh_zero]. intros h. rewrite rsum_zero; [ring|]. intros; ring. Qed.
Lemma uasy_plus n f g a b : uasy n f a -> uasy n g b -> uasy n (fun i => f i + g i) (fun i r => a i r + b i r).
Proof.
  intros (A1 & HF) (A2 & HG). split; [intros; apply GOrder.Oh_plus; auto|].
  apply (GOrder.Oh_ext _ _ n (fun h => (f h - rsum n (fun r => a h r * (hh h) ^ r)) + (g h - rsum n (fun r => b h r * (hh h) ^ r)))).
  - intros h. rewrite (rsum_ext n (fun r => (a h r + b h r) * (hh h) ^ r) (fun r => a h r * (hh h) ^ r + b h r * (hh h) ^ r)) by (intros; ring).
    rewrite rsum_plus. ring.
  - apply GOrder.Oh_plus; auto.
Qed.
Lemma uasy_scal n k f a : Oh 0 k -> uasy n f a -> uasy n (fun i => k i * f i) (fun i r => k i * a i r).
Proof.
  intros HK (A1 & HF). split; [intros; apply Oh_bmul; auto|].
  apply (GOrder.Oh_ext _ _ n (fun h => k h * (f h - rsum n (fun r => a h r * (hh h) ^ r)))).
  - intros h. rewrite (rsum_ext n (fun r => k h * a h r * (hh h) ^ r) (fun r => k h * (a h r * (hh h) ^ r))) by (intros; ring).
    rewrite rsum_scal. ring.
  - apply Oh_bmul; auto.
Qed.
Lemma uasy_rsum n k f a : (forall l, (l < k)%nat -> uasy n (f l) (a l)) -> uasy n (fun i => rsum k (fun l => f l i)) (fun i r => rsum k (fun l => a l i r)).
Proof. induction k as [|k IH]; intros H; simpl; [apply uasy_zero|]. apply uasy_plus; [apply IH; intros; apply H; lia|apply H; lia]. Qed.
Lemma uasy_lsum {X} n (l : list X) f a : (forall x, In x l -> uasy n (f x) (a x)) -> uasy n (fun i => lsum l (fun x => f x i)) (fun i r => lsum l (fun x => a x i r)).
Proof. induction l as [|x l IH]; intros H; simpl; [apply uasy_zero|]. apply uasy_plus; [apply H; left; auto|apply IH; intros; apply H; right; auto]. Qed.
Lemma uasy_0 g a : Oh 0 g -> uasy 0 g a.
Proof. intros H. split; [intros; lia|]. eapply GOrder.Oh_ext; [|exact H]. intros h. simpl. ring. Qed.
Lemma Oh_tail n m (a : I -> nat -> R) : (n <= m)%nat -> (forall r, (r < m)%nat -> Oh 0 (fun i => a i r)) ->
  Oh n (fun i => rsum m (fun r => a i r * hh i ^ r) - rsum n (fun r => a i r * hh i ^ r)).
Proof.
  intros H HB. induction m as [|m IH].
  - replace n with 0%nat by lia. simpl. apply (GOrder.Oh_ext _ _ 0 (fun _ => 0)); [intros; ring|apply GOrder.Oh_zero].
  - destruct (Nat.eq_dec n (S m)) as [->|Hn].
    + apply (GOrder.Oh_ext _ _ _ (fun _ => 0)); [intros; ring|apply GOrder.Oh_zero].
    + apply (GOrder.Oh_ext _ _ n (fun h => (rsum m (fun r => a h r * (hh h) ^ r) - rsum n (fun r => a h r * (hh h) ^ r)) + a h m * (hh h) ^ m)).
      { intros h. simpl. ring. }
      apply GOrder.Oh_plus; [apply IH; auto; lia|]. apply Oh_bmul; [apply HB; lia|]. apply (GOrder.Oh_weaken _ _ m); [lia|apply GOrder.Oh_pow].
Qed.
Lemma uasy_weaken n m g a : (m <= n)%nat -> uasy n g a -> uasy m g a.
Proof.
  intros H (A & HG). split; [intros; apply A; lia|].
  apply (GOrder.Oh_ext _ _ m (fun h => (g h - rsum n (fun r => a h r * (hh h) ^ r)) + (rsum n (fun r => a h r * (hh h) ^ r) - rsum m (fun r => a h r * (hh h) ^ r)))).
  - intros; ring.
  - apply GOrder.Oh_plus; [apply (GOrder.Oh_weaken _ _ n); auto|]. apply Oh_tail; auto.
Qed.
Lemma uasy_shift n g a : uasy n g a -> uasy (S n) (fun i => hh i * g i) (fun i => shift (a i)).
Proof.
  intros (A & H). split.
  - intros [|r] Hr; simpl; [apply GOrder.Oh_zero|apply A; lia].
  - apply (GOrder.Oh_ext _ _ (S n) (fun h => hh h * (g h - rsum n (fun r => a h r * (hh h) ^ r)))).
    + intros h. rewrite rsum_split. simpl. rewrite Rmult_minus_distr_l, <- rsum_scal.
      rewrite (rsum_ext n (fun k => hh h * (a h k * (hh h) ^ k)) (fun k => a h k * (hh h * (hh h) ^ k))) by (intros; ring). ring.
    + exact (GOrder.Oh_mult _ _ 1 n _ _ Oh_hh H).
Qed.
Lemma Oh_upoly n (a : I -> nat -> R) : (forall r, (r < n)%nat -> Oh 0 (fun i => a i r)) -> Oh 0 (fun i => rsum n (fun r => a i r * hh i ^ r)).
Proof. intros H. apply GOrder.Oh_rsum. intros r Hr. apply Oh_bmul; auto. apply (GOrder.Oh_weaken _ _ r); [lia|apply GOrder.Oh_pow]. Qed.
Lemma uasy_bounded n g a : uasy n g a -> Oh 0 g.
Proof.
  intros (A & H). apply (GOrder.Oh_ext _ _ 0 (fun h => (g h - rsum n (fun r => a h r * (hh h) ^ r)) + rsum n (fun r => a h r * (hh h) ^ r))); [intros; ring|].
  apply GOrder.Oh_plus; [apply (GOrder.Oh_weaken _ _ n); [lia|exact H]|apply Oh_upoly; auto].
Qed.
Lemma uasy_mult n f g a b : uasy n f a -> uasy n g b -> uasy n (fun i => f i * g i) (fun i => conv (a i) (b i)).
Proof.
  intros HF HG. pose proof (uasy_bounded _ _ _ HG) as HG0. destruct HF as (A1 & HF), HG as (A2 & HG). split.
  - intros r Hr. unfold conv. apply GOrder.Oh_rsum. intros k Hk. apply Oh_bmul; [apply A1; lia|apply A2; lia].
  - apply (GOrder.Oh_ext _ _ n (fun h =>
       (f h - rsum n (fun r => a h r * (hh h) ^ r)) * g h
       + (rsum n (fun r => a h r * (hh h) ^ r)) * (g h - rsum n (fun r => b h r * (hh h) ^ r))
       + (rsum n (fun k => a h k * (hh h) ^ k * (rsum n (fun l => b h l * (hh h) ^ l) - rsum (n - k) (fun l => b h l * (hh h) ^ l)))))).
    + intros h. rewrite <- conv_id.
      rewrite (rsum_ext n (fun k => a h k * (hh h) ^ k * (rsum n (fun l => b h l * (hh h) ^ l) - rsum (n - k) (fun l => b h l * (hh h) ^ l)))
        (fun k => rsum n (fun l => b h l * (hh h) ^ l) * (a h k * (hh h) ^ k) + (-1) * (a h k * (hh h) ^ k * rsum (n - k) (fun l => b h l * (hh h) ^ l)))) by (intros; ring).
      rewrite rsum_plus, !rsum_scal. ring.
    + apply GOrder.Oh_plus; [apply GOrder.Oh_plus|].
      * apply (GOrder.Oh_weaken _ _ (n + 0)); [lia|]. apply GOrder.Oh_mult; auto.
      * apply Oh_bmul; [apply Oh_upoly; auto|exact HG].
      * apply GOrder.Oh_rsum. intros k Hk.
        replace n with (k + (n - k))%nat at 1 by lia.
        apply GOrder.Oh_mult; [apply Oh_bmul; [apply A1; lia|apply GOrder.Oh_pow]|]. apply Oh_tail; [lia|auto].
Qed.
Lemma uasy_const n k : Oh 0 k -> uasy n k (fun i r => match r with O => k i | _ => 0 end).
Proof.
  intros H. split; [intros [|r] _; [exact H|apply GOrder.Oh_zero]|].
  apply (GOrder.Oh_ext _ _ n (fun h => match n with O => k h | _ => 0 end)).
  - intros h. destruct n as [|n]; [simpl; ring|]. rewrite rsum_split. rewrite rsum_zero by (intros; ring). simpl. ring.
  - destruct n; [exact H|apply GOrder.Oh_zero].
Qed.
Lemma uasy_prod {X} n (l : list X) (f : X -> I -> R) (a : X -> I -> nat -> R) :
  (forall x, In x l -> uasy n (f x) (a x)) ->
  uasy n (fun i => fold_right (fun x p => f x i * p) 1 l) (fun i => convl (map (fun x => a x i) l)).
Proof.
  induction l as [|x l IH]; intros H; simpl; [exact (uasy_const n (fun _ => 1) (GOrder.Oh_const _ _ 1))|].
  apply (uasy_mult n _ _ (a x) (fun i => convl (map (fun x => a x i) l))); [apply H; left; auto|apply IH; intros; apply H; right; auto].
Qed.

(** ** bootstrap *)
(** the Taylor expansions of f at w0 i: coefficients and remainders bounded uniformly in i *)
Definition utaylor (e d : nat) (f : (nat -> R) -> nat -> R) (w0 : I -> nat -> R) (T : I -> nat -> list nat -> R) (p : nat) : Prop :=
  forall q, (q < d)%nat ->
    (forall m js, (m < p)%nat -> In js (idx e m) -> Oh 0 (fun i => T i q js)) /\
    exists C del, 0 < del /\ forall i (z : nat -> R), (forall j, (j < e)%nat -> Rabs (z j) < del) ->
      Rabs (f (fun j => w0 i j + z j) q
            - rsum p (fun m => lsum (idx e m) (fun js => T i q js * fold_right (fun j pr => z j * pr) 1 js)))
      <= C * rsum e (fun j => Rabs (z j)) ^ p.

Lemma Oh0_at g : Oh 0 g -> exists B d, 0 <= B /\ 0 < d /\ forall i, Rabs (hh i) < d -> Rabs (g i) <= B.
Proof.
  intros H. destruct (GOrder.Oh_pos _ _ _ _ H) as (C & d & HC & Hd & H1). exists C, d. split; auto. split; [lra|].
  intros i Hi. specialize (H1 i Hi). simpl in H1. lra.
Qed.
Lemma Oh0_of g B d : 0 < d -> (forall i, Rabs (hh i) < d -> Rabs (g i) <= B) -> Oh 0 g.
Proof. intros Hd H. exists B, d. split; auto. intros i Hi. simpl. rewrite Rmult_1_r. auto. Qed.
Lemma uOh_small n g eps : Oh (S n) g -> 0 < eps -> exists del, 0 < del /\ forall i, Rabs (hh i) < del -> Rabs (g i) < eps.
Proof.
  intros H He. destruct (GOrder.Oh_pos _ _ _ _ H) as (C & d1 & HC & Hd & H1).
  exists (Rmin d1 (eps / (C + 1))). split; [apply Rmin_case; [lra|apply Rdiv_lt_0_compat; lra]|].
  intros i Hh. assert (A1 : Rabs (hh i) < d1) by (eapply Rlt_le_trans; [exact Hh|apply Rmin_l]).
  assert (A2 : Rabs (hh i) < eps / (C + 1)) by (eapply Rlt_le_trans; [exact Hh|apply Rmin_r]).
  specialize (H1 i A1). cbn [pow] in H1. set (h := hh i) in *.
  assert (P : Rabs h ^ n <= 1).
  { rewrite <- (pow1 n). apply pow_incr. split; [apply Rabs_pos|lra]. }
  assert (P0 : 0 <= Rabs h ^ n) by (apply pow_le, Rabs_pos). pose proof (Rabs_pos h).
  apply Rmult_lt_compat_r with (r := C + 1) in A2; [|lra].
  replace (eps / (C + 1) * (C + 1)) with eps in A2 by (field; lra).
  eapply Rle_lt_trans; [exact H1|]. eapply Rle_lt_trans; [|exact A2].
  assert (Rabs h * Rabs h ^ n <= Rabs h) by nra. nra.
Qed.
Lemma ucommon_del (m : nat) (P : nat -> I -> Prop) :
  (forall j, (j < m)%nat -> exists del, 0 < del /\ forall i, Rabs (hh i) < del -> P j i) ->
  exists del, 0 < del /\ forall i, Rabs (hh i) < del -> forall j, (j < m)%nat -> P j i.
Proof.
  induction m as [|m IH]; intros H; [exists 1; split; [lra|]; intros; lia|].
  destruct IH as (d1 & Hd1 & H1); [intros; apply H; lia|]. destruct (H m ltac:(lia)) as (d2 & Hd2 & H2).
  exists (Rmin d1 d2). split; [apply Rmin_case; auto|]. intros h Hh i Hi.
  assert (A1 : Rabs (hh h) < d1) by (eapply Rlt_le_trans; [exact Hh|apply Rmin_l]).
  assert (A2 : Rabs (hh h) < d2) by (eapply Rlt_le_trans; [exact Hh|apply Rmin_r]).
  destruct (Nat.eq_dec i m) as [->|Hne]; [auto|apply H1; auto; lia].
Qed.
Lemma ufin_bound {X} (l : list X) (g : X -> I -> R) : (forall x, In x l -> Oh 0 (g x)) ->
  exists B d, 0 <= B /\ 0 < d /\ forall i, Rabs (hh i) < d -> lsum l (fun x => Rabs (g x i)) <= B.
Proof.
  intros H. assert (HO : Oh 0 (fun i => lsum l (fun x => Rabs (g x i)))).
  { apply GOrder.Oh_lsum. intros x Hx. apply (GOrder.Oh_le _ _ 0 _ (g x)); auto. exists 1. split; [lra|]. intros; rewrite Rabs_Rabsolu; lra. }
  destruct (Oh0_at _ HO) as (B & d & HB & Hd & H1). exists B, d. split; auto. split; auto. intros i Hi.
  eapply Rle_trans; [apply Rle_abs|auto].
Qed.

Lemma utaylor_bounded e d f w0 T p : utaylor e d f w0 T p ->
  exists B del, 0 < del /\ forall i z, Rabs (hh i) < del -> (forall j, (j < e)%nat -> Rabs (z j) < del) -> forall q, (q < d)%nat ->
    Rabs (f (fun j => w0 i j + z j) q) <= B.
Proof.
  intros HT.
  assert (H : forall m, (m <= d)%nat -> exists B del, 0 < del /\ forall i z, Rabs (hh i) < del -> (forall j, (j < e)%nat -> Rabs (z j) < del) ->
     forall q, (q < m)%nat -> Rabs (f (fun j => w0 i j + z j) q) <= B).
  { induction m as [|m IH]; intros Hm; [exists 0, 1; split; [lra|]; intros; lia|].
    destruct IH as (B & d1 & Hd1 & H1); [lia|]. destruct (HT m ltac:(lia)) as (HTb & C & d2 & Hd2 & H2).
    assert (HO : Oh 0 (fun i => rsum p (fun r => lsum (idx e r) (fun js => Rabs (T i m js))))).
    { apply GOrder.Oh_rsum. intros r Hr. apply GOrder.Oh_lsum. intros js Hjs.
      apply (GOrder.Oh_le _ _ 0 _ (fun i => T i m js)); [|apply (HTb r); auto]. exists 1. split; [lra|]. intros; rewrite Rabs_Rabsolu; lra. }
    destruct (Oh0_at _ HO) as (B2 & d3 & HB2 & Hd3 & H3).
    exists (Rabs B + (Rabs C * INR e ^ p + B2)), (Rmin 1 (Rmin d1 (Rmin d2 d3))).
    split; [apply Rmin_case; [lra|apply Rmin_case; auto; apply Rmin_case; auto]|]. intros i z Hi Hz q Hq.
    set (dd := Rmin 1 (Rmin d1 (Rmin d2 d3))) in *.
    assert (D1 : dd <= 1) by apply Rmin_l.
    assert (D2 : dd <= d1) by (eapply Rle_trans; [apply Rmin_r|apply Rmin_l]).
    assert (D3 : dd <= d2) by (eapply Rle_trans; [apply Rmin_r|eapply Rle_trans; [apply Rmin_r|apply Rmin_l]]).
    assert (D4 : dd <= d3) by (eapply Rle_trans; [apply Rmin_r|eapply Rle_trans; [apply Rmin_r|apply Rmin_r]]).
    assert (A0 : forall j, (j < e)%nat -> Rabs (z j) < 1) by (intros j Hj; specialize (Hz j Hj); lra).
    assert (A1 : forall j, (j < e)%nat -> Rabs (z j) < d1) by (intros j Hj; specialize (Hz j Hj); lra).
    assert (A2 : forall j, (j < e)%nat -> Rabs (z j) < d2) by (intros j Hj; specialize (Hz j Hj); lra).
    assert (P2 : 0 <= Rabs C * INR e ^ p) by (apply Rmult_le_pos; [apply Rabs_pos|apply pow_le, pos_INR]).
    destruct (Nat.eq_dec q m) as [->|Hne].
    2:{ specialize (H1 i z ltac:(lra) A1 q ltac:(lia)). pose proof (Rle_abs B). lra. }
    specialize (H2 i z A2).
    set (S := rsum p (fun r => lsum (idx e r) (fun js => T i m js * fold_right (fun j pr => z j * pr) 1 js))) in *.
    replace (f (fun j => w0 i j + z j) m) with ((f (fun j => w0 i j + z j) m - S) + S) by ring.
    eapply Rle_trans; [apply Rabs_triang|].
    assert (Q1 : C * rsum e (fun j => Rabs (z j)) ^ p <= Rabs C * INR e ^ p).
    { eapply Rle_trans; [apply Rle_abs|]. rewrite Rabs_mult. apply Rmult_le_compat_l; [apply Rabs_pos|].
      assert (Hs : 0 <= rsum e (fun j => Rabs (z j)) <= INR e).
      { split; [apply rsum_nonneg; intros; apply Rabs_pos|]. rewrite <- (Rmult_1_r (INR e)), <- rsum_const. apply rsum_le.
        intros j Hj. specialize (A0 j Hj). lra. }
      rewrite Rabs_pos_eq by (apply pow_le; lra). apply pow_incr. exact Hs. }
    assert (Q2 : Rabs S <= rsum p (fun r => lsum (idx e r) (fun js => Rabs (T i m js)))).
    { unfold S. apply rsum_abs_le'. intros r _. apply lsum_abs_le. intros js Hjs. rewrite Rabs_mult.
      rewrite <- (Rmult_1_r (Rabs (T i m js))) at 2. apply Rmult_le_compat_l; [apply Rabs_pos|]. apply prod_abs_le1.
      intros j Hj. apply idx_in in Hjs. rewrite Forall_forall in Hjs. specialize (A0 j (Hjs j Hj)). lra. }
    specialize (H3 i ltac:(lra)). pose proof (Rle_abs (rsum p (fun r => lsum (idx e r) (fun js => Rabs (T i m js))))).
    pose proof (Rabs_pos B). lra. }
  apply H; auto.
Qed.

Section Boot.
Variables uU uV : bool.
Variable s : nat.
Variable c : I -> nat -> R.
Variables Uop Vop : I -> nat -> (nat -> R) -> nat -> R.
Hypothesis HU : forall i n, linop (Uop i n).
Hypothesis HV : forall i n, linop (Vop i n).
Variables e d p : nat.
Variable T : I -> nat -> list nat -> R.
Variable ell : I -> nat -> R.
Variables pu pv : nat -> option nat.
Variable f : (nat -> R) -> nat -> R.
Variable w0 : I -> nat -> R.
Hypothesis HT : utaylor e d f w0 T p.
Variable k z : nat -> I -> nat -> R.
Notation Ac := (fun i l q r => Acoef uU uV (c i) (Uop i) (Vop i) e (T i) (ell i) pu pv l q r).
Notation Zc := (fun i l j r => Zcoef uU uV (c i) (Uop i) (Vop i) e (T i) (ell i) pu pv l j r).
Hypothesis Hb : forall l q, (l < s)%nat -> (q < d)%nat -> Oh 0 (fun i => k l i q).
Hypothesis Hz : forall n, (forall l q, (l < s)%nat -> (q < d)%nat -> uasy n (fun i => k l i q) (fun i r => Ac i l q r)) ->
  forall l j, (l < s)%nat -> (j < e)%nat -> uasy (S n) (fun i => z l i j) (fun i r => Zc i l j r).
Hypothesis Hk : exists del, 0 < del /\ forall i, Rabs (hh i) < del -> forall l q, (l < s)%nat -> (q < d)%nat ->
  k l i q = f (fun j => w0 i j + z l i j) q.

Lemma uz_O1 l j : (l < s)%nat -> (j < e)%nat -> Oh 1 (fun i => z l i j).
Proof.
  intros Hi Hj. assert (H : uasy 1 (fun i => z l i j) (fun i r => Zc i l j r)).
  { apply Hz; auto. intros. apply uasy_0. apply Hb; auto. }
  destruct H as (_ & H). eapply GOrder.Oh_ext; [|exact H].
  intros i. cbv beta. simpl rsum. rewrite Zcoef_0. ring.
Qed.
Lemma uz_small l del : 0 < del -> (l < s)%nat -> exists d1, 0 < d1 /\ forall i, Rabs (hh i) < d1 -> forall j, (j < e)%nat -> Rabs (z l i j) < del.
Proof. intros Hd Hl. apply ucommon_del. intros j Hj. apply (uOh_small 0); auto. apply uz_O1; auto. Qed.

Theorem ubootstrap n : (n <= p)%nat -> forall l q, (l < s)%nat -> (q < d)%nat -> uasy n (fun i => k l i q) (fun i r => Ac i l q r).
Proof.
  induction n as [|n IH]; intros Hn l q Hl Hq; [apply uasy_0, Hb; auto|].
  specialize (IH ltac:(lia)). pose proof (Hz n IH) as HZ.
  destruct (HT q Hq) as (HTb & C & del & Hdel & HTq).
  destruct (uz_small l del Hdel Hl) as (d1 & Hd1 & Hz1).
  destruct Hk as (d2 & Hd2 & Hk2).
  set (G := fun i => rsum p (fun m => lsum (idx e m) (fun js => T i q js * fold_right (fun j pr => z l i j * pr) 1 js))).
  assert (HR : Oh (S n) (fun i => k l i q - G i)).
  { apply (GOrder.Oh_weaken _ _ p); [lia|].
    apply (GOrder.Oh_le _ _ p _ (fun i => C * rsum e (fun j => Rabs (z l i j)) ^ p)).
    - exists (Rmin d1 d2). split; [apply Rmin_case; auto|]. intros h Hh.
      assert (A1 : Rabs (hh h) < d1) by (eapply Rlt_le_trans; [exact Hh|apply Rmin_l]).
      assert (A2 : Rabs (hh h) < d2) by (eapply Rlt_le_trans; [exact Hh|apply Rmin_r]).
      rewrite (Hk2 h A2 l q Hl Hq). eapply Rle_trans; [apply HTq, Hz1, A1|]. apply Rle_abs.
    - apply GOrder.Oh_scal.
      assert (H1 : Oh 1 (fun i => rsum e (fun j => Rabs (z l i j)))).
      { apply GOrder.Oh_rsum. intros j Hj. apply (GOrder.Oh_le _ _ 1 _ (fun i => z l i j)); [|apply uz_O1; auto].
        exists 1. split; [lra|]. intros. rewrite Rabs_Rabsolu. lra. }
      clear - H1. induction p as [|p0 IHp]; [apply (GOrder.Oh_const _ _ 1)|]. exact (GOrder.Oh_mult _ _ 1 p0 _ _ H1 IHp). }
  assert (HG : uasy (S n) G (fun i r => Ac i l q r)).
  { apply (uasy_ext (S n) G (fun i r => rsum p (fun m => lsum (idx e m) (fun js => T i q js * convl (map (fun j => Zc i l j) js) r)))).
    { intros i r Hr. symmetry. apply Acoef_eq; auto. lia. }
    apply uasy_rsum. intros m Hm. apply uasy_lsum. intros js Hjs.
    apply (uasy_scal (S n) (fun i => T i q js) _ (fun i => convl (map (fun j => Zc i l j) js))); [apply (HTb m); auto|].
    apply (uasy_prod (S n) js (fun j i => z l i j) (fun j i r => Zc i l j r)). intros j Hj. apply HZ; auto.
    apply idx_in in Hjs. rewrite Forall_forall in Hjs. auto. }
  destruct HG as (HGb & HG). split; [exact HGb|].
  eapply GOrder.Oh_ext; [|apply GOrder.Oh_plus; [exact HR|exact HG]]. intros; cbv beta; ring.
Qed.
End Boot.

Lemma uasy_opt0 n b f a : (b = true -> uasy n f a) -> uasy n (fun i => opt0 b (f i)) (fun i r => opt0 b (a i r)).
Proof. intros H. destruct b; [exact (H eq_refl)|apply uasy_zero]. Qed.
Lemma uasy_inj d (n : nat) (P : nat -> option nat) (g : I -> nat -> R) (a : nat -> I -> nat -> R) j :
  (forall j q, P j = Some q -> (q < d)%nat) ->
  (forall q, (q < d)%nat -> uasy n (fun i => g i q) (a q)) ->
  uasy n (fun i => inj P (g i) j) (fun i r => inj P (fun q => a q i r) j).
Proof. intros HP H. unfold inj. destruct (P j) as [q|] eqn:E; [apply H; eauto|apply uasy_zero]. Qed.

Section Stages.
Variables uU uV : bool.
Variables e d p : nat.
Variable T : I -> nat -> list nat -> R.
Variable ell : I -> nat -> R.
Hypothesis Hell : forall j, (j < e)%nat -> Oh 0 (fun i => ell i j).
Variables pu pv : nat -> option nat.
Hypothesis Hpu : forall j q, pu j = Some q -> (q < d)%nat.
Hypothesis Hpv : forall j q, pv j = Some q -> (q < d)%nat.
Variable f : (nat -> R) -> nat -> R.
Variable w0 : I -> nat -> R.
Hypothesis HT : utaylor e d f w0 T p.
Variable s : nat.
Variables AU AV : I -> nat -> nat -> R.
Variable c : I -> nat -> R.
Hypothesis BAU : forall l l', (l < s)%nat -> (l' < s)%nat -> Oh 0 (fun i => AU i l l').
Hypothesis BAV : forall l l', (l < s)%nat -> (l' < s)%nat -> Oh 0 (fun i => AV i l l').
Hypothesis Bc : forall l, (l < s)%nat -> Oh 0 (fun i => c i l).
Variable k : nat -> I -> nat -> R.

Definition ustage_arg (l : nat) (i : I) (j : nat) : R :=
  hh i * (c i l * ell i j) + opt0 uU (hh i * (hh i * rsum s (fun l' => AU i l l' * inj pu (k l' i) j)))
  + opt0 uV (hh i * rsum s (fun l' => AV i l l' * inj pv (k l' i) j)).
Hypothesis Hk : exists del, 0 < del /\ forall i, Rabs (hh i) < del -> forall l q, (l < s)%nat -> (q < d)%nat ->
  k l i q = f (fun j => w0 i j + ustage_arg l i j) q.
Notation Ac := (fun i l q r => Acoef uU uV (c i) (st_op s (AU i)) (st_op s (AV i)) e (T i) (ell i) pu pv l q r).

Theorem ustages_expand : (forall l q, (l < s)%nat -> (q < d)%nat -> Oh 0 (fun i => k l i q)) ->
  forall l q, (l < s)%nat -> (q < d)%nat -> uasy p (fun i => k l i q) (fun i r => Ac i l q r).
Proof.
  intros Hb l q Hl Hq.
  eapply (ubootstrap uU uV s c (fun i => st_op s (AU i)) (fun i => st_op s (AV i))) with (f := f) (w0 := w0) (d := d) (z := ustage_arg); eauto using st_op_lin.
  clear l q Hl Hq. intros n IH l j Hl Hj. cbv beta in IH.
  set (aU := fun i r => match r with O => 0 | S r' => rsum s (fun l' => AU i l l' * inj pu (fun q => Ac i l' q r') j) end).
  set (aV := fun i r => rsum s (fun l' => AV i l l' * inj pv (fun q => Ac i l' q r) j)).
  apply (uasy_ext (S n) _ (fun i r => (shift (fun r => match r with O => c i l * ell i j | _ => 0 end) r
     + opt0 uU (shift (aU i) r)) + opt0 uV (shift (aV i) r))).
  { intros i r Hr. destruct r as [|r]; [rewrite Zcoef_0; unfold opt0; simpl; destruct uU, uV; ring|].
    rewrite Zcoef_S by (intros; apply st_op_lin). unfold opt0. simpl shift.
    unfold aU, aV, st_op. destruct uU, uV, r; ring. }
  unfold ustage_arg. apply uasy_plus; [apply uasy_plus|].
  - apply (uasy_shift n (fun i => c i l * ell i j) (fun i r => match r with O => c i l * ell i j | _ => 0 end)). apply uasy_const.
    apply Oh_bmul; auto.
  - apply uasy_opt0; intros Hu.
    apply (uasy_weaken (S (S n))); [lia|]. apply (uasy_shift (S n) _ aU).
    apply (uasy_ext (S n) _ (fun i => shift (fun r => rsum s (fun l' => AU i l l' * inj pu (fun q => Ac i l' q r) j)))).
    { intros i [|r] Hr; reflexivity. }
    apply (uasy_shift n _ (fun i r => rsum s (fun l' => AU i l l' * inj pu (fun q => Ac i l' q r) j))). apply uasy_rsum. intros l' Hl'.
    apply uasy_scal; auto. apply (uasy_inj d n pu (k l') (fun q i r => Ac i l' q r)); auto.
  - apply uasy_opt0; intros Hu.
    apply (uasy_shift n _ aV). apply uasy_rsum. intros l' Hl'. apply uasy_scal; auto. apply (uasy_inj d n pv (k l') (fun q i r => Ac i l' q r)); auto.
Qed.

(** explicit stages are bounded for small h *)
Hypothesis HAU : forall i l l', (l <= l')%nat -> AU i l l' = 0.
Hypothesis HAV : forall i l l', (l <= l')%nat -> AV i l l' = 0.
Lemma uOh_term (A : I -> nat -> R) P l j (HP : forall j q, P j = Some q -> (q < d)%nat) :
  (forall i l', (l <= l')%nat -> A i l' = 0) -> (forall l', (l' < s)%nat -> Oh 0 (fun i => A i l')) ->
  (forall l' q, (l' < l)%nat -> (q < d)%nat -> Oh 0 (fun i => k l' i q)) ->
  Oh 0 (fun i => rsum s (fun l' => A i l' * inj P (k l' i) j)).
Proof.
  intros HA HB IH. apply GOrder.Oh_rsum. intros l' Hl'.
  destruct (le_lt_dec l l') as [H|H].
  - apply (GOrder.Oh_ext _ _ 0 (fun _ => 0)); [intros; rewrite HA by auto; ring|apply GOrder.Oh_zero].
  - apply Oh_bmul; auto. unfold inj. destruct (P j) as [q|] eqn:E; [apply IH; eauto|apply GOrder.Oh_zero].
Qed.
Lemma uexplicit_bounded : forall l q, (l < s)%nat -> (q < d)%nat -> Oh 0 (fun i => k l i q).
Proof.
  induction l as [l IH] using lt_wf_ind. intros q Hl Hq.
  destruct (utaylor_bounded e d f w0 T p HT) as (B & d1 & Hd1 & H1).
  destruct Hk as (d2 & Hd2 & H2).
  assert (Hz : forall j, (j < e)%nat -> exists del, 0 < del /\ forall i, Rabs (hh i) < del -> Rabs (ustage_arg l i j) < d1).
  { intros j Hj. apply (uOh_small 0); auto. unfold ustage_arg.
    assert (O1 : forall g, Oh 0 g -> Oh 1 (fun i => hh i * g i)) by (intros g Hg; exact (GOrder.Oh_mult _ _ 1 0 _ _ Oh_hh Hg)).
    apply GOrder.Oh_plus; [apply GOrder.Oh_plus|].
    - apply O1. apply Oh_bmul; auto.
    - destruct uU; [|apply GOrder.Oh_zero]. unfold opt0. apply O1. apply (GOrder.Oh_weaken _ _ 1); [lia|]. apply O1.
      apply (uOh_term (fun i => AU i l) pu l j Hpu); auto. intros; apply IH; auto; lia.
    - destruct uV; [|apply GOrder.Oh_zero]. unfold opt0. apply O1.
      apply (uOh_term (fun i => AV i l) pv l j Hpv); auto. intros; apply IH; auto; lia. }
  destruct (ucommon_del e _ Hz) as (d3 & Hd3 & H3).
  apply (Oh0_of _ B (Rmin d1 (Rmin d2 d3))); [apply Rmin_case; auto; apply Rmin_case; auto|]. intros h Hh.
  assert (A1 : Rabs (hh h) < d1) by (eapply Rlt_le_trans; [exact Hh|apply Rmin_l]).
  assert (A2 : Rabs (hh h) < d2) by (eapply Rlt_le_trans; [exact Hh|eapply Rle_trans; [apply Rmin_r|apply Rmin_l]]).
  assert (A3 : Rabs (hh h) < d3) by (eapply Rlt_le_trans; [exact Hh|eapply Rle_trans; [apply Rmin_r|apply Rmin_r]]).
  rewrite (H2 h A2 l q Hl Hq). apply H1; auto.
Qed.
End Stages.
End Indexed.

