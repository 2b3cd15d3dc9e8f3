(** Global error of explicit Runge-Kutta methods on a whole interval. *)
From Coq Require Import Reals Lra Psatz Lia List Arith Bool.
From Verif Require Import Series Trees OrderThm OrderCheck OrderRK GOrder UOrder UOrder2.
Import ListNotations.
Open Scope R_scope.

(** ** specification *)
(** Y solves y' = F(t, y) on an open interval containing [lo, hi] *)
Definition solution_on (d : nat) (F : R -> list R -> list R) (lo hi : R) (Y : R -> list R) : Prop :=
  exists m, 0 < m /\ forall t, lo - m < t < hi + m -> length (Y t) = d /\
    forall q, (q < d)%nat -> derivable_pt_lim (fun x => nth q (Y x) 0) t (nth q (F t (Y t)) 0).
(** F has Taylor expansions of order p at every point (t, Y t) of the trajectory, with
    coefficients and remainder constants that do not depend on t *)
Definition smooth_along (p d : nat) (F : R -> list R -> list R) (lo hi : R) (Y : R -> list R) : Prop :=
  exists (T : R -> nat -> list nat -> R) (C M del : R), 0 < del /\ forall t q, lo <= t <= hi -> (q < d)%nat ->
    (forall js, (length js < p)%nat -> Forall (fun j => (j < S d)%nat) js -> Rabs (T t q js) <= M) /\
    forall z : nat -> R, (forall j, (j < S d)%nat -> Rabs (z j) < del) ->
      Rabs (fo F d (fun j => pt t (Y t) j + z j) q
            - rsum p (fun m => lsum (idx (S d) m) (fun js => T t q js * fold_right (fun j pr => z j * pr) 1 js)))
      <= C * rsum (S d) (fun j => Rabs (z j)) ^ p.
(** |u_q - v_q| <= e for all components *)
Definition close (d : nat) (u v : list R) (e : R) : Prop := forall q, (q < d)%nat -> Rabs (nth q u 0 - nth q v 0) <= e.
(** F is Lipschitz continuous in y, with the same constant, in boxes of the same size around all
    points (t, Y t) of the trajectory *)
Definition lipschitz_near (d : nat) (F : R -> list R -> list R) (lo hi : R) (Y : R -> list R) (L r : R) : Prop :=
  0 <= L /\ 0 < r /\ forall t s u v e, lo <= t <= hi -> Rabs (s - t) <= r ->
    length u = d -> length v = d -> close d u (Y t) r -> close d v (Y t) r -> close d u v e ->
    close d (F s u) (F s v) (L * e).
Definition lipschitz_along (d : nat) (F : R -> list R -> list R) (lo hi : R) (Y : R -> list R) : Prop :=
  exists L r, lipschitz_near d F lo hi Y L r.
(** F is Lipschitz continuous in y, with the same constant everywhere *)
Definition lipschitz_global (d : nat) (F : R -> list R -> list R) : Prop :=
  exists L, 0 <= L /\ forall s u v e, length u = d -> length v = d -> close d u v e -> close d (F s u) (F s v) (L * e).
(** the coefficients of an explicit method with s stages, at most W in absolute value, whose
    order conditions up to order p hold up to eps *)
Record method (s p : nat) (W : R) := {
  mA : nat -> nat -> R; mb : nat -> R; mc : nat -> R; meps : R;
  m_lower : forall i l, (i <= l)%nat -> mA i l = 0;
  m_A : forall i l, (i < s)%nat -> (l < s)%nat -> Rabs (mA i l) <= W;
  m_b : forall i, (i < s)%nat -> Rabs (mb i) <= W;
  m_c : forall i, (i < s)%nat -> Rabs (mc i) <= W;
  m_eps : 0 <= meps;
  m_order : near_V false true s (fun _ _ => 0) mA mc meps mb p
}.
Arguments mA {s p W} _. Arguments mb {s p W} _. Arguments mc {s p W} _. Arguments meps {s p W} _.
(** one step of size h from (t, y) *)
Definition rk_step {s p W} (F : R -> list R -> list R) (d : nat) (M : method s p W) (t : R) (y : list R) (h : R) : list R :=
  rpoint d y h (lcomb s (mb M) (rstages F (mA M) (mc M) t y h s)).

(** ** local errors along the trajectory, uniformly *)
Lemma idx_len e m js : In js (idx e m) -> length js = m.
Proof.
  revert js. induction m as [|m IH]; intros js H; cbn [idx] in H; [destruct H as [<-|[]]; reflexivity|].
  apply in_flat_map in H. destruct H as (j & _ & H). apply in_map_iff in H. destruct H as (js' & <- & H). simpl. f_equal. auto.
Qed.

Section Local.
Variables (d p : nat) (F : R -> list R -> list R) (lo hi : R) (Y : R -> list R).
Hypothesis HFl : forall t y, length y = d -> length (F t y) = d.
Hypothesis HY : solution_on d F lo hi Y.
Variables (s : nat) (W : R).
Hypothesis HS : smooth_along p d F lo hi Y.

Definition base : Type := ({t : R | lo <= t <= hi} * method s p W)%type.
Definition bt (b : base) : R := proj1_sig (fst b).
Lemma bt_in b : lo <= bt b <= hi.
Proof. destruct b as [[t Ht] M]. exact Ht. Qed.
Lemma Y_len t : lo <= t <= hi -> length (Y t) = d.
Proof. intros H. destruct HY as (m & Hm & HY'). apply HY'. lra. Qed.

Definition pvd (j : nat) : option nat := match j with O => None | S j' => if Nat.ltb j' d then Some j' else None end.
Lemma pvd_lt j q : pvd j = Some q -> (q < d)%nat.
Proof. destruct j as [|j]; simpl; [discriminate|]. destruct (Nat.ltb_spec j d); [|discriminate]. intros E. injection E as <-. auto. Qed.
Lemma pud_lt j q : pu1 j = Some q -> (q < d)%nat.
Proof. discriminate. Qed.

Definition bYV (b : base) (h : R) (q : nat) : R := nth q (Y (bt b + h)) 0.
Definition bK (b : base) (h : R) (q : nat) : R := nth q (F (bt b + h) (Y (bt b + h))) 0.
Definition bk (l : nat) (i : base * R) (q : nat) : R :=
  nth q (nth l (rstages F (mA (snd (fst i))) (mc (snd (fst i))) (bt (fst i)) (Y (bt (fst i))) (snd i) s) []) 0.

Lemma bHYV : exists del, 0 < del /\ forall b h, Rabs h < del -> forall q, (q < d)%nat -> derivable_pt_lim (fun x => bYV b x q) h (bK b h q).
Proof.
  destruct HY as (m & Hm & H). exists m. split; auto. intros b h Hh q Hq. pose proof (bt_in b). apply Rabs_def2 in Hh.
  destruct (H (bt b + h)) as (_ & H1); [lra|].
  unfold bYV. apply (shift_derive (bt b) (fun x => nth q (Y x) 0)). apply H1; auto.
Qed.
Lemma bexact_arg b h j : (j < S d)%nat ->
  pt (bt b) (Y (bt b)) j + exact_arg false true ell1 pu1 pvd (bYV b) (fun _ _ => 0) h j = pt (bt b + h) (Y (bt b + h)) j.
Proof.
  intros Hj. unfold exact_arg, opt0, inj, pt. destruct j as [|j]; simpl; [ring|].
  destruct (Nat.ltb_spec j d); [|lia]. unfold bYV. replace (bt b + 0) with (bt b) by ring. ring.
Qed.
Lemma bHK : exists del, 0 < del /\ forall b h, Rabs h < del -> forall q, (q < d)%nat ->
  bK b h q = fo F d (fun j => pt (bt b) (Y (bt b)) j + exact_arg false true ell1 pu1 pvd (bYV b) (fun _ _ => 0) h j) q.
Proof.
  destruct HY as (m & Hm & H). exists m. split; auto. intros b h Hh q Hq. pose proof (bt_in b). apply Rabs_def2 in Hh.
  destruct (H (bt b + h)) as (HL & _); [lra|].
  unfold bK, fo. f_equal. f_equal.
  - rewrite bexact_arg by lia. reflexivity.
  - transitivity (map (fun j => nth j (Y (bt b + h)) 0) (seq 0 d)); [symmetry; apply map_seq_nth; auto|].
    apply map_ext_in. intros j Hj. apply in_seq in Hj. rewrite bexact_arg by lia. reflexivity.
Qed.
Lemma bHT : exists T, utaylor (base * R) snd (S d) d (fo F d) (fun i => pt (bt (fst i)) (Y (bt (fst i)))) (fun i => T (fst i)) p.
Proof.
  destruct HS as (T & C & M & del & Hdel & H). exists (fun b => T (bt b)). intros q Hq. split.
  - intros m js Hm Hjs. apply (Oh0_of _ _ _ M 1); [lra|]. intros i _.
    destruct (H (bt (fst i)) q (bt_in _) Hq) as (H1 & _). apply H1; [rewrite (idx_len _ _ _ Hjs); auto|].
    apply idx_in in Hjs. exact Hjs.
  - exists C, del. split; auto. intros i z Hz. destruct (H (bt (fst i)) q (bt_in _) Hq) as (_ & H1). apply H1; auto.
Qed.
Lemma Y_unif eps : 0 < eps -> exists del, 0 < del /\ forall (b : base) h, Rabs h < del -> forall q, (q < d)%nat ->
  Rabs (nth q (Y (bt b + h)) 0 - nth q (Y (bt b)) 0) < eps.
Proof.
  intros He. destruct HY as (m & Hm & H).
  assert (G : forall n, (n <= d)%nat -> exists del, 0 < del /\ forall (b : base) h, Rabs h < del -> forall q, (q < n)%nat ->
     Rabs (nth q (Y (bt b + h)) 0 - nth q (Y (bt b)) 0) < eps).
  { induction n as [|n IH]; intros Hn; [exists 1; split; [lra|]; intros; lia|].
    destruct IH as (d1 & Hd1 & H1); [lia|].
    destruct (Rle_dec lo hi) as [Hlh|Hlh].
    2:{ exists 1. split; [lra|]. intros b. pose proof (bt_in b). lra. }
    destruct (@Heine_cor2 (fun x => nth n (Y x) 0) (lo - m / 2) (hi + m / 2)) with (eps := mkposreal eps He) as (d2 & H2).
    { intros x Hx. apply derivable_continuous_pt. exists (nth n (F x (Y x)) 0). apply H; [lra|lia]. }
    exists (Rmin d1 (Rmin d2 (m / 2))). split; [apply Rmin_case; auto; apply Rmin_case; [apply cond_pos|lra]|]. intros b h Hh q Hq.
    assert (A1 : Rabs h < d1) by (eapply Rlt_le_trans; [exact Hh|apply Rmin_l]).
    assert (A2 : Rabs h < d2) by (eapply Rlt_le_trans; [exact Hh|eapply Rle_trans; [apply Rmin_r|apply Rmin_l]]).
    assert (A3 : Rabs h < m / 2) by (eapply Rlt_le_trans; [exact Hh|eapply Rle_trans; [apply Rmin_r|apply Rmin_r]]).
    destruct (Nat.eq_dec q n) as [->|Hne]; [|apply H1; auto; lia].
    pose proof (bt_in b). apply Rabs_def2 in A3. apply H2; [lra|lra|]. replace (bt b + h - bt b) with h by ring. exact A2. }
  apply G; auto.
Qed.
Lemma bHKb : forall q, (q < d)%nat -> GOrder.Oh (base * R) snd 0 (fun i => bK (fst i) (snd i) q).
Proof.
  intros q Hq. destruct bHT as (T & HT). destruct (utaylor_bounded _ _ _ _ _ _ _ _ HT) as (B & d1 & Hd1 & H1).
  destruct bHK as (d2 & Hd2 & H2). destruct (Y_unif d1 Hd1) as (d3 & Hd3 & H3).
  apply (Oh0_of _ _ _ B (Rmin d1 (Rmin d2 d3))); [apply Rmin_case; auto; apply Rmin_case; auto|]. intros (b & h) Hh. cbn [fst snd] in *.
  assert (A1 : Rabs h < d1) by (eapply Rlt_le_trans; [exact Hh|apply Rmin_l]).
  assert (A2 : Rabs h < d2) by (eapply Rlt_le_trans; [exact Hh|eapply Rle_trans; [apply Rmin_r|apply Rmin_l]]).
  assert (A3 : Rabs h < d3) by (eapply Rlt_le_trans; [exact Hh|eapply Rle_trans; [apply Rmin_r|apply Rmin_r]]).
  rewrite (H2 b h A2 q Hq). apply (H1 (b, h)); auto. cbn [fst snd]. intros j Hj.
  replace (exact_arg false true ell1 pu1 pvd (bYV b) (fun _ _ => 0) h j) with (pt (bt b + h) (Y (bt b + h)) j - pt (bt b) (Y (bt b)) j)
    by (rewrite <- (bexact_arg b h j Hj); ring).
  unfold pt. destruct j as [|j]; simpl.
  - replace (bt b + h - bt b) with h by ring. exact A1.
  - apply H3; auto. lia.
Qed.
Lemma bHk : exists del, 0 < del /\ forall i : base * R, Rabs (snd i) < del -> forall l q, (l < s)%nat -> (q < d)%nat ->
  bk l i q = fo F d (fun j => pt (bt (fst i)) (Y (bt (fst i))) j
    + ustage_arg (base * R) snd false true (fun i => (fun _ : base => ell1) (fst i)) pu1 pvd s (fun i => (fun (_ : base) _ _ => 0) (fst i)) (fun i => mA (snd (fst i))) (fun i => mc (snd (fst i))) bk l i j) q.
Proof.
  exists 1. split; [lra|]. intros (b & h) _ l q Hl Hq. unfold bk at 1. cbn [fst snd]. rewrite rstages_nth by auto. unfold fo. f_equal.
  pose proof (Y_len _ (bt_in b)) as HL. f_equal.
  - unfold ustage_arg, pt, opt0, inj. cbn [fst snd nth ell1 pvd]. rewrite (rsum_zero s) by (intros; ring). ring.
  - unfold rpoint. rewrite HL. apply map_ext_in. intros j Hj. apply in_seq in Hj. unfold ustage_arg, pt, opt0, inj. cbn [fst snd nth ell1 pvd].
    destruct (Nat.ltb_spec j d); [|lia]. rewrite Rmult_0_r, Rmult_0_r, !Rplus_0_l. f_equal. f_equal.
    rewrite (lcomb_prefix F _ _ _ _ _ s) by lia. rewrite (lcomb_zero_tail l s) by (try lia; intros; apply m_lower; lia). reflexivity.
Qed.
Lemma bKb : forall l q, (l < s)%nat -> (q < d)%nat -> GOrder.Oh (base * R) snd 0 (fun i => bk l i q).
Proof.
  destruct bHT as (T & HT).
  apply (uexplicit_bounded (base * R) snd false true (S d) d p (fun i => T (fst i)) (fun i => (fun _ : base => ell1) (fst i)) (fun j _ => GOrder.Oh_const _ _ (ell1 j)) pu1 pvd pud_lt pvd_lt (fo F d) _ HT s
    (fun i => (fun (_ : base) _ _ => 0) (fst i)) (fun i => mA (snd (fst i))) (fun i => mc (snd (fst i)))).
  - intros. apply GOrder.Oh_zero.
  - intros l l' Hl Hl'. apply (Oh0_of _ _ _ W 1); [lra|]. intros i _. apply m_A; auto.
  - intros l Hl. apply (Oh0_of _ _ _ W 1); [lra|]. intros i _. apply m_c; auto.
  - exact bHk.
  - reflexivity.
  - intros i l l' H. apply m_lower; auto.
Qed.

Lemma local_error_q q : (q < d)%nat -> exists C del, 0 <= C /\ 0 < del /\ forall t (M : method s p W) h, lo <= t <= hi -> Rabs h < del ->
  Rabs (nth q (rk_step F d M t (Y t) h) 0 - nth q (Y (t + h)) 0) <= C * (meps M * Rabs h + Rabs h ^ S p).
Proof.
  intros Hq. destruct bHT as (T & HT).
  destruct (u_order_V base false true (S d) d p T (fun _ => ell1) (fun j _ => GOrder.Oh_const _ _ (ell1 j)) pu1 pvd pud_lt pvd_lt (fo F d) (fun b => pt (bt b) (Y (bt b))) HT
    bK bYV (fun _ _ _ => 0) bHYV ltac:(discriminate) bHKb bHK s (fun _ _ _ => 0) (fun b => mA (snd b)) (fun b => mc (snd b)) (Rabs W)) with (k := bk) (b := fun b : base => mb (snd b)) (eps := fun b : base => meps (snd b)) (m := p) (q := q) as (C & del & HC & Hd & H).
  - intros. rewrite Rabs_R0. apply Rabs_pos.
  - intros b l l' Hl Hl'. eapply Rle_trans; [apply m_A; auto|apply Rle_abs].
  - intros b l Hl. eapply Rle_trans; [apply m_c; auto|apply Rle_abs].
  - exact bKb.
  - exact bHk.
  - intros b l Hl. eapply Rle_trans; [apply m_b; auto|apply Rle_abs].
  - intros b. apply m_eps.
  - exact Hq.
  - apply le_n.
  - intros b. apply m_order.
  - exists C, del. split; auto. split; auto. intros t M h Ht Hh. specialize (H (exist _ t Ht, M) h Hh). cbn [snd] in H.
    unfold rk_step, rpoint. rewrite nth_map_seq by auto. unfold bYV, bk, bt in H. cbn [fst snd proj1_sig] in H. rewrite Rplus_0_r in H.
    unfold lcomb. match goal with |- Rabs (?y + ?a - ?b) <= _ => replace (y + a - b) with (a - (b - y)) by ring end. exact H.
Qed.
Lemma local_error : exists C del, 0 <= C /\ 0 < del /\ forall t (M : method s p W) h, lo <= t <= hi -> Rabs h < del ->
  close d (rk_step F d M t (Y t) h) (Y (t + h)) (C * (meps M * Rabs h + Rabs h ^ S p)).
Proof.
  assert (G : forall n, (n <= d)%nat -> exists C del, 0 <= C /\ 0 < del /\ forall t (M : method s p W) h, lo <= t <= hi -> Rabs h < del ->
    forall q, (q < n)%nat -> Rabs (nth q (rk_step F d M t (Y t) h) 0 - nth q (Y (t + h)) 0) <= C * (meps M * Rabs h + Rabs h ^ S p)).
  { induction n as [|n IH]; intros Hn; [exists 0, 1; split; [lra|]; split; [lra|]; intros; lia|].
    destruct IH as (C1 & d1 & HC1 & Hd1 & H1); [lia|]. destruct (local_error_q n ltac:(lia)) as (C2 & d2 & HC2 & Hd2 & H2).
    exists (C1 + C2), (Rmin d1 d2). split; [lra|]. split; [apply Rmin_case; auto|]. intros t M h Ht Hh q Hq.
    assert (A1 : Rabs h < d1) by (eapply Rlt_le_trans; [exact Hh|apply Rmin_l]).
    assert (A2 : Rabs h < d2) by (eapply Rlt_le_trans; [exact Hh|apply Rmin_r]).
    assert (P : 0 <= meps M * Rabs h + Rabs h ^ S p).
    { apply Rplus_le_le_0_compat; [apply Rmult_le_pos; [apply m_eps|apply Rabs_pos]|apply pow_le, Rabs_pos]. }
    rewrite Rmult_plus_distr_r.
    assert (P1 : 0 <= C1 * (meps M * Rabs h + Rabs h ^ S p)) by (apply Rmult_le_pos; auto).
    assert (P2 : 0 <= C2 * (meps M * Rabs h + Rabs h ^ S p)) by (apply Rmult_le_pos; auto).
    destruct (Nat.eq_dec q n) as [->|Hne]; [specialize (H2 t M h Ht A2); lra|]. specialize (H1 t M h Ht A1 q ltac:(lia)). lra. }
  exact (G d (le_n d)).
Qed.
(** the stages of steps from the trajectory are bounded *)
Lemma stages_bounded : exists B del, 0 <= B /\ 0 < del /\ forall t (M : method s p W) h, lo <= t <= hi -> Rabs h < del ->
  forall l q, (l < s)%nat -> (q < d)%nat -> Rabs (nth q (nth l (rstages F (mA M) (mc M) t (Y t) h s) []) 0) <= B.
Proof.
  assert (HO : GOrder.Oh (base * R) snd 0 (fun i => rsum s (fun l => rsum d (fun q => Rabs (bk l i q))))).
  { apply GOrder.Oh_rsum. intros l Hl. apply GOrder.Oh_rsum. intros q Hq. apply (GOrder.Oh_le _ _ 0 _ (fun i => bk l i q)); [|apply bKb; auto].
    exists 1. split; [lra|]. intros. rewrite Rabs_Rabsolu. lra. }
  destruct (Oh0_at _ _ _ HO) as (B & del & HB & Hd & H). exists B, del. split; auto. split; auto. intros t M h Ht Hh l q Hl Hq.
  specialize (H (((exist _ t Ht, M) : base), h) Hh). cbv beta in H. eapply Rle_trans; [|eapply Rle_trans; [apply Rle_abs|exact H]].
  change (Rabs (bk l (((exist (fun t => lo <= t <= hi) t Ht, M) : base), h) q) <= rsum s (fun l0 => rsum d (fun q0 => Rabs (bk l0 (((exist (fun t => lo <= t <= hi) t Ht, M) : base), h) q0)))).
  assert (S1 : forall n (g : nat -> R) j, (forall i, 0 <= g i) -> (j < n)%nat -> g j <= rsum n g).
  { clear. induction n as [|n IH]; intros g j Hg Hj; [lia|]. cbn [rsum]. destruct (Nat.eq_dec j n) as [->|].
    - assert (0 <= rsum n g) by (apply rsum_nonneg; auto). lra.
    - specialize (IH g j Hg ltac:(lia)). pose proof (Hg n). lra. }
  set (i := (((exist (fun t => lo <= t <= hi) t Ht, M) : base), h)).
  eapply Rle_trans; [apply (S1 d (fun q0 => Rabs (bk l i q0)) q); [intros; apply Rabs_pos|auto]|].
  apply (S1 s (fun l0 => rsum d (fun q0 => Rabs (bk l0 i q0))) l); auto. intros; apply rsum_nonneg; intros; apply Rabs_pos.
Qed.
End Local.

(** ** propagation of errors *)
Lemma close_refl d u e : 0 <= e -> close d u u e.
Proof. intros H q Hq. rewrite Rminus_eq_0, Rabs_R0. exact H. Qed.
Lemma close_trans d u v w a b : close d u v a -> close d v w b -> close d u w (a + b).
Proof. intros H1 H2 q Hq. replace (nth q u 0 - nth q w 0) with ((nth q u 0 - nth q v 0) + (nth q v 0 - nth q w 0)) by ring.
  eapply Rle_trans; [apply Rabs_triang|]. specialize (H1 q Hq). specialize (H2 q Hq). lra. Qed.
Lemma close_sym d u v e : close d u v e -> close d v u e.
Proof. intros H q Hq. rewrite Rabs_minus_sym. auto. Qed.
Lemma close_le d u v a b : close d u v a -> a <= b -> close d u v b.
Proof. intros H L q Hq. specialize (H q Hq). lra. Qed.
Lemma rpoint_length d y h g : length (rpoint d y h g) = d.
Proof. unfold rpoint. rewrite map_length, seq_length. reflexivity. Qed.
Lemma rsum_bound n (g : nat -> R) B : (forall i, (i < n)%nat -> Rabs (g i) <= B) -> Rabs (rsum n g) <= INR n * B.
Proof. intros H. apply rsum_abs_le. exact H. Qed.

Lemma rsum_sub' n (f g : nat -> R) : rsum n (fun i => f i - g i) = rsum n f - rsum n g.
Proof. induction n as [|n IH]; cbn [rsum]; [ring|]. rewrite IH. ring. Qed.

Section Stable.
Variables (d p : nat) (F : R -> list R -> list R) (lo hi : R) (Y : R -> list R).
Hypothesis HFl : forall t y, length y = d -> length (F t y) = d.
Hypothesis HY : solution_on d F lo hi Y.
Variables (s : nat) (W : R).
Hypothesis HS : smooth_along p d F lo hi Y.

Definition Lamb (L : R) : R := INR s * (Rabs W * (2 * L)).
(** the stages of a step from y near Y t *)
Lemma stages_close L r : lipschitz_near d F lo hi Y L r -> exists B del, 0 <= B /\ 0 < del /\ forall t (M : method s p W) y h e, lo <= t <= hi -> length y = d ->
  Rabs h < del -> 0 <= e <= r / 4 -> close d y (Y t) e -> forall l, (l < s)%nat ->
    close d (nth l (rstages F (mA M) (mc M) t y h s) []) (nth l (rstages F (mA M) (mc M) t (Y t) h s) []) (2 * L * e) /\
    forall q, (q < d)%nat -> Rabs (nth q (nth l (rstages F (mA M) (mc M) t (Y t) h s) []) 0) <= B.
Proof.
  intros (HL0 & Hr & HLip). destruct (stages_bounded d p F lo hi Y HY s W HS) as (B & d1 & HB & Hd1 & HB1).
  set (w := Rabs W). assert (Hw : 0 <= w) by apply Rabs_pos. assert (HWw : W <= w) by apply Rle_abs.
  set (n := INR s). assert (Hn : 0 <= n) by apply pos_INR.
  set (q1 := 2 * (n * (w * (2 * L))) + 1). set (q2 := 2 * (n * (w * B)) + 1).
  assert (P1 : 0 <= n * (w * (2 * L))) by (repeat apply Rmult_le_pos; lra).
  assert (P2 : 0 <= n * (w * B)) by (repeat apply Rmult_le_pos; lra).
  exists B, (Rmin d1 (Rmin (/ q1) (Rmin (r / q2) (r / (w + 1))))).
  assert (D0 : 0 < Rmin d1 (Rmin (/ q1) (Rmin (r / q2) (r / (w + 1))))).
  { apply Rmin_case; auto. apply Rmin_case; [apply Rinv_0_lt_compat; unfold q1; lra|]. apply Rmin_case; apply Rdiv_lt_0_compat; unfold q2; lra. }
  split; [exact HB|]. split; [exact D0|]. intros t M y h e Ht Ly Hh He Hy.
  assert (A1 : Rabs h < d1) by (eapply Rlt_le_trans; [exact Hh|apply Rmin_l]).
  assert (A2 : Rabs h < / q1) by (eapply Rlt_le_trans; [exact Hh|eapply Rle_trans; [apply Rmin_r|apply Rmin_l]]).
  assert (A3 : Rabs h < r / q2) by (eapply Rlt_le_trans; [exact Hh|eapply Rle_trans; [apply Rmin_r|eapply Rle_trans; [apply Rmin_r|apply Rmin_l]]]).
  assert (A4 : Rabs h < r / (w + 1)) by (eapply Rlt_le_trans; [exact Hh|eapply Rle_trans; [apply Rmin_r|eapply Rle_trans; [apply Rmin_r|apply Rmin_r]]]).
  clear Hh D0. pose proof (Rabs_pos h) as Hh0.
  apply Rmult_lt_compat_r with (r := q1) in A2; [|unfold q1; lra]. rewrite Rinv_l in A2 by (unfold q1; lra).
  apply Rmult_lt_compat_r with (r := q2) in A3; [|unfold q2; lra]. unfold Rdiv in A3 at 1. rewrite Rmult_assoc, Rinv_l, Rmult_1_r in A3 by (unfold q2; lra).
  apply Rmult_lt_compat_r with (r := w + 1) in A4; [|lra]. unfold Rdiv in A4 at 1. rewrite Rmult_assoc, Rinv_l, Rmult_1_r in A4 by lra.
  assert (LY : length (Y t) = d) by (apply (Y_len d F lo hi Y HY); auto).
  specialize (HB1 t M h Ht A1).
  set (K1 := rstages F (mA M) (mc M) t y h). set (K2 := rstages F (mA M) (mc M) t (Y t) h).
  (* differences of the stages *)
  assert (G : forall l, (l < s)%nat -> close d (nth l (K1 s) []) (nth l (K2 s) []) (2 * L * e)).
  { induction l as [l IH] using lt_wf_ind. intros Hl.
    unfold K1, K2. rewrite !rstages_nth by auto. rewrite Ly, LY.
    replace (2 * L * e) with (L * (2 * e)) by ring.
    (* combinations of earlier stages *)
    assert (CB : forall q, (q < d)%nat -> Rabs (lcomb l (mA M l) (K2 l) q) <= n * (w * B)).
    { intros q Hq. unfold K2. rewrite (lcomb_prefix F (mA M) (mc M) t (Y t) h s l (mA M l) q) by lia.
      rewrite (lcomb_zero_tail l s) by (try lia; intros; apply m_lower; lia). apply rsum_bound. intros l' Hl'. rewrite Rabs_mult.
      apply Rmult_le_compat; try apply Rabs_pos; [eapply Rle_trans; [apply m_A; auto|auto]|apply HB1; auto]. }
    assert (CD : forall q, (q < d)%nat -> Rabs (lcomb l (mA M l) (K1 l) q - lcomb l (mA M l) (K2 l) q) <= n * (w * (2 * L * e))).
    { intros q Hq. unfold K1, K2. rewrite (lcomb_prefix F (mA M) (mc M) t (Y t) h s l (mA M l) q) by lia.
      rewrite (lcomb_prefix F (mA M) (mc M) t y h s l (mA M l) q) by lia. fold (K1 s). fold (K2 s). unfold lcomb.
      rewrite <- rsum_sub'. eapply Rle_trans; [apply (rsum_bound l _ (w * (2 * L * e)))|].
      - intros l' Hl'. rewrite <- Rmult_minus_distr_l, Rabs_mult. apply Rmult_le_compat; try apply Rabs_pos; [eapply Rle_trans; [apply m_A; [auto|lia]|auto]|].
        apply IH; auto. lia.
      - apply Rmult_le_compat_r; [repeat apply Rmult_le_pos; lra|]. unfold n. apply le_INR. lia. }
    assert (N2 : close d (rpoint d (Y t) h (lcomb l (mA M l) (K2 l))) (Y t) (r / 2)).
    { intros q Hq. unfold rpoint. rewrite nth_map_seq by auto.
      match goal with |- Rabs (?a + ?b - ?a) <= _ => replace (a + b - a) with b by ring end. rewrite Rabs_mult.
      specialize (CB q Hq). apply (Rmult_le_compat_l _ _ _ Hh0) in CB. unfold q2 in A3. lra. }
    assert (N12 : close d (rpoint d y h (lcomb l (mA M l) (K1 l))) (rpoint d (Y t) h (lcomb l (mA M l) (K2 l))) (2 * e)).
    { intros q Hq. unfold rpoint. rewrite !nth_map_seq by auto.
      match goal with |- Rabs (?a + h * ?x - (?b + h * ?z)) <= _ => replace (a + h * x - (b + h * z)) with ((a - b) + h * (x - z)) by ring end.
      eapply Rle_trans; [apply Rabs_triang|]. rewrite Rabs_mult. specialize (CD q Hq). apply (Rmult_le_compat_l _ _ _ Hh0) in CD. specialize (Hy q Hq).
      assert (Rabs h * (n * (w * (2 * L * e))) <= e).
      { replace (Rabs h * (n * (w * (2 * L * e)))) with ((Rabs h * (n * (w * (2 * L)))) * e) by ring.
        rewrite <- (Rmult_1_l e) at 2. apply Rmult_le_compat_r; [lra|]. unfold q1 in A2.
        assert (0 <= Rabs h * (n * (w * (2 * L)))) by (apply Rmult_le_pos; auto). lra. }
      lra. }
    apply (HLip t); auto.
    - replace (t + mc M l * h - t) with (mc M l * h) by ring. rewrite Rabs_mult.
      assert (Rabs (mc M l) * Rabs h <= w * Rabs h) by (apply Rmult_le_compat_r; auto; eapply Rle_trans; [apply m_c; auto|auto]). lra.
    - apply rpoint_length.
    - apply rpoint_length.
    - eapply close_le; [eapply close_trans; [exact N12|exact N2]|lra].
    - eapply close_le; [exact N2|lra]. }
  intros l Hl. split; [apply G; auto|]. intros q Hq. apply HB1; auto.
Qed.
Lemma stability L r : lipschitz_near d F lo hi Y L r -> exists del, 0 < del /\ forall t (M : method s p W) y h e, lo <= t <= hi -> length y = d ->
  Rabs h < del -> 0 <= e <= r / 4 -> close d y (Y t) e ->
  close d (rk_step F d M t y h) (rk_step F d M t (Y t) h) ((1 + Rabs h * Lamb L) * e).
Proof.
  intros HLn. destruct (stages_close L r HLn) as (B & del & _ & Hdel & HG). exists del. split; [auto|]. intros t M y h e Ht Ly Hh He Hy.
  assert (G : forall l, (l < s)%nat -> close d (nth l (rstages F (mA M) (mc M) t y h s) []) (nth l (rstages F (mA M) (mc M) t (Y t) h s) []) (2 * L * e)) by (intros l Hl; apply (HG t M y h e); auto).
  set (w := Rabs W). assert (Hw : 0 <= w) by apply Rabs_pos. assert (HWw : W <= w) by apply Rle_abs.
  pose proof (Rabs_pos h) as Hh0. unfold Lamb. fold w. set (n := INR s).
  set (K1 := rstages F (mA M) (mc M) t y h) in *. set (K2 := rstages F (mA M) (mc M) t (Y t) h) in *.
  intros q Hq. unfold rk_step, rpoint. rewrite !nth_map_seq by auto. fold (K1 s). fold (K2 s).
  match goal with |- Rabs (?a + h * ?x - (?b + h * ?z)) <= _ => replace (a + h * x - (b + h * z)) with ((a - b) + h * (x - z)) by ring end.
  eapply Rle_trans; [apply Rabs_triang|]. rewrite Rabs_mult. specialize (Hy q Hq).
  assert (CD : Rabs (lcomb s (mb M) (K1 s) q - lcomb s (mb M) (K2 s) q) <= n * (w * (2 * L * e))).
  { unfold lcomb. rewrite <- rsum_sub'. apply rsum_bound. intros l Hl. rewrite <- Rmult_minus_distr_l, Rabs_mult.
    apply Rmult_le_compat; try apply Rabs_pos; [eapply Rle_trans; [apply m_b; auto|auto]|]. apply G; auto. }
  apply (Rmult_le_compat_l _ _ _ Hh0) in CD. lra.
Qed.

(** ** the global error *)
(** a sequence of steps from the initial point of the trajectory, in one direction, inside [lo, hi] *)
Inductive path (M : method s p W) (H : R) (ta : R) : R -> list R -> Prop :=
| path0 : path M H ta ta (Y ta)
| pathS t y t' : path M H ta t y -> lo <= t' <= hi -> 0 <= (t' - t) * (t - ta) -> Rabs (t' - t) <= H ->
    path M H ta t' (rk_step F d M t y (t' - t)).

Lemma global_core L : 0 <= L -> (0 < p)%nat -> exists C, 0 <= C /\ forall r, lipschitz_near d F lo hi Y L r ->
  exists del, 0 < del /\ forall (M : method s p W) H ta t y, 0 <= H < del -> C * (meps M + H ^ p) <= r / 4 -> lo <= ta <= hi -> path M H ta t y ->
  length y = d /\ lo <= t <= hi /\ close d y (Y t) (C * (meps M + H ^ p)).
Proof.
  intros HL0 Hp. destruct (local_error d p F lo hi Y HY s W HS) as (C1 & d2 & HC1 & Hd2 & Hloc).
  set (Lam := Lamb L). assert (HLam : 0 <= Lam) by (unfold Lam, Lamb; pose proof (pos_INR s); pose proof (Rabs_pos W); repeat apply Rmult_le_pos; lra).
  set (Xx := Rabs (hi - lo)). assert (HX : 0 <= Xx) by apply Rabs_pos.
  set (G := Xx * exp (Lam * Xx)). assert (HG : 0 <= G) by (apply Rmult_le_pos; [auto|left; apply exp_pos]).
  assert (HCG : 0 <= C1 * G) by (apply Rmult_le_pos; auto).
  exists (C1 * G). split; [auto|]. intros r HLip. destruct (stability L r HLip) as (d1 & Hd1 & Hst). fold Lam in Hst.
  exists (Rmin d1 d2). split; [apply Rmin_case; auto|].
  intros M H ta t y (H0 & HH) He0 Hta HP. set (e0 := r / 4) in *.
  assert (D1 : H < d1) by (eapply Rlt_le_trans; [exact HH|apply Rmin_l]).
  assert (D2 : H < d2) by (eapply Rlt_le_trans; [exact HH|apply Rmin_r]). clear HH.
  set (eta := C1 * (meps M + H ^ p)).
  assert (HHp : 0 <= H ^ p) by (apply pow_le; auto).
  pose proof (m_eps s p W M) as Hme.
  assert (Heta : 0 <= eta) by (unfold eta; apply Rmult_le_pos; lra).
  assert (HetaG : eta * G <= e0) by (replace (eta * G) with (C1 * G * (meps M + H ^ p)) by (unfold eta; ring); exact He0).
  assert (HXm : forall u, lo <= u <= hi -> Rabs (u - ta) * exp (Lam * Rabs (u - ta)) <= G).
  { intros u Hu. assert (HA : Rabs (u - ta) <= Xx).
    { unfold Xx. rewrite (Rabs_pos_eq (hi - lo)) by lra. apply Rabs_le. lra. }
    apply Rmult_le_compat; [apply Rabs_pos|left; apply exp_pos|auto|].
    destruct (Rmult_le_compat_l Lam _ _ HLam HA) as [E|E]; [left; apply exp_increasing; auto|rewrite E; right; auto]. }
  assert (Q : length y = d /\ lo <= t <= hi /\ close d y (Y t) (eta * (Rabs (t - ta) * exp (Lam * Rabs (t - ta))))).
  2:{ destruct Q as (Q1 & Q2 & Q3). split; [auto|]. split; [auto|]. eapply close_le; [exact Q3|].
      replace (C1 * G * (meps M + H ^ p)) with (eta * G) by (unfold eta; ring). apply Rmult_le_compat_l; [lra|]. apply HXm; auto. }
  induction HP as [|t y t' HP IH Ht' Hsg Hst'].
  - split; [apply (Y_len d F lo hi Y HY); auto|]. split; [auto|]. apply close_refl.
    apply Rmult_le_pos; [lra|]. apply Rmult_le_pos; [apply Rabs_pos|left; apply exp_pos].
  - destruct IH as (IH1 & IH2 & IH3). split; [apply rpoint_length|]. split; [auto|].
    set (h := t' - t) in *. set (x := Rabs (t - ta)) in *.
    assert (Hx : 0 <= x) by apply Rabs_pos. assert (Hh : 0 <= Rabs h) by apply Rabs_pos.
    set (e := eta * (x * exp (Lam * x))) in *.
    assert (He : 0 <= e <= e0).
    { unfold e. split; [apply Rmult_le_pos; [lra|]; apply Rmult_le_pos; [auto|left; apply exp_pos]|].
      eapply Rle_trans; [apply Rmult_le_compat_l; [lra|apply (HXm t IH2)]|auto]. }
    pose proof (Hst t M y h e IH2 IH1 ltac:(lra) He IH3) as S1.
    pose proof (Hloc t M h IH2 ltac:(lra)) as S2. replace (t + h) with t' in S2 by (unfold h; ring).
    eapply close_le; [exact (close_trans _ _ _ _ _ _ S1 S2)|].
    assert (Hx' : Rabs (t' - ta) = x + Rabs h).
    { unfold x. replace (t' - ta) with ((t - ta) + h) by (unfold h; ring).
      destruct (Rle_dec 0 (t - ta)) as [P|P].
      - destruct (Rle_lt_or_eq_dec _ _ P) as [P'|P'].
        + assert (0 <= h) by (destruct (Rle_dec 0 h); auto; exfalso; nra). rewrite !Rabs_pos_eq; lra.
        + rewrite <- P', Rplus_0_l, Rabs_R0. lra.
      - assert (h <= 0) by (destruct (Rle_dec h 0); auto; exfalso; nra). rewrite !Rabs_left1; lra. }
    rewrite Hx'. set (a := Rabs h) in *.
    assert (L1 : C1 * (meps M * a + a ^ S p) <= eta * a).
    { unfold eta. rewrite Rmult_assoc. apply Rmult_le_compat_l; [auto|]. simpl.
      assert (a ^ p <= H ^ p) by (apply pow_incr; auto). nra. }
    assert (E1 : 1 + a * Lam <= exp (Lam * a)) by (rewrite (Rmult_comm a); apply exp_ineq1_le).
    assert (E2 : exp (Lam * (x + a)) = exp (Lam * x) * exp (Lam * a)) by (rewrite <- exp_plus; f_equal; ring).
    assert (E3 : 1 <= exp (Lam * (x + a))).
    { eapply Rle_trans; [|apply exp_ineq1_le]. assert (0 <= Lam * (x + a)) by (apply Rmult_le_pos; lra). lra. }
    apply Rle_trans with (exp (Lam * a) * e + eta * a); [apply Rplus_le_compat; [apply Rmult_le_compat_r; lra|auto]|].
    replace (eta * ((x + a) * exp (Lam * (x + a)))) with (exp (Lam * a) * e + eta * (a * exp (Lam * (x + a)))).
    2:{ unfold e. rewrite E2. ring. }
    apply Rplus_le_compat_l. apply Rmult_le_compat_l; [lra|]. nra.
Qed.

(** F Lipschitz near the trajectory; methods whose order conditions hold up to a small residual *)
Theorem global_error : lipschitz_along d F lo hi Y -> (0 < p)%nat -> exists C del, 0 <= C /\ 0 < del /\ forall (M : method s p W) H ta t y,
  meps M <= del -> 0 <= H < del -> lo <= ta <= hi -> path M H ta t y ->
  length y = d /\ lo <= t <= hi /\ close d y (Y t) (C * (meps M + H ^ p)).
Proof.
  intros (L & r & HL) Hp. destruct (global_core L (proj1 HL) Hp) as (C & HC & H1). destruct (H1 r HL) as (d1 & Hd1 & H2).
  assert (Hr : 0 < r) by (destruct HL as (_ & Hr & _); exact Hr).
  set (qq := 2 * C + 1). set (D := Rmin d1 (Rmin 1 (r / 4 / qq))). exists C, D. split; [auto|].
  split. { unfold D. apply Rmin_case; auto. apply Rmin_case; [lra|]. apply Rdiv_lt_0_compat; [lra|unfold qq; lra]. }
  intros M H ta t y Hm (H0 & HH) Hta HP.
  assert (D1 : D <= d1) by apply Rmin_l.
  assert (D3 : D <= 1) by (eapply Rle_trans; [apply Rmin_r|apply Rmin_l]).
  assert (D4 : D <= r / 4 / qq) by (eapply Rle_trans; [apply Rmin_r|apply Rmin_r]).
  apply Rmult_le_compat_r with (r := qq) in D4; [|unfold qq; lra]. unfold Rdiv in D4 at 1. rewrite Rmult_assoc, Rinv_l, Rmult_1_r in D4 by (unfold qq; lra).
  apply (H2 M H ta t y); auto; [lra|].
  assert (HHp : 0 <= H ^ p <= D).
  { split; [apply pow_le; auto|]. clear - Hp H0 HH D3. revert Hp. generalize p as n. intros [|p'] Hp; [lia|]. simpl. apply Rle_trans with (H * 1); [|lra].
    apply Rmult_le_compat_l; [auto|]. replace 1 with (1 ^ p') by apply pow1. apply pow_incr. lra. }
  pose proof (m_eps s p W M) as Hme. apply Rle_trans with (C * (2 * D)); [apply Rmult_le_compat_l; lra|]. unfold qq in D4. lra.
Qed.
(** F Lipschitz everywhere: no condition on the residual of the method *)
Theorem global_error_lipschitz eps : lipschitz_global d F -> (0 < p)%nat -> exists C del, 0 <= C /\ 0 < del /\ forall (M : method s p W) H ta t y,
  meps M <= eps -> 0 <= H < del -> lo <= ta <= hi -> path M H ta t y ->
  length y = d /\ lo <= t <= hi /\ close d y (Y t) (C * (meps M + H ^ p)).
Proof.
  intros (L & HL0 & HL) Hp. destruct (global_core L HL0 Hp) as (C & HC & H1).
  set (r := 4 * (C * (Rabs eps + 1)) + 1).
  assert (HA : 0 <= Rabs eps) by apply Rabs_pos.
  assert (Hr : 0 <= C * (Rabs eps + 1)) by (apply Rmult_le_pos; lra).
  destruct (H1 r) as (d1 & Hd1 & H2).
  { split; [auto|]. split; [unfold r; lra|]. intros t s0 u v e _ _ Hu Hv _ _ Huv. apply HL; auto. }
  exists C, (Rmin d1 1). split; [auto|]. split; [apply Rmin_case; lra|]. intros M H ta t y Hm (H0 & HH) Hta HP.
  assert (D1 : H < d1) by (eapply Rlt_le_trans; [exact HH|apply Rmin_l]).
  assert (D3 : H < 1) by (eapply Rlt_le_trans; [exact HH|apply Rmin_r]).
  apply (H2 M H ta t y); auto. unfold r.
  assert (HHp : H ^ p <= 1) by (replace 1 with (1 ^ p) by apply pow1; apply pow_incr; lra).
  pose proof (Rle_abs eps). apply Rle_trans with (C * (Rabs eps + 1)); [apply Rmult_le_compat_l; lra|lra].
Qed.
End Stable.
