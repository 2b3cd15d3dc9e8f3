(** Global error of implicit Runge-Kutta methods whose stage equations are solved up to a residual. *)
From Coq Require Import Reals Lra Psatz Lia List Arith Bool.
From Verif Require Import Series Trees OrderThm OrderCheck OrderRK GOrder GDense UOrder UOrder2 UDense GlobalRK.
Import ListNotations.
Open Scope R_scope.

(** ** specification *)
(** the slopes ks (s of them, dimension d) of a step of size h from (t, y) satisfy the stage equations
    k_i = F(t + c_i h, y + h sum_l a_il k_l) up to dl in every component *)
Definition stages_within (d s : nat) (A : nat -> nat -> R) (c : nat -> R) (F : R -> list R -> list R) (t h : R) (y : list R) (dl : R) (ks : list (list R)) : Prop :=
  forall i q, (i < s)%nat -> (q < d)%nat ->
    Rabs (nth q (nth i ks []) 0 - nth q (F (t + c i * h) (rpoint d y h (lcomb s (A i) ks))) 0) <= dl.
(** a sequence of such steps from the initial point of the trajectory, in one direction, inside [lo, hi] *)
Inductive ipath (d s : nat) (A : nat -> nat -> R) (b c : nat -> R) (F : R -> list R -> list R) (lo hi : R) (Y : R -> list R) (H dl ta : R) : R -> list R -> Prop :=
| ipath0 : ipath d s A b c F lo hi Y H dl ta ta (Y ta)
| ipathS t y t' ks : ipath d s A b c F lo hi Y H dl ta t y -> lo <= t' <= hi -> 0 <= (t' - t) * (t - ta) -> Rabs (t' - t) <= H ->
    stages_within d s A c F t (t' - t) y dl ks ->
    ipath d s A b c F lo hi Y H dl ta t' (rpoint d y (t' - t) (lcomb s b ks)).

(** ** the largest entry *)
Lemma largest (f : nat -> nat -> R) n m : exists B, 0 <= B /\ (forall i j, (i < n)%nat -> (j < m)%nat -> Rabs (f i j) <= B) /\
  (B = 0 \/ exists i j, (i < n)%nat /\ (j < m)%nat /\ Rabs (f i j) = B).
Proof.
  induction n as [|n IH]; [exists 0; split; [lra|]; split; [intros; lia|auto]|]. destruct IH as (B & HB & H1 & H2).
  assert (G : forall k, (k <= m)%nat -> exists B, 0 <= B /\ (forall i j, (i < n)%nat -> (j < m)%nat -> Rabs (f i j) <= B) /\ (forall j, (j < k)%nat -> Rabs (f n j) <= B) /\
    (B = 0 \/ exists i j, (i < S n)%nat /\ (j < m)%nat /\ Rabs (f i j) = B)).
  { induction k as [|k IHk]; intros Hk.
    - exists B. split; [auto|]. split; [auto|]. split; [intros; lia|]. destruct H2 as [H2|(i & j & Hi & Hj & H2)]; [auto|]. right. exists i, j. split; [lia|]. auto.
    - destruct IHk as (B' & HB' & H1' & H2' & H3'); [lia|]. destruct (Rle_dec (Rabs (f n k)) B') as [L|L].
      + exists B'. split; [auto|]. split; [auto|]. split; [|auto]. intros j Hj. destruct (Nat.eq_dec j k) as [->|]; [auto|apply H2'; lia].
      + exists (Rabs (f n k)). split; [apply Rabs_pos|]. split; [intros i j Hi Hj; specialize (H1' i j Hi Hj); lra|]. split.
        * intros j Hj. destruct (Nat.eq_dec j k) as [->|]; [lra|]. specialize (H2' j ltac:(lia)). lra.
        * right. exists n, k. split; [lia|]. split; [lia|auto]. }
  destruct (G m (le_n m)) as (B' & HB' & H1' & H2' & H3'). exists B'. split; [auto|]. split; [|auto].
  intros i j Hi Hj. destruct (Nat.eq_dec i n) as [->|]; [auto|apply H1'; lia].
Qed.

(** ** combinations of slopes *)
Section Comb.
Variables (d s : nat) (W : R).
Lemma lcomb_diff (a : nat -> R) ks ks' B q : (forall i, (i < s)%nat -> Rabs (a i) <= W) ->
  (forall i, (i < s)%nat -> Rabs (nth q (nth i ks []) 0 - nth q (nth i ks' []) 0) <= B) -> Rabs (lcomb s a ks q - lcomb s a ks' q) <= INR s * (W * B).
Proof.
  intros Ha Hk. unfold lcomb. rewrite <- rsum_sub'. apply rsum_bound. intros i Hi. rewrite <- Rmult_minus_distr_l, Rabs_mult.
  apply Rmult_le_compat; try apply Rabs_pos; auto.
Qed.
Lemma lcomb_bound (a : nat -> R) ks B q : (forall i, (i < s)%nat -> Rabs (a i) <= W) ->
  (forall i, (i < s)%nat -> Rabs (nth q (nth i ks []) 0) <= B) -> Rabs (lcomb s a ks q) <= INR s * (W * B).
Proof.
  intros Ha Hk. unfold lcomb. apply rsum_bound. intros i Hi. rewrite Rabs_mult. apply Rmult_le_compat; try apply Rabs_pos; auto.
Qed.
End Comb.

(** ** the stage equations have a solution when the step is small *)
Section Stages.
Variables (d s : nat) (A : nat -> nat -> R) (c : nat -> R) (F : R -> list R -> list R) (W L : R).
Hypothesis HL0 : 0 <= L.
Hypothesis HL : forall t u v e, length u = d -> length v = d -> close d u v e -> close d (F t u) (F t v) (L * e).
Hypothesis HW : forall i l, (i < s)%nat -> (l < s)%nat -> Rabs (A i l) <= W.
Definition small_step (h : R) : Prop := Rabs h * (INR s * (Rabs W * L)) <= 1/2.

(** slopes that satisfy the stage equations up to dl, from points that are e apart *)
Lemma stage_points h y y' ks ks' e B i : (i < s)%nat -> close d y y' e ->
  (forall l q, (l < s)%nat -> (q < d)%nat -> Rabs (nth q (nth l ks []) 0 - nth q (nth l ks' []) 0) <= B) ->
  close d (rpoint d y h (lcomb s (A i) ks)) (rpoint d y' h (lcomb s (A i) ks')) (e + Rabs h * (INR s * (Rabs W * B))).
Proof.
  intros Hi Hy HB q Hq. unfold rpoint. rewrite !nth_map_seq by auto.
  match goal with |- Rabs (?a + h * ?x - (?b + h * ?z)) <= _ => replace (a + h * x - (b + h * z)) with ((a - b) + h * (x - z)) by ring end.
  eapply Rle_trans; [apply Rabs_triang|]. apply Rplus_le_compat; [auto|]. rewrite Rabs_mult. apply Rmult_le_compat_l; [apply Rabs_pos|].
  apply lcomb_diff; [|intros; apply HB; auto]. intros l Hl. eapply Rle_trans; [apply HW; auto|apply Rle_abs].
Qed.
Lemma stages_apart t h y y' ks ks' e dl : small_step h -> 0 <= e -> close d y y' e ->
  stages_within d s A c F t h y dl ks -> stages_within d s A c F t h y' 0 ks' ->
  forall i q, (i < s)%nat -> (q < d)%nat -> Rabs (nth q (nth i ks []) 0 - nth q (nth i ks' []) 0) <= 2 * (L * e + dl).
Proof.
  intros Hh He Hy H1 H2. destruct (largest (fun i q => nth q (nth i ks []) 0 - nth q (nth i ks' []) 0) s d) as (B & HB & HB1 & HB2). cbv beta in *.
  destruct HB2 as [E|(i0 & q0 & Hi0 & Hq0 & E)].
  - intros i q Hi Hq. eapply Rle_trans; [apply HB1; auto|]. assert (0 <= dl) by (eapply Rle_trans; [apply Rabs_pos|apply (H1 i q Hi Hq)]).
    assert (0 <= L * e) by (apply Rmult_le_pos; auto). lra.
  - assert (X : B <= L * (e + Rabs h * (INR s * (Rabs W * B))) + dl).
    { rewrite <- E at 1. specialize (H1 i0 q0 Hi0 Hq0). specialize (H2 i0 q0 Hi0 Hq0).
      pose proof (HL (t + c i0 * h) _ _ _ (rpoint_length _ _ _ _) (rpoint_length _ _ _ _) (stage_points h y y' ks ks' e B i0 Hi0 Hy HB1) q0 Hq0) as H3.
      set (a := nth q0 (nth i0 ks []) 0) in *. set (b := nth q0 (nth i0 ks' []) 0) in *.
      set (u := nth q0 (F (t + c i0 * h) (rpoint d y h (lcomb s (A i0) ks))) 0) in *. set (v := nth q0 (F (t + c i0 * h) (rpoint d y' h (lcomb s (A i0) ks'))) 0) in *.
      replace (a - b) with ((a - u) + (u - v) - (b - v)) by ring. eapply Rle_trans; [apply Rabs_triang|]. rewrite Rabs_Ropp. pose proof (Rabs_triang (a - u) (u - v)). lra. }
    assert (P : L * (Rabs h * (INR s * (Rabs W * B))) <= 1/2 * B).
    { replace (L * (Rabs h * (INR s * (Rabs W * B)))) with ((Rabs h * (INR s * (Rabs W * L))) * B) by ring. apply Rmult_le_compat_r; auto. }
    intros i q Hi Hq. eapply Rle_trans; [apply HB1; auto|]. lra.
Qed.

Section Picard.
Variables (t h : R) (y : list R).
Hypothesis Hh : small_step h.
Definition next (ks : list (list R)) : list (list R) := map (fun i => map (fun q => nth q (F (t + c i * h) (rpoint d y h (lcomb s (A i) ks))) 0) (seq 0 d)) (seq 0 s).
Fixpoint picard (n : nat) : list (list R) := match n with O => [] | S n => next (picard n) end.
Lemma next_nth ks i q : (i < s)%nat -> (q < d)%nat -> nth q (nth i (next ks) []) 0 = nth q (F (t + c i * h) (rpoint d y h (lcomb s (A i) ks))) 0.
Proof.
  intros Hi Hq. unfold next. rewrite (nth_indep _ [] (map (fun q => nth q (F (t + c 0%nat * h) (rpoint d y h (lcomb s (A 0%nat) ks))) 0) (seq 0 d))) by (rewrite map_length, seq_length; auto).
  rewrite (map_nth (fun i => map (fun q => nth q (F (t + c i * h) (rpoint d y h (lcomb s (A i) ks))) 0) (seq 0 d))), seq_nth by auto. cbn [plus]. apply nth_map_seq. auto.
Qed.
Lemma next_out ks i q : ((s <= i) \/ (d <= q))%nat -> nth q (nth i (next ks) []) 0 = 0.
Proof.
  intros H. unfold next. destruct (Nat.ltb_spec i s) as [Hi|Hi].
  - apply nth_overflow.
    rewrite (nth_indep _ [] (map (fun q => nth q (F (t + c 0%nat * h) (rpoint d y h (lcomb s (A 0%nat) ks))) 0) (seq 0 d))) by (rewrite map_length, seq_length; auto).
    rewrite (map_nth (fun i => map (fun q => nth q (F (t + c i * h) (rpoint d y h (lcomb s (A i) ks))) 0) (seq 0 d))), map_length, seq_length. lia.
  - rewrite (nth_overflow _ []) by (rewrite map_length, seq_length; auto). destruct q; reflexivity.
Qed.
Lemma next_contract ks ks' B : 0 <= B -> (forall l q, (l < s)%nat -> (q < d)%nat -> Rabs (nth q (nth l ks []) 0 - nth q (nth l ks' []) 0) <= B) ->
  forall i q, (i < s)%nat -> (q < d)%nat -> Rabs (nth q (nth i (next ks) []) 0 - nth q (nth i (next ks') []) 0) <= / 2 * B.
Proof.
  intros HB H i q Hi Hq. rewrite !next_nth by auto.
  pose proof (HL (t + c i * h) _ _ _ (rpoint_length _ _ _ _) (rpoint_length _ _ _ _) (stage_points h y y ks ks' 0 B i Hi (close_refl d y 0 (Rle_refl 0)) H) q Hq) as H3.
  eapply Rle_trans; [exact H3|]. rewrite Rplus_0_l.
  replace (L * (Rabs h * (INR s * (Rabs W * B)))) with ((Rabs h * (INR s * (Rabs W * L))) * B) by ring. apply Rmult_le_compat_r; [auto|]. unfold small_step in Hh. lra.
Qed.
Lemma picard_step : exists B, 0 <= B /\ forall n i q, Rabs (nth q (nth i (picard (S n)) []) 0 - nth q (nth i (picard n) []) 0) <= (/ 2) ^ n * B.
Proof.
  destruct (largest (fun i q => nth q (nth i (picard 1) []) 0 - nth q (nth i (picard 0) []) 0) s d) as (B & HB & HB1 & _). exists B. split; [auto|].
  assert (Hout : forall n i q, ((s <= i) \/ (d <= q))%nat -> nth q (nth i (picard n) []) 0 = 0).
  { intros [|n] i q H; [cbn [picard]; destruct i, q; reflexivity|]. apply next_out. auto. }
  assert (Hin : forall n i q, (i < s)%nat -> (q < d)%nat -> Rabs (nth q (nth i (picard (S n)) []) 0 - nth q (nth i (picard n) []) 0) <= (/ 2) ^ n * B).
  { induction n as [|n IH]; intros i q Hi Hq; [rewrite pow_O, Rmult_1_l; apply HB1; auto|].
    change (picard (S (S n))) with (next (picard (S n))). change (picard (S n)) with (next (picard n)) at 2.
    eapply Rle_trans; [apply (next_contract (picard (S n)) (picard n) ((/ 2) ^ n * B)); auto; apply Rmult_le_pos; [apply pow_le; lra|auto]|]. simpl. lra. }
  intros n i q. destruct (Nat.ltb_spec i s) as [Hi|Hi]; [destruct (Nat.ltb_spec q d) as [Hq|Hq]; [apply Hin; auto|]|];
    rewrite !Hout by auto; rewrite Rminus_0_r, Rabs_R0; apply Rmult_le_pos; auto; apply pow_le; lra.
Qed.
Lemma picard_tail B : 0 <= B -> (forall n i q, Rabs (nth q (nth i (picard (S n)) []) 0 - nth q (nth i (picard n) []) 0) <= (/ 2) ^ n * B) ->
  forall n k i q, Rabs (nth q (nth i (picard (n + k)) []) 0 - nth q (nth i (picard n) []) 0) <= 2 * ((/ 2) ^ n * B).
Proof.
  intros HB H n k i q.
  assert (G : Rabs (nth q (nth i (picard (n + k)) []) 0 - nth q (nth i (picard n) []) 0) <= 2 * ((/ 2) ^ n * B) - 2 * ((/ 2) ^ (n + k) * B)).
  { induction k as [|k IH].
    - rewrite Nat.add_0_r, Rminus_eq_0, Rabs_R0. lra.
    - rewrite <- plus_n_Sm. specialize (H (n + k)%nat i q). set (a := nth q (nth i (picard (S (n + k))) []) 0) in *. set (b := nth q (nth i (picard (n + k)) []) 0) in *.
      set (z := nth q (nth i (picard n) []) 0) in *. replace (a - z) with ((a - b) + (b - z)) by ring. eapply Rle_trans; [apply Rabs_triang|]. cbn [pow]. lra. }
  assert (0 <= (/ 2) ^ (n + k) * B) by (apply Rmult_le_pos; [apply pow_le; lra|auto]). lra.
Qed.
Lemma half_small B eps : 0 < eps -> exists N, forall n, (N <= n)%nat -> 2 * ((/ 2) ^ n * B) < eps.
Proof.
  intros He. destruct (pow_lt_1_zero (/ 2) ltac:(rewrite Rabs_pos_eq; lra) (eps / (2 * (Rabs B + 1)))) as (N & HN).
  { apply Rdiv_lt_0_compat; [auto|]. pose proof (Rabs_pos B). lra. }
  exists N. intros n Hn. specialize (HN n Hn). pose proof (Rabs_pos B). rewrite Rabs_pos_eq in HN by (apply pow_le; lra).
  assert (P : 0 <= (/ 2) ^ n) by (apply pow_le; lra). apply Rmult_lt_compat_r with (r := 2 * (Rabs B + 1)) in HN; [|lra].
  replace (eps / (2 * (Rabs B + 1)) * (2 * (Rabs B + 1))) with eps in HN by (field; lra). pose proof (Rle_abs B).
  assert ((/ 2) ^ n * B <= (/ 2) ^ n * (Rabs B + 1)) by (apply Rmult_le_compat_l; lra). lra.
Qed.
Lemma picard_cauchy i q : Cauchy_crit (fun n => nth q (nth i (picard n) []) 0).
Proof.
  destruct picard_step as (B & HB & H). intros eps He. destruct (half_small B (eps / 2) ltac:(lra)) as (N & HN). exists N. intros n m Hn Hm. unfold R_dist.
  pose proof (picard_tail B HB H N (n - N) i q) as H1. pose proof (picard_tail B HB H N (m - N) i q) as H2.
  replace (N + (n - N))%nat with n in H1 by lia. replace (N + (m - N))%nat with m in H2 by lia. specialize (HN N (le_n _)).
  set (a := nth q (nth i (picard n) []) 0) in *. set (b := nth q (nth i (picard m) []) 0) in *. set (z := nth q (nth i (picard N) []) 0) in *.
  replace (a - b) with ((a - z) - (b - z)) by ring. eapply Rle_lt_trans; [apply Rabs_triang|]. rewrite Rabs_Ropp. lra.
Qed.
Definition plimit (i q : nat) : R := proj1_sig (R_complete _ (picard_cauchy i q)).
Definition solution_stages : list (list R) := map (fun i => map (fun q => plimit i q) (seq 0 d)) (seq 0 s).
Lemma solution_nth i q : (i < s)%nat -> (q < d)%nat -> nth q (nth i solution_stages []) 0 = plimit i q.
Proof.
  intros Hi Hq. unfold solution_stages. rewrite (nth_indep _ [] (map (fun q => plimit 0 q) (seq 0 d))) by (rewrite map_length, seq_length; auto).
  rewrite (map_nth (fun i => map (fun q => plimit i q) (seq 0 d))), seq_nth by auto. cbn [plus]. apply nth_map_seq. auto.
Qed.
Lemma plimit_close B : 0 <= B -> (forall n i q, Rabs (nth q (nth i (picard (S n)) []) 0 - nth q (nth i (picard n) []) 0) <= (/ 2) ^ n * B) ->
  forall n i q, Rabs (plimit i q - nth q (nth i (picard n) []) 0) <= 2 * ((/ 2) ^ n * B).
Proof.
  intros HB H n i q. unfold plimit. destruct (R_complete _ (picard_cauchy i q)) as (l & Hl). cbn [proj1_sig].
  apply le_epsilon. intros eps He. destruct (Hl eps He) as (N & HN). specialize (HN (n + N)%nat ltac:(lia)). unfold R_dist in HN.
  pose proof (picard_tail B HB H n N i q) as H1. set (a := nth q (nth i (picard (n + N)) []) 0) in *. set (z := nth q (nth i (picard n) []) 0) in *.
  replace (l - z) with ((a - z) - (a - l)) by ring. eapply Rle_trans; [apply Rabs_triang|]. rewrite Rabs_Ropp. lra.
Qed.
Lemma solution_within : stages_within d s A c F t h y 0 solution_stages.
Proof.
  intros i q Hi Hq. destruct picard_step as (B & HB & H). pose proof (plimit_close B HB H) as HC.
  apply le_epsilon. intros eps He. rewrite Rplus_0_l. destruct (half_small B (eps / 2) ltac:(lra)) as (N & HN).
  rewrite <- next_nth by auto. rewrite solution_nth by auto.
  assert (X : Rabs (nth q (nth i (next solution_stages) []) 0 - nth q (nth i (next (picard N)) []) 0) <= / 2 * (2 * ((/ 2) ^ N * B))).
  { apply next_contract; auto; [assert (0 <= (/ 2) ^ N * B) by (apply Rmult_le_pos; [apply pow_le; lra|auto]); lra|]. intros l q' Hl Hq'. rewrite solution_nth by auto. apply HC. }
  pose proof (HC (S N) i q) as X2. cbn [picard] in X2.
  set (a := plimit i q) in *. set (b := nth q (nth i (next solution_stages) []) 0) in *. set (z := nth q (nth i (next (picard N)) []) 0) in *.
  pose proof (HN N (le_n _)) as N1. pose proof (HN (S N) ltac:(lia)) as N2.
  assert (0 <= (/ 2) ^ N * B) by (apply Rmult_le_pos; [apply pow_le; lra|auto]).
  replace (a - b) with ((a - z) - (b - z)) by ring. eapply Rle_trans; [apply Rabs_triang|]. rewrite Rabs_Ropp. lra.
Qed.
End Picard.
End Stages.

(** ** local errors along the trajectory, uniformly *)
Section LocalI.
Variables (d p : nat) (F : R -> list R -> list R) (lo hi : R) (Y : R -> list R).
Hypothesis HFl : forall t y, length y = d -> length (F t y) = d.
Hypothesis HY : solution_on d F lo hi Y.
Hypothesis HS : smooth_along p d F lo hi Y.
Variables (s : nat) (A : nat -> nat -> R) (bb c : nat -> R) (W L eps : R).
Hypothesis HL0 : 0 <= L.
Hypothesis HL : forall t u v e, length u = d -> length v = d -> close d u v e -> close d (F t u) (F t v) (L * e).
Hypothesis HWA : forall i l, (i < s)%nat -> (l < s)%nat -> Rabs (A i l) <= W.
Hypothesis HWb : forall i, (i < s)%nat -> Rabs (bb i) <= W.
Hypothesis HWc : forall i, (i < s)%nat -> Rabs (c i) <= W.
Hypothesis Heps : 0 <= eps.
Hypothesis Horder : near_V false true s (fun _ _ => 0) A c eps bb p.

Definition tbase : Type := {t : R | lo <= t <= hi}.
Definition tt (b : tbase) : R := proj1_sig b.
Lemma tt_in b : lo <= tt b <= hi.
Proof. destruct b as [t Ht]. exact Ht. Qed.
Definition tYV (b : tbase) (h : R) (q : nat) : R := nth q (Y (tt b + h)) 0.
Definition tK (b : tbase) (h : R) (q : nat) : R := nth q (F (tt b + h) (Y (tt b + h))) 0.
Lemma tHYV : exists del, 0 < del /\ forall b h, Rabs h < del -> forall q, (q < d)%nat -> derivable_pt_lim (fun x => tYV b x q) h (tK b h q).
Proof.
  destruct HY as (m & Hm & H). exists m. split; auto. intros b h Hh q Hq. pose proof (tt_in b). apply Rabs_def2 in Hh.
  destruct (H (tt b + h)) as (_ & H1); [lra|].
  unfold tYV. apply (shift_derive (tt b) (fun x => nth q (Y x) 0)). apply H1; auto.
Qed.
Lemma texact_arg b h j : (j < S d)%nat ->
  pt (tt b) (Y (tt b)) j + exact_arg false true ell1 pu1 (pvd d) (tYV b) (fun _ _ => 0) h j = pt (tt b + h) (Y (tt b + h)) j.
Proof.
  intros Hj. unfold exact_arg, opt0, inj, pt. destruct j as [|j]; simpl; [ring|].
  destruct (Nat.ltb_spec j d); [|lia]. unfold tYV. replace (tt b + 0) with (tt b) by ring. ring.
Qed.
Lemma tHK : exists del, 0 < del /\ forall b h, Rabs h < del -> forall q, (q < d)%nat ->
  tK b h q = fo F d (fun j => pt (tt b) (Y (tt b)) j + exact_arg false true ell1 pu1 (pvd d) (tYV b) (fun _ _ => 0) h j) q.
Proof.
  destruct HY as (m & Hm & H). exists m. split; auto. intros b h Hh q Hq. pose proof (tt_in b). apply Rabs_def2 in Hh.
  destruct (H (tt b + h)) as (HLn & _); [lra|].
  unfold tK, fo. f_equal. f_equal.
  - rewrite texact_arg by lia. reflexivity.
  - transitivity (map (fun j => nth j (Y (tt b + h)) 0) (seq 0 d)); [symmetry; apply map_seq_nth; auto|].
    apply map_ext_in. intros j Hj. apply in_seq in Hj. rewrite texact_arg by lia. reflexivity.
Qed.
Lemma tHT : exists T, utaylor (tbase * R) snd (S d) d (fo F d) (fun i => pt (tt (fst i)) (Y (tt (fst i)))) (fun i => T (fst i)) p.
Proof.
  destruct HS as (T & C & M & del & Hdel & H). exists (fun b => T (tt b)). intros q Hq. split.
  - intros m js Hm Hjs. apply (Oh0_of _ _ _ M 1); [lra|]. intros i _.
    destruct (H (tt (fst i)) q (tt_in _) Hq) as (H1 & _). apply H1; [rewrite (idx_len _ _ _ Hjs); auto|].
    apply idx_in in Hjs. exact Hjs.
  - exists C, del. split; auto. intros i z Hz. destruct (H (tt (fst i)) q (tt_in _) Hq) as (_ & H1). apply H1; auto.
Qed.
Lemma tY_unif e : 0 < e -> exists del, 0 < del /\ forall (b : tbase) h, Rabs h < del -> forall q, (q < d)%nat ->
  Rabs (nth q (Y (tt b + h)) 0 - nth q (Y (tt b)) 0) < e.
Proof.
  intros He. destruct HY as (m & Hm & H).
  assert (G : forall n, (n <= d)%nat -> exists del, 0 < del /\ forall (b : tbase) h, Rabs h < del -> forall q, (q < n)%nat ->
     Rabs (nth q (Y (tt b + h)) 0 - nth q (Y (tt b)) 0) < e).
  { induction n as [|n IH]; intros Hn; [exists 1; split; [lra|]; intros; lia|].
    destruct IH as (d1 & Hd1 & H1); [lia|].
    destruct (Rle_dec lo hi) as [Hlh|Hlh].
    2:{ exists 1. split; [lra|]. intros b. pose proof (tt_in b). lra. }
    destruct (@Heine_cor2 (fun x => nth n (Y x) 0) (lo - m / 2) (hi + m / 2)) with (eps := mkposreal e He) as (d2 & H2).
    { intros x Hx. apply derivable_continuous_pt. exists (nth n (F x (Y x)) 0). apply H; [lra|lia]. }
    exists (Rmin d1 (Rmin d2 (m / 2))). split; [apply Rmin_case; auto; apply Rmin_case; [apply cond_pos|lra]|]. intros b h Hh q Hq.
    assert (A1 : Rabs h < d1) by (eapply Rlt_le_trans; [exact Hh|apply Rmin_l]).
    assert (A2 : Rabs h < d2) by (eapply Rlt_le_trans; [exact Hh|eapply Rle_trans; [apply Rmin_r|apply Rmin_l]]).
    assert (A3 : Rabs h < m / 2) by (eapply Rlt_le_trans; [exact Hh|eapply Rle_trans; [apply Rmin_r|apply Rmin_r]]).
    destruct (Nat.eq_dec q n) as [->|Hne]; [|apply H1; auto; lia].
    pose proof (tt_in b). apply Rabs_def2 in A3. apply H2; [lra|lra|]. replace (tt b + h - tt b) with h by ring. exact A2. }
  apply G; auto.
Qed.
Lemma tHKb : forall q, (q < d)%nat -> GOrder.Oh (tbase * R) snd 0 (fun i => tK (fst i) (snd i) q).
Proof.
  intros q Hq. destruct tHT as (T & HT). destruct (utaylor_bounded _ _ _ _ _ _ _ _ HT) as (B & d1 & Hd1 & H1).
  destruct tHK as (d2 & Hd2 & H2). destruct (tY_unif d1 Hd1) as (d3 & Hd3 & H3).
  apply (Oh0_of _ _ _ B (Rmin d1 (Rmin d2 d3))); [apply Rmin_case; auto; apply Rmin_case; auto|]. intros (b & h) Hh. cbn [fst snd] in *.
  assert (A1 : Rabs h < d1) by (eapply Rlt_le_trans; [exact Hh|apply Rmin_l]).
  assert (A2 : Rabs h < d2) by (eapply Rlt_le_trans; [exact Hh|eapply Rle_trans; [apply Rmin_r|apply Rmin_l]]).
  assert (A3 : Rabs h < d3) by (eapply Rlt_le_trans; [exact Hh|eapply Rle_trans; [apply Rmin_r|apply Rmin_r]]).
  rewrite (H2 b h A2 q Hq). apply (H1 (b, h)); auto. cbn [fst snd]. intros j Hj.
  replace (exact_arg false true ell1 pu1 (pvd d) (tYV b) (fun _ _ => 0) h j) with (pt (tt b + h) (Y (tt b + h)) j - pt (tt b) (Y (tt b)) j)
    by (rewrite <- (texact_arg b h j Hj); ring).
  unfold pt. destruct j as [|j]; simpl.
  - replace (tt b + h - tt b) with h by ring. exact A1.
  - apply H3; auto. lia.
Qed.

(** the solution of the stage equations from points of the trajectory *)
Definition tks (b : tbase) (h : R) : list (list R) :=
  match Rle_dec (Rabs h * (INR s * (Rabs W * L))) (1/2) with
  | left H => solution_stages d s A c F W L HL HWA (tt b) h (Y (tt b)) H
  | right _ => []
  end.
Definition tk (l : nat) (i : tbase * R) (q : nat) : R := nth q (nth l (tks (fst i) (snd i)) []) 0.
Definition hsmall : R := 1 / (2 * (INR s * (Rabs W * L)) + 1).
Lemma hsmall_pos : 0 < hsmall.
Proof. unfold hsmall. apply Rdiv_lt_0_compat; [lra|]. assert (0 <= INR s * (Rabs W * L)) by (apply Rmult_le_pos; [apply pos_INR|apply Rmult_le_pos; [apply Rabs_pos|auto]]). lra. Qed.
Lemma hsmall_small h : Rabs h < hsmall -> small_step s W L h.
Proof.
  intros Hh. unfold small_step, hsmall in *. assert (P : 0 <= INR s * (Rabs W * L)) by (apply Rmult_le_pos; [apply pos_INR|apply Rmult_le_pos; [apply Rabs_pos|auto]]).
  set (x := INR s * (Rabs W * L)) in *. apply Rmult_lt_compat_r with (r := 2 * x + 1) in Hh; [|lra]. replace (1 / (2 * x + 1) * (2 * x + 1)) with 1 in Hh by (field; lra).
  pose proof (Rabs_pos h). nra.
Qed.
Lemma tks_within b h : Rabs h < hsmall -> stages_within d s A c F (tt b) h (Y (tt b)) 0 (tks b h).
Proof.
  intros Hh. apply hsmall_small in Hh. unfold tks. destruct (Rle_dec (Rabs h * (INR s * (Rabs W * L))) (1/2)) as [H|H]; [apply solution_within|contradiction].
Qed.
Lemma tHk : exists del, 0 < del /\ forall i : tbase * R, Rabs (snd i) < del -> forall l q, (l < s)%nat -> (q < d)%nat ->
  tk l i q = fo F d (fun j => pt (tt (fst i)) (Y (tt (fst i))) j
    + ustage_arg (tbase * R) snd false true (fun i => (fun _ : tbase => ell1) (fst i)) pu1 (pvd d) s (fun i => (fun (_ : tbase) _ _ => 0) (fst i)) (fun i => (fun _ : tbase => A) (fst i)) (fun i => (fun _ : tbase => c) (fst i)) tk l i j) q.
Proof.
  exists hsmall. split; [apply hsmall_pos|]. intros (b & h) Hh l q Hl Hq. cbn [fst snd] in *.
  pose proof (tks_within b h Hh l q Hl Hq) as E. unfold tk at 1. cbn [fst snd].
  match type of E with Rabs (?a - ?b) <= 0 => assert (E' : a = b) by (apply Rminus_diag_uniq; destruct (Req_dec (a - b) 0) as [|Z]; [auto|apply Rabs_pos_lt in Z; lra]) end.
  rewrite E'. unfold fo. f_equal. pose proof (Y_len d F lo hi Y HY _ (tt_in b)) as HLn. f_equal.
  - unfold ustage_arg, pt, opt0, inj. cbn [fst snd nth ell1 pvd]. rewrite (rsum_zero s) by (intros; ring). ring.
  - unfold rpoint. apply map_ext_in. intros j Hj. apply in_seq in Hj. unfold ustage_arg, pt, opt0, inj. cbn [fst snd nth ell1 pvd].
    destruct (Nat.ltb_spec j d); [|lia]. rewrite Rmult_0_r, Rmult_0_r, !Rplus_0_l. reflexivity.
Qed.
(** they are bounded *)
Lemma tks_bound : exists B del, 0 <= B /\ 0 < del /\ forall b h, Rabs h < del -> forall l q, (l < s)%nat -> (q < d)%nat -> Rabs (nth q (nth l (tks b h) []) 0) <= B.
Proof.
  destruct tHT as (T & HT). destruct (utaylor_bounded _ _ _ _ _ _ _ _ HT) as (B & d1 & Hd1 & H1).
  pose proof hsmall_pos. pose proof (Rabs_pos W) as HWp. set (d2 := d1 / (Rabs W + 1)). assert (Hd2 : 0 < d2) by (apply Rdiv_lt_0_compat; lra).
  exists (2 * Rabs B), (Rmin d1 (Rmin d2 hsmall)). split; [pose proof (Rabs_pos B); lra|]. split; [repeat apply Rmin_case; auto|]. intros b h Hh.
  assert (A1 : Rabs h < d1) by (eapply Rlt_le_trans; [exact Hh|apply Rmin_l]).
  assert (A2 : Rabs h < d2) by (eapply Rlt_le_trans; [exact Hh|eapply Rle_trans; [apply Rmin_r|apply Rmin_l]]).
  assert (A3 : Rabs h < hsmall) by (eapply Rlt_le_trans; [exact Hh|eapply Rle_trans; [apply Rmin_r|apply Rmin_r]]).
  pose proof (tks_within b h A3) as HT1. pose proof (hsmall_small h A3) as Hsm. unfold small_step in Hsm. set (ks := tks b h) in *. clearbody ks.
  destruct (largest (fun i q => nth q (nth i ks []) 0) s d) as (K & HK & HK1 & HK2). cbv beta in *.
  destruct HK2 as [E|(i0 & q0 & Hi0 & Hq0 & E)].
  - intros l q Hl Hq. eapply Rle_trans; [apply HK1; auto|]. pose proof (Rabs_pos B). lra.
  - pose proof (Y_len d F lo hi Y HY _ (tt_in b)) as HLn.
    assert (X0 : Rabs (nth q0 (F (tt b + c i0 * h) (Y (tt b))) 0) <= Rabs B).
    { assert (E3 : nth q0 (F (tt b + c i0 * h) (Y (tt b))) 0 = fo F d (fun j => pt (tt b) (Y (tt b)) j + match j with O => c i0 * h | S _ => 0 end) q0).
      { unfold fo, pt. cbn [nth]. f_equal. f_equal. rewrite <- (map_seq_nth d (Y (tt b)) HLn) at 1. apply map_ext. intros j. ring. }
      rewrite E3. eapply Rle_trans; [|apply Rle_abs]. apply (H1 (b, h)); auto. cbn [fst snd].
      intros [|j] _; [|rewrite Rabs_R0; exact Hd1]. rewrite Rabs_mult.
      assert (Rabs (c i0) <= Rabs W) by (eapply Rle_trans; [apply HWc; auto|apply Rle_abs]).
      unfold d2 in A2. apply Rmult_lt_compat_r with (r := Rabs W + 1) in A2; [|lra]. replace (d1 / (Rabs W + 1) * (Rabs W + 1)) with d1 in A2 by (field; lra).
      pose proof (Rabs_pos h). nra. }
    assert (X1 : close d (rpoint d (Y (tt b)) h (lcomb s (A i0) ks)) (Y (tt b)) (Rabs h * (INR s * (Rabs W * K)))).
    { intros q Hq. unfold rpoint. rewrite nth_map_seq by auto. match goal with |- Rabs (?a + ?b - ?a) <= _ => replace (a + b - a) with b by ring end. rewrite Rabs_mult.
      apply Rmult_le_compat_l; [apply Rabs_pos|]. apply lcomb_bound; [|intros; apply HK1; auto]. intros l Hl. eapply Rle_trans; [apply HWA; auto|apply Rle_abs]. }
    pose proof (HL (tt b + c i0 * h) _ _ _ (rpoint_length _ _ _ _) HLn X1 q0 Hq0) as X2. pose proof (HT1 i0 q0 Hi0 Hq0) as X3.
    set (u := nth q0 (F (tt b + c i0 * h) (rpoint d (Y (tt b)) h (lcomb s (A i0) ks))) 0) in *. set (v := nth q0 (F (tt b + c i0 * h) (Y (tt b))) 0) in *. set (a := nth q0 (nth i0 ks []) 0) in *.
    assert (P : L * (Rabs h * (INR s * (Rabs W * K))) <= 1/2 * K).
    { replace (L * (Rabs h * (INR s * (Rabs W * K)))) with ((Rabs h * (INR s * (Rabs W * L))) * K) by ring. apply Rmult_le_compat_r; auto. }
    assert (X4 : Rabs a <= Rabs (a - u) + Rabs (u - v) + Rabs v). { replace a with ((a - u) + (u - v) + v) at 1 by ring. eapply Rle_trans; [apply Rabs_triang|]. pose proof (Rabs_triang (a - u) (u - v)). lra. }
    intros l q Hl Hq. eapply Rle_trans; [apply HK1; auto|]. lra.
Qed.
Lemma tkb : forall l q, (l < s)%nat -> (q < d)%nat -> GOrder.Oh (tbase * R) snd 0 (fun i => tk l i q).
Proof.
  intros l q Hl Hq. destruct tks_bound as (B & del & _ & Hd & H). apply (Oh0_of _ _ _ B del); auto. intros (b & h) Hh. apply H; auto.
Qed.
Lemma ilocal_q q : (q < d)%nat -> exists C del, 0 <= C /\ 0 < del /\ forall (b : tbase) h, Rabs h < del ->
  Rabs (nth q (Y (tt b)) 0 + h * lcomb s bb (tks b h) q - nth q (Y (tt b + h)) 0) <= C * (eps * Rabs h + Rabs h ^ S p).
Proof.
  intros Hq. destruct tHT as (T & HT).
  destruct (u_order_V tbase false true (S d) d p T (fun _ => ell1) (fun j _ => GOrder.Oh_const _ _ (ell1 j)) pu1 (pvd d) (pud_lt d) (pvd_lt d) (fo F d) (fun b => pt (tt b) (Y (tt b))) HT
    tK tYV (fun _ _ _ => 0) tHYV ltac:(discriminate) tHKb tHK s (fun _ _ _ => 0) (fun _ => A) (fun _ => c) (Rabs W)) with (k := tk) (b := fun b : tbase => bb) (eps := fun b : tbase => eps) (m := p) (q := q) as (C & del & HC & Hd & H).
  - intros. rewrite Rabs_R0. apply Rabs_pos.
  - intros b l l' Hl Hl'. eapply Rle_trans; [apply HWA; auto|apply Rle_abs].
  - intros b l Hl. eapply Rle_trans; [apply HWc; auto|apply Rle_abs].
  - exact tkb.
  - exact tHk.
  - intros b l Hl. eapply Rle_trans; [apply HWb; auto|apply Rle_abs].
  - intros b. exact Heps.
  - exact Hq.
  - apply le_n.
  - intros b. exact Horder.
  - exists C, del. split; auto. split; auto. intros b h Hh. specialize (H b h Hh). unfold tYV, tk in H. cbn [fst snd] in H. rewrite Rplus_0_r in H.
    unfold lcomb. match goal with |- Rabs (?y + ?a - ?b) <= _ => replace (y + a - b) with (a - (b - y)) by ring end. exact H.
Qed.
(** every step from a point near the trajectory *)
Lemma istep_error : exists C del, 0 <= C /\ 0 < del /\ forall t h y e dl ks, lo <= t <= hi -> Rabs h < del -> 0 <= e -> close d y (Y t) e -> stages_within d s A c F t h y dl ks -> 0 <= dl ->
  close d (rpoint d y h (lcomb s bb ks)) (Y (t + h)) ((1 + Rabs h * (INR s * (Rabs W * (2 * L)))) * e + Rabs h * (INR s * (Rabs W * (2 * dl))) + C * (eps * Rabs h + Rabs h ^ S p)).
Proof.
  assert (G : forall n, (n <= d)%nat -> exists C del, 0 <= C /\ 0 < del /\ forall (b : tbase) h, Rabs h < del ->
    forall q, (q < n)%nat -> Rabs (nth q (Y (tt b)) 0 + h * lcomb s bb (tks b h) q - nth q (Y (tt b + h)) 0) <= C * (eps * Rabs h + Rabs h ^ S p)).
  { induction n as [|n IH]; intros Hn; [exists 0, 1; split; [lra|]; split; [lra|]; intros; lia|].
    destruct IH as (C1 & d1 & HC1 & Hd1 & H1); [lia|]. destruct (ilocal_q n ltac:(lia)) as (C2 & d2 & HC2 & Hd2 & H2).
    exists (C1 + C2), (Rmin d1 d2). split; [lra|]. split; [apply Rmin_case; auto|]. intros b h Hh q Hq.
    assert (A1 : Rabs h < d1) by (eapply Rlt_le_trans; [exact Hh|apply Rmin_l]).
    assert (A2 : Rabs h < d2) by (eapply Rlt_le_trans; [exact Hh|apply Rmin_r]).
    assert (P : 0 <= eps * Rabs h + Rabs h ^ S p).
    { apply Rplus_le_le_0_compat; [apply Rmult_le_pos; [auto|apply Rabs_pos]|apply pow_le, Rabs_pos]. }
    rewrite Rmult_plus_distr_r.
    assert (P1 : 0 <= C1 * (eps * Rabs h + Rabs h ^ S p)) by (apply Rmult_le_pos; auto).
    assert (P2 : 0 <= C2 * (eps * Rabs h + Rabs h ^ S p)) by (apply Rmult_le_pos; auto).
    destruct (Nat.eq_dec q n) as [->|Hne]; [specialize (H2 b h A2); lra|]. specialize (H1 b h A1 q ltac:(lia)). lra. }
  destruct (G d (le_n d)) as (C & del & HC & Hd & H1). exists C, (Rmin del hsmall). split; [auto|]. split; [apply Rmin_case; [auto|apply hsmall_pos]|].
  intros t h y e dl ks Ht Hh He Hy HK Hdl q Hq. pose (b := exist (fun t => lo <= t <= hi) t Ht : tbase).
  assert (A1 : Rabs h < del) by (eapply Rlt_le_trans; [exact Hh|apply Rmin_l]).
  assert (A2 : Rabs h < hsmall) by (eapply Rlt_le_trans; [exact Hh|apply Rmin_r]).
  specialize (H1 b h A1 q Hq). pose proof (tks_within b h A2) as HT2. change (tt b) with t in H1, HT2. revert H1 HT2. generalize (tks b h) as kk. intros kk H1 HT2.
  pose proof (stages_apart d s A c F W L HL0 HL HWA t h y (Y t) ks kk e dl (hsmall_small h A2) He Hy HK HT2) as HD.
  unfold rpoint. rewrite nth_map_seq by auto.
  match goal with |- Rabs (?a + h * ?x - ?z) <= _ => replace (a + h * x - z) with ((a - nth q (Y t) 0) + h * (x - lcomb s bb kk q) + (nth q (Y t) 0 + h * lcomb s bb kk q - z)) by ring end.
  eapply Rle_trans; [apply Rabs_triang|]. apply Rplus_le_compat; [|exact H1].
  eapply Rle_trans; [apply Rabs_triang|]. specialize (Hy q Hq). rewrite Rabs_mult.
  assert (CD : Rabs (lcomb s bb ks q - lcomb s bb kk q) <= INR s * (Rabs W * (2 * (L * e + dl)))).
  { apply lcomb_diff; [|intros; apply HD; auto]. intros i Hi. eapply Rle_trans; [apply HWb; auto|apply Rle_abs]. }
  apply (Rmult_le_compat_l _ _ _ (Rabs_pos h)) in CD. lra.
Qed.

(** ** the dense output of a step *)
Lemma idense_q (b : R -> nat -> R) eb q : wbounded s b -> 0 <= eb -> dense_V false true s (fun _ _ => 0) A c eb b p -> (q < d)%nat ->
  exists C del, 0 <= C /\ 0 < del /\ forall (x : tbase) th h, 0 <= th <= 1 -> Rabs h < del ->
  Rabs (nth q (Y (tt x)) 0 + h * lcomb s (b th) (tks x h) q - nth q (Y (tt x + th * h)) 0) <= C * (eb * Rabs h + Rabs h ^ S p).
Proof.
  intros Hw Heb HO Hq. destruct tHT as (T & HT).
  destruct (u_dense_V tbase false true (S d) d p T (fun _ => ell1) (fun j _ => GOrder.Oh_const _ _ (ell1 j)) pu1 (pvd d) (pud_lt d) (pvd_lt d) (fo F d) (fun b => pt (tt b) (Y (tt b))) HT
    tK tYV (fun _ _ _ => 0) tHYV ltac:(discriminate) tHKb tHK s (fun _ _ _ => 0) (fun _ => A) (fun _ => c) (Rabs W)) with (k := tk) (b := b) (eps := eb) (m := p) (q := q) as (C & del & HC & Hd & H).
  - intros. rewrite Rabs_R0. apply Rabs_pos.
  - intros x l l' Hl Hl'. eapply Rle_trans; [apply HWA; auto|apply Rle_abs].
  - intros x l Hl. eapply Rle_trans; [apply HWc; auto|apply Rle_abs].
  - exact tkb.
  - exact tHk.
  - exact Hw.
  - exact Heb.
  - exact Hq.
  - apply le_n.
  - intros x. exact HO.
  - exists C, del. split; auto. split; auto. intros x th h Hth Hh. specialize (H x th h Hth Hh). unfold tYV, tk in H. cbn [fst snd] in H. rewrite Rplus_0_r in H.
    unfold lcomb. match goal with |- Rabs (?y + ?a - ?b) <= _ => replace (y + a - b) with (a - (b - y)) by ring end. exact H.
Qed.
Lemma idense_error (b : R -> nat -> R) eb : wbounded s b -> 0 <= eb -> dense_V false true s (fun _ _ => 0) A c eb b p ->
  exists C del, 0 <= C /\ 0 < del /\ forall t h y e dl ks th, lo <= t <= hi -> Rabs h < del -> 0 <= e -> close d y (Y t) e -> stages_within d s A c F t h y dl ks -> 0 <= dl -> 0 <= th <= 1 ->
  close d (rpoint d y h (lcomb s (b th) ks)) (Y (t + th * h)) (C * (e + Rabs h * dl + eb * Rabs h + Rabs h ^ S p)).
Proof.
  intros Hw Heb HO.
  assert (G : forall n, (n <= d)%nat -> exists C del, 0 <= C /\ 0 < del /\ forall (x : tbase) th h, 0 <= th <= 1 -> Rabs h < del ->
    forall q, (q < n)%nat -> Rabs (nth q (Y (tt x)) 0 + h * lcomb s (b th) (tks x h) q - nth q (Y (tt x + th * h)) 0) <= C * (eb * Rabs h + Rabs h ^ S p)).
  { induction n as [|n IH]; intros Hn; [exists 0, 1; split; [lra|]; split; [lra|]; intros; lia|].
    destruct IH as (C1 & d1 & HC1 & Hd1 & H1); [lia|]. destruct (idense_q b eb n Hw Heb HO ltac:(lia)) as (C2 & d2 & HC2 & Hd2 & H2).
    exists (C1 + C2), (Rmin d1 d2). split; [lra|]. split; [apply Rmin_case; auto|]. intros x th h Hth Hh q Hq.
    assert (A1 : Rabs h < d1) by (eapply Rlt_le_trans; [exact Hh|apply Rmin_l]).
    assert (A2 : Rabs h < d2) by (eapply Rlt_le_trans; [exact Hh|apply Rmin_r]).
    assert (P : 0 <= eb * Rabs h + Rabs h ^ S p).
    { apply Rplus_le_le_0_compat; [apply Rmult_le_pos; [auto|apply Rabs_pos]|apply pow_le, Rabs_pos]. }
    rewrite Rmult_plus_distr_r.
    assert (P1 : 0 <= C1 * (eb * Rabs h + Rabs h ^ S p)) by (apply Rmult_le_pos; auto).
    assert (P2 : 0 <= C2 * (eb * Rabs h + Rabs h ^ S p)) by (apply Rmult_le_pos; auto).
    destruct (Nat.eq_dec q n) as [->|Hne]; [specialize (H2 x th h Hth A2); lra|]. specialize (H1 x th h Hth A1 q ltac:(lia)). lra. }
  destruct (G d (le_n d)) as (C & del & HC & Hd & H1). destruct Hw as (Bw & HBw & Hw).
  set (w := INR s * (Bw * 2)). assert (Hw0 : 0 <= w) by (unfold w; apply Rmult_le_pos; [apply pos_INR|lra]).
  exists (C + 1 + w * L * hsmall + w), (Rmin del hsmall). pose proof hsmall_pos as Hsm.
  assert (K0 : 0 <= w * L * hsmall) by (apply Rmult_le_pos; [apply Rmult_le_pos; auto|lra]).
  split; [lra|]. split; [apply Rmin_case; auto|].
  intros t h y e dl ks th Ht Hh He Hy HK Hdl Hth q Hq. pose (x := exist (fun t => lo <= t <= hi) t Ht : tbase).
  assert (A1 : Rabs h < del) by (eapply Rlt_le_trans; [exact Hh|apply Rmin_l]).
  assert (A2 : Rabs h < hsmall) by (eapply Rlt_le_trans; [exact Hh|apply Rmin_r]).
  specialize (H1 x th h Hth A1 q Hq). pose proof (tks_within x h A2) as HT2. change (tt x) with t in H1, HT2. revert H1 HT2. generalize (tks x h) as kk. intros kk H1 HT2.
  pose proof (stages_apart d s A c F W L HL0 HL HWA t h y (Y t) ks kk e dl (hsmall_small h A2) He Hy HK HT2) as HD.
  unfold rpoint. rewrite nth_map_seq by auto.
  match goal with |- Rabs (?a + h * ?x - ?z) <= _ => replace (a + h * x - z) with ((a - nth q (Y t) 0) + h * (x - lcomb s (b th) kk q) + (nth q (Y t) 0 + h * lcomb s (b th) kk q - z)) by ring end.
  assert (CD : Rabs (lcomb s (b th) ks q - lcomb s (b th) kk q) <= w * (L * e + dl)).
  { replace (w * (L * e + dl)) with (INR s * (Bw * (2 * (L * e + dl)))) by (unfold w; ring). apply lcomb_diff; [|intros; apply HD; auto]. intros i Hi. apply Hw; auto. }
  clearbody w. set (a := Rabs h) in *. assert (Ha : 0 <= a) by apply Rabs_pos. set (P := eb * a + a ^ S p) in *.
  assert (HP : 0 <= P) by (unfold P; apply Rplus_le_le_0_compat; [apply Rmult_le_pos; auto|apply pow_le; auto]).
  eapply Rle_trans; [apply Rabs_triang|]. apply Rle_trans with ((e + a * (w * (L * e + dl))) + C * P).
  - apply Rplus_le_compat; [|exact H1]. eapply Rle_trans; [apply Rabs_triang|]. apply Rplus_le_compat; [apply Hy; auto|]. rewrite Rabs_mult. apply Rmult_le_compat_l; auto.
  - assert (Q1 : a * (w * (L * e)) <= w * L * hsmall * e).
    { replace (a * (w * (L * e))) with ((w * L * e) * a) by ring. replace (w * L * hsmall * e) with ((w * L * e) * hsmall) by ring. apply Rmult_le_compat_l; [repeat apply Rmult_le_pos; auto|lra]. }
    assert (Had : 0 <= a * dl) by (apply Rmult_le_pos; auto).
    replace (e + a * dl + eb * a + a ^ S p) with (e + a * dl + P) by (unfold P; ring).
    assert (Q2 : 0 <= C * (e + a * dl)) by (apply Rmult_le_pos; [auto|lra]). assert (Q3 : 0 <= (1 + w * L * hsmall + w) * P) by (apply Rmult_le_pos; [lra|auto]).
    assert (Q4 : 0 <= (1 + w * L * hsmall) * (a * dl)) by (apply Rmult_le_pos; [lra|auto]). assert (Q5 : 0 <= w * e) by (apply Rmult_le_pos; auto).
    replace ((C + 1 + w * L * hsmall + w) * (e + a * dl + P)) with (C * (e + a * dl) + (1 + w * L * hsmall + w) * P + C * P + (1 + w * L * hsmall) * (a * dl) + w * e + (1 + w * L * hsmall) * e + w * (a * dl)) by ring.
    replace (a * (w * (L * e + dl))) with (a * (w * (L * e)) + w * (a * dl)) by ring. lra.
Qed.

(** ** the global error *)
Theorem global_error_irk : (0 < p)%nat -> exists C del, 0 <= C /\ 0 < del /\ forall H dl ta t y, 0 <= H < del -> 0 <= dl -> lo <= ta <= hi ->
  ipath d s A bb c F lo hi Y H dl ta t y -> length y = d /\ lo <= t <= hi /\ close d y (Y t) (C * (eps + dl + H ^ p)).
Proof.
  intros Hp. destruct istep_error as (C1 & del & HC1 & Hdel & Hstep).
  set (w2 := INR s * (Rabs W * 2)). assert (Hw2 : 0 <= w2) by (unfold w2; apply Rmult_le_pos; [apply pos_INR|]; pose proof (Rabs_pos W); lra).
  set (Lam := INR s * (Rabs W * (2 * L))). assert (HLam : 0 <= Lam) by (unfold Lam; pose proof (pos_INR s); pose proof (Rabs_pos W); repeat apply Rmult_le_pos; lra).
  set (Xx := Rabs (hi - lo)). assert (HX : 0 <= Xx) by apply Rabs_pos.
  set (G := Xx * exp (Lam * Xx)). assert (HG : 0 <= G) by (apply Rmult_le_pos; [auto|left; apply exp_pos]).
  exists ((C1 + w2) * G), del. split; [apply Rmult_le_pos; lra|]. split; [auto|].
  intros H dl ta t y (H0 & HH) Hdl Hta HP.
  set (eta := (C1 + w2) * (eps + dl + H ^ p)).
  assert (HHp : 0 <= H ^ p) by (apply pow_le; auto).
  assert (Heta : 0 <= eta) by (unfold eta; apply Rmult_le_pos; lra).
  assert (HXm : forall u, lo <= u <= hi -> Rabs (u - ta) * exp (Lam * Rabs (u - ta)) <= G).
  { intros u Hu. assert (HA : Rabs (u - ta) <= Xx).
    { unfold Xx. rewrite (Rabs_pos_eq (hi - lo)) by lra. apply Rabs_le. lra. }
    apply Rmult_le_compat; [apply Rabs_pos|left; apply exp_pos|auto|].
    destruct (Rmult_le_compat_l Lam _ _ HLam HA) as [E|E]; [left; apply exp_increasing; auto|rewrite E; right; auto]. }
  assert (Q : length y = d /\ lo <= t <= hi /\ close d y (Y t) (eta * (Rabs (t - ta) * exp (Lam * Rabs (t - ta))))).
  2:{ destruct Q as (Q1 & Q2 & Q3). split; [auto|]. split; [auto|]. eapply close_le; [exact Q3|].
      replace ((C1 + w2) * G * (eps + dl + H ^ p)) with (eta * G) by (unfold eta; ring). apply Rmult_le_compat_l; [lra|]. apply HXm; auto. }
  induction HP as [|t y t' ks HP IH Ht' Hsg Hst' HK].
  - split; [apply (Y_len d F lo hi Y HY); auto|]. split; [auto|]. apply close_refl.
    apply Rmult_le_pos; [lra|]. apply Rmult_le_pos; [apply Rabs_pos|left; apply exp_pos].
  - destruct IH as (IH1 & IH2 & IH3). split; [apply rpoint_length|]. split; [auto|].
    set (h := t' - t) in *. set (x := Rabs (t - ta)) in *.
    assert (Hx : 0 <= x) by apply Rabs_pos. assert (Hh : 0 <= Rabs h) by apply Rabs_pos.
    set (e := eta * (x * exp (Lam * x))) in *.
    assert (He : 0 <= e) by (unfold e; apply Rmult_le_pos; [lra|]; apply Rmult_le_pos; [auto|left; apply exp_pos]).
    pose proof (Hstep t h y e dl ks IH2 ltac:(lra) He IH3 HK Hdl) as S1. replace (t + h) with t' in S1 by (unfold h; ring).
    eapply close_le; [exact S1|]. fold Lam.
    assert (Hx' : Rabs (t' - ta) = x + Rabs h).
    { unfold x. replace (t' - ta) with ((t - ta) + h) by (unfold h; ring).
      destruct (Rle_dec 0 (t - ta)) as [P|P].
      - destruct (Rle_lt_or_eq_dec _ _ P) as [P'|P'].
        + assert (0 <= h) by (destruct (Rle_dec 0 h); auto; exfalso; nra). rewrite !Rabs_pos_eq; lra.
        + rewrite <- P', Rplus_0_l, Rabs_R0. lra.
      - assert (h <= 0) by (destruct (Rle_dec h 0); auto; exfalso; nra). rewrite !Rabs_left1; lra. }
    rewrite Hx'. set (a := Rabs h) in *.
    assert (L1 : a * (INR s * (Rabs W * (2 * dl))) + C1 * (eps * a + a ^ S p) <= eta * a).
    { replace (a * (INR s * (Rabs W * (2 * dl)))) with (w2 * dl * a) by (unfold w2; ring). cbn [pow]. assert (Hap : a ^ p <= H ^ p) by (apply pow_incr; auto).
      assert (Y1 : C1 * (eps * a + a * a ^ p) <= C1 * (eps + H ^ p) * a).
      { rewrite Rmult_assoc. apply Rmult_le_compat_l; [auto|]. nra. }
      assert (Y2 : 0 <= (C1 * dl + w2 * (eps + H ^ p)) * a). { apply Rmult_le_pos; [|auto]. apply Rplus_le_le_0_compat; apply Rmult_le_pos; lra. }
      unfold eta. replace ((C1 + w2) * (eps + dl + H ^ p) * a) with (C1 * (eps + H ^ p) * a + w2 * dl * a + (C1 * dl + w2 * (eps + H ^ p)) * a) by ring. lra. }
    assert (E1 : 1 + a * Lam <= exp (Lam * a)) by (rewrite (Rmult_comm a); apply exp_ineq1_le).
    assert (E2 : exp (Lam * (x + a)) = exp (Lam * x) * exp (Lam * a)) by (rewrite <- exp_plus; f_equal; ring).
    assert (E3 : 1 <= exp (Lam * (x + a))).
    { eapply Rle_trans; [|apply exp_ineq1_le]. assert (0 <= Lam * (x + a)) by (apply Rmult_le_pos; lra). lra. }
    apply Rle_trans with (exp (Lam * a) * e + eta * a).
    { rewrite Rplus_assoc. apply Rplus_le_compat; [apply Rmult_le_compat_r; lra|exact L1]. }
    replace (eta * ((x + a) * exp (Lam * (x + a)))) with (exp (Lam * a) * e + eta * (a * exp (Lam * (x + a)))).
    2:{ unfold e. rewrite E2. ring. }
    apply Rplus_le_compat_l. apply Rmult_le_compat_l; [lra|]. nra.
Qed.
End LocalI.
