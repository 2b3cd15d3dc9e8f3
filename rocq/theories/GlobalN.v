(** Global error of explicit Runge-Kutta-Nystrom methods for x'' = G(t, x, x') on a whole interval;
    the state is the list x ++ x' of 2 n reals. *)
From Coq Require Import Reals Lra Psatz Lia List Arith Bool.
From Verif Require Import Series Trees OrderThm OrderCheck OrderRK OrderRKN GOrder UOrder UOrder2 Smooth GlobalRK GlobalPoly.
Import ListNotations.
Open Scope R_scope.

(** ** specification *)
(** Y = (X, X') solves x'' = G(t, x, x') on an open interval containing [lo, hi] *)
Definition solution2_on (n : nat) (G : R -> list R -> list R) (lo hi : R) (Y : R -> list R) : Prop :=
  exists m, 0 < m /\ forall t, lo - m < t < hi + m -> length (Y t) = (n + n)%nat /\
    forall q, (q < n)%nat -> derivable_pt_lim (fun x => nth q (Y x) 0) t (nth (n + q) (Y t) 0) /\
      derivable_pt_lim (fun x => nth (n + q) (Y x) 0) t (nth q (G t (Y t)) 0).
(** G has Taylor expansions of order p at every point (t, Y t) of the trajectory, with
    coefficients and remainder constants that do not depend on t *)
Definition smooth2_along (p n : nat) (G : R -> list R -> list R) (lo hi : R) (Y : R -> list R) : Prop :=
  exists (T : R -> nat -> list nat -> R) (C M del : R), 0 < del /\ forall t q, lo <= t <= hi -> (q < n)%nat ->
    (forall js, (length js < p)%nat -> Forall (fun j => (j < S (n + n))%nat) js -> Rabs (T t q js) <= M) /\
    forall z : nat -> R, (forall j, (j < S (n + n))%nat -> Rabs (z j) < del) ->
      Rabs (fo G (n + n) (fun j => pt t (Y t) j + z j) q
            - rsum p (fun m => lsum (idx (S (n + n)) m) (fun js => T t q js * fold_right (fun j pr => z j * pr) 1 js)))
      <= C * rsum (S (n + n)) (fun j => Rabs (z j)) ^ p.
(** G is Lipschitz continuous in (x, x'), with the same constant, in boxes of the same size around all
    points (t, Y t) of the trajectory *)
Definition lipschitz2_near (n : nat) (G : R -> list R -> list R) (lo hi : R) (Y : R -> list R) (L r : R) : Prop :=
  0 <= L /\ 0 < r /\ forall t s u v e, lo <= t <= hi -> Rabs (s - t) <= r ->
    length u = (n + n)%nat -> length v = (n + n)%nat -> close (n + n) u (Y t) r -> close (n + n) v (Y t) r -> close (n + n) u v e ->
    close n (G s u) (G s v) (L * e).
Definition lipschitz2_along (n : nat) (G : R -> list R -> list R) (lo hi : R) (Y : R -> list R) : Prop :=
  exists L r, lipschitz2_near n G lo hi Y L r.
Definition lipschitz2_global (n : nat) (G : R -> list R -> list R) : Prop :=
  exists L, 0 <= L /\ forall s u v e, length u = (n + n)%nat -> length v = (n + n)%nat -> close (n + n) u v e -> close n (G s u) (G s v) (L * e).

(** the first order system *)
Definition sys2 (n : nat) (G : R -> list R -> list R) (t : R) (y : list R) : list R := skipn n y ++ G t y.
Lemma nth_skipn_R n : forall (l : list R) q, nth q (skipn n l) 0 = nth (n + q) l 0.
Proof. induction n as [|n IH]; intros l q; [reflexivity|]. destruct l; [destruct q; reflexivity|]. apply IH. Qed.
Lemma sys2_solution n G lo hi Y : solution2_on n G lo hi Y -> solution_on (n + n) (sys2 n G) lo hi Y.
Proof.
  intros (m & Hm & H). exists m. split; [auto|]. intros t Ht. destruct (H t Ht) as (HL & H1). split; [auto|]. intros q Hq.
  assert (LS : length (skipn n (Y t)) = n) by (rewrite skipn_length; lia).
  unfold sys2. destruct (lt_dec q n) as [Hn|Hn].
  - rewrite app_nth1 by lia. rewrite nth_skipn_R. apply H1; auto.
  - rewrite app_nth2 by lia. rewrite LS. destruct (H1 (q - n)%nat ltac:(lia)) as (_ & H2). replace (n + (q - n))%nat with q in H2 by lia. exact H2.
Qed.
Lemma solution2_at n G lo hi Y t : solution2_on n G lo hi Y -> lo <= t <= hi -> solves2 n G t (Y t) Y.
Proof.
  intros (m & Hm & H) Ht. split; [reflexivity|]. exists m. split; [auto|]. intros x Hx. apply Rabs_def2 in Hx. apply H. lra.
Qed.

Lemma pv2_lt' n j q : pv2 n j = Some q -> (q < n)%nat.
Proof. intros H. refine (pv2_lt n (repeat 0 (n + n)) (repeat_length _ _) j q H). Qed.
Section Local.
Variables (uV : bool) (n p : nat) (G : R -> list R -> list R) (lo hi : R) (Y : R -> list R).
Hypothesis Hvf : uV = false -> velocity_free n G.
Hypothesis HY : solution2_on n G lo hi Y.
Hypothesis HS : smooth2_along p n G lo hi Y.

Definition base2 : Type := {t : R | lo <= t <= hi}.
Definition bt2 (b : base2) : R := proj1_sig b.
Lemma bt2_in b : lo <= bt2 b <= hi.
Proof. destruct b as [t Ht]. exact Ht. Qed.
Lemma Y_len2 t : lo <= t <= hi -> length (Y t) = (n + n)%nat.
Proof. intros H. destruct HY as (m & Hm & HY'). apply HY'. lra. Qed.
Lemma Y_unif2 eps : 0 < eps -> exists del, 0 < del /\ forall t h, lo <= t <= hi -> Rabs h < del -> forall q, (q < n + n)%nat ->
  Rabs (nth q (Y (t + h)) 0 - nth q (Y t) 0) < eps.
Proof.
  intros He. destruct (Y_unif (n + n) 0 (sys2 n G) lo hi Y (sys2_solution _ _ _ _ _ HY) 0 0 eps He) as (del & Hd & H).
  exists del. split; [auto|]. intros t h Ht.
  assert (M : method 0 0 0).
  { apply (Build_method 0 0 0 (fun _ _ => 0) (fun _ => 0) (fun _ => 0) 0); try (intros; lia); auto; try lra. intros i fs Hi. lia. }
  exact (H (exist _ t Ht, M) h).
Qed.

Notation bell := (fun b : base2 => ell2 n (Y (bt2 b))).
Notation bV := (fun b : base2 => YV2 n (bt2 b) Y).
Notation bU := (fun b : base2 => YU2 n (bt2 b) (Y (bt2 b)) Y).
Notation bKK := (fun b : base2 => K2 G (bt2 b) Y).
Lemma b2_ell : forall j, (j < S (n + n))%nat -> GOrder.Oh (base2 * R) snd 0 (fun i => bell (fst i) j).
Proof.
  destruct (traj_bound (n + n) (sys2 n G) lo hi Y (sys2_solution _ _ _ _ _ HY)) as (B & HB & H). intros j Hj.
  apply (Oh0_of _ _ _ (B + 1) 1); [lra|]. intros i _. pose proof (bt2_in (fst i)) as Ht. unfold ell2. destruct j as [|j]; [rewrite Rabs_R1; lra|].
  destruct (Nat.ltb_spec j n); [|rewrite Rabs_R0; lra]. specialize (H (bt2 (fst i)) (S (n + j)) Ht ltac:(lia)). unfold pt in H. cbn [nth] in H. lra.
Qed.
Lemma b2_HYV : exists del, 0 < del /\ forall b h, Rabs h < del -> forall q, (q < n)%nat -> derivable_pt_lim (fun x => bV b x q) h (bKK b h q).
Proof.
  destruct HY as (m & Hm & H). exists m. split; auto. intros b h Hh q Hq. pose proof (bt2_in b). apply Rabs_def2 in Hh.
  destruct (H (bt2 b + h)) as (_ & H1); [lra|]. unfold YV2. apply (shift_derive (bt2 b) (fun x => nth (n + q) (Y x) 0)). apply H1; auto.
Qed.
Lemma b2_HYU : true = true -> exists del, 0 < del /\ forall b h, Rabs h < del -> forall q, (q < n)%nat -> derivable_pt_lim (fun x => bU b x q) h (bV b h q - bV b 0 q).
Proof.
  intros _. destruct HY as (m & Hm & H). exists m. split; auto. intros b h Hh q Hq. pose proof (bt2_in b) as Hb. apply Rabs_def2 in Hh.
  destruct (H (bt2 b + h)) as (_ & H1); [lra|]. unfold YU2, YV2. rewrite Rplus_0_r.
  apply (derivable_pt_lim_minus (fun x => nth q (Y (bt2 b + x)) 0) (fun x => x * nth (n + q) (Y (bt2 b)) 0)).
  - apply (shift_derive (bt2 b) (fun x => nth q (Y x) 0)). apply H1; auto.
  - intros eps He. exists (mkposreal 1 Rlt_0_1). intros x Hx _.
    replace (((h + x) * nth (n + q) (Y (bt2 b)) 0 - h * nth (n + q) (Y (bt2 b)) 0) / x - nth (n + q) (Y (bt2 b)) 0) with 0 by (field; auto).
    rewrite Rabs_R0. exact He.
Qed.
Lemma b2_HK : exists del, 0 < del /\ forall b h, Rabs h < del -> forall q, (q < n)%nat ->
  bKK b h q = fo G (n + n) (fun j => pt (bt2 b) (Y (bt2 b)) j + exact_arg true uV (bell b) (pu2 n) (pv2 n) (bV b) (bU b) h j) q.
Proof.
  destruct HY as (m & Hm & H). exists m. split; auto. intros b h Hh q Hq. pose proof (bt2_in b) as Hb.
  pose proof (solution2_at n G lo hi Y _ HY Hb) as HSo. pose proof (Y_len2 _ Hb) as L0. apply Rabs_def2 in Hh.
  destruct (H (bt2 b + h)) as (HL & _); [lra|].
  change (K2 G (bt2 b) Y h q = fo G (n + n) (exact_pt uV n (bt2 b) (Y (bt2 b)) Y h) q).
  unfold K2, fo. rewrite (exact_pt_t uV n G _ _ Hvf). f_equal.
  set (ep := exact_pt uV n (bt2 b) (Y (bt2 b)) Y h).
  assert (L : length (map (fun j => ep (S j)) (seq 0 (n + n))) = (n + n)%nat) by (rewrite map_length, seq_length; auto).
  destruct (Bool.bool_dec uV true) as [Hu|Hu].
  - f_equal. apply (list_split_eq n _ L0); auto.
    + intros j Hj. rewrite (arg_list n ep) by lia. symmetry. apply (exact_pt_x uV n G); auto.
    + intros j Hj. rewrite (arg_list n ep) by lia. symmetry. apply (exact_pt_v uV n G); auto.
  - apply Bool.not_true_is_false in Hu. apply (Hvf Hu); auto. apply (firstn_nth_eq n _ L0); auto.
    intros j Hj. rewrite (arg_list n ep) by lia. symmetry. apply (exact_pt_x uV n G); auto.
Qed.
Lemma b2_HT : exists T, utaylor (base2 * R) snd (S (n + n)) n (fo G (n + n)) (fun i => pt (bt2 (fst i)) (Y (bt2 (fst i)))) (fun i => T (fst i)) p.
Proof.
  destruct HS as (T & C & M & del & Hdel & H). exists (fun b => T (bt2 b)). intros q Hq. split.
  - intros m js Hm Hjs. apply (Oh0_of _ _ _ M 1); [lra|]. intros i _.
    destruct (H (bt2 (fst i)) q (bt2_in _) Hq) as (H1 & _). apply H1; [rewrite (idx_len _ _ _ Hjs); auto|].
    apply idx_in in Hjs. exact Hjs.
  - exists C, del. split; auto. intros i z Hz. destruct (H (bt2 (fst i)) q (bt2_in _) Hq) as (_ & H1). apply H1; auto.
Qed.
Lemma b2_HKb : forall q, (q < n)%nat -> GOrder.Oh (base2 * R) snd 0 (fun i => bKK (fst i) (snd i) q).
Proof.
  intros q Hq. destruct b2_HT as (T & HT). destruct (utaylor_bounded _ _ _ _ _ _ _ _ HT) as (B & d1 & Hd1 & H1).
  destruct b2_HK as (d2 & Hd2 & H2). destruct (Y_unif2 d1 Hd1) as (d3 & Hd3 & H3).
  apply (Oh0_of _ _ _ B (Rmin d1 (Rmin d2 d3))); [apply Rmin_case; auto; apply Rmin_case; auto|]. intros (b & h) Hh. cbn [fst snd] in *.
  assert (A1 : Rabs h < d1) by (eapply Rlt_le_trans; [exact Hh|apply Rmin_l]).
  assert (A2 : Rabs h < d2) by (eapply Rlt_le_trans; [exact Hh|eapply Rle_trans; [apply Rmin_r|apply Rmin_l]]).
  assert (A3 : Rabs h < d3) by (eapply Rlt_le_trans; [exact Hh|eapply Rle_trans; [apply Rmin_r|apply Rmin_r]]).
  rewrite (H2 b h A2 q Hq). apply (H1 (b, h)); auto. cbn [fst snd]. intros j Hj.
  pose proof (bt2_in b) as Hb. pose proof (solution2_at n G lo hi Y _ HY Hb) as HSo. pose proof (Y_len2 _ Hb) as L0.
  assert (E : exact_arg true uV (bell b) (pu2 n) (pv2 n) (bV b) (bU b) h j = exact_pt uV n (bt2 b) (Y (bt2 b)) Y h j - pt (bt2 b) (Y (bt2 b)) j) by (unfold exact_pt; ring).
  destruct j as [|j].
  - rewrite E, (exact_pt_t uV n G) by auto. unfold pt. cbn [nth]. replace (bt2 b + h - bt2 b) with h by ring. exact A1.
  - destruct (lt_dec j n) as [Hn|Hn].
    + rewrite E, (exact_pt_x uV n G) by auto. unfold pt. cbn [nth]. apply H3; auto. lia.
    + destruct (Bool.bool_dec uV true) as [Hu|Hu].
      * rewrite E. replace j with (n + (j - n))%nat by lia. rewrite (exact_pt_v uV n G) by (auto; lia). unfold pt. cbn [nth]. apply H3; auto. lia.
      * apply Bool.not_true_is_false in Hu. unfold exact_arg, opt0, inj. rewrite Hu. unfold ell2, pu2. destruct (Nat.ltb_spec j n); [lia|].
        rewrite Rmult_0_r, !Rplus_0_r, Rabs_R0. auto.
Qed.

Variable s : nat.
Variables A Ap : nat -> nat -> R.
Variable c : nat -> R.
Hypothesis HA : forall i l, (i <= l)%nat -> A i l = 0.
Hypothesis HAp : forall i l, (i <= l)%nat -> Ap i l = 0.
Variable W : R.
Hypothesis WA : forall i l, (i < s)%nat -> (l < s)%nat -> Rabs (A i l) <= W.
Hypothesis WAp : forall i l, (i < s)%nat -> (l < s)%nat -> Rabs (Ap i l) <= W.
Hypothesis Wc : forall i, (i < s)%nat -> Rabs (c i) <= W.

Definition bk2 (l : nat) (i : base2 * R) (q : nat) : R :=
  nth q (nth l (nstages n G A Ap c (bt2 (fst i)) (Y (bt2 (fst i))) (snd i) s) []) 0.
Lemma b2_Hk : exists del, 0 < del /\ forall i : base2 * R, Rabs (snd i) < del -> forall l q, (l < s)%nat -> (q < n)%nat ->
  bk2 l i q = fo G (n + n) (fun j => pt (bt2 (fst i)) (Y (bt2 (fst i))) j
    + ustage_arg (base2 * R) snd true uV (fun i => bell (fst i)) (pu2 n) (pv2 n) s (fun i => (fun _ : base2 => A) (fst i)) (fun i => (fun _ : base2 => Ap) (fst i)) (fun i => (fun _ : base2 => c) (fst i)) bk2 l i j) q.
Proof.
  exists 1. split; [lra|]. intros (b & h) _ i q Hi Hq. unfold bk2 at 1. cbn [fst snd]. rewrite nstages_nth by auto.
  pose proof (Y_len2 _ (bt2_in b)) as L0.
  set (g := fun j => pt (bt2 b) (Y (bt2 b)) j + ustage_arg (base2 * R) snd true uV (fun i => bell (fst i)) (pu2 n) (pv2 n) s (fun _ => A) (fun _ => Ap) (fun _ => c) bk2 i (b, h) j).
  change (nth q (G (bt2 b + c i * h) (npoint n (Y (bt2 b)) h (c i) (lcomb i (A i) (nstages n G A Ap c (bt2 b) (Y (bt2 b)) h i)) (lcomb i (Ap i) (nstages n G A Ap c (bt2 b) (Y (bt2 b)) h i)))) 0 = fo G (n + n) g q).
  assert (E0 : g 0%nat = bt2 b + c i * h).
  { unfold g, ustage_arg, pt, opt0, inj. cbn [fst snd nth ell2 pu2 pv2]. rewrite !(rsum_zero s) by (intros; ring). destruct uV; ring. }
  unfold fo. rewrite E0. f_equal.
  assert (LC : forall w q, (forall l, (i <= l)%nat -> w l = 0) -> lcomb i w (nstages n G A Ap c (bt2 b) (Y (bt2 b)) h i) q = rsum s (fun l => w l * bk2 l (b, h) q)).
  { intros w q' Hw. rewrite (lcomb_prefix2 n G A Ap c _ _ h s) by lia. rewrite (lcomb_zero_tail i s) by (auto; lia). reflexivity. }
  assert (L : length (map (fun j => g (S j)) (seq 0 (n + n))) = (n + n)%nat) by (rewrite map_length, seq_length; auto).
  assert (EX : forall j, (j < n)%nat -> nth j (npoint n (Y (bt2 b)) h (c i) (lcomb i (A i) (nstages n G A Ap c (bt2 b) (Y (bt2 b)) h i)) (lcomb i (Ap i) (nstages n G A Ap c (bt2 b) (Y (bt2 b)) h i))) 0 = nth j (map (fun j => g (S j)) (seq 0 (n + n))) 0).
  { intros j Hj. rewrite npoint_x, (arg_list n g) by lia. rewrite LC by auto.
    unfold g, ustage_arg, pt, opt0, inj. cbn [fst snd nth ell2 pu2 pv2]. destruct (Nat.ltb_spec j n); [|lia].
    rewrite (rsum_zero s (fun l => Ap i l * 0)) by (intros; ring). destruct uV; ring. }
  destruct (Bool.bool_dec uV true) as [Hu|Hu].
  - f_equal. apply (list_split_eq n _ L0); auto using npoint_length.
    intros j Hj. rewrite npoint_v, (arg_list n g) by lia. rewrite LC by auto.
    unfold g, ustage_arg, pt, opt0, inj. rewrite Hu. cbn [fst snd nth ell2 pu2 pv2]. destruct (Nat.ltb_spec (n + j) n); [lia|]. destruct (Nat.ltb_spec (n + j) (n + n)); [|lia].
    replace (n + j - n)%nat with j by lia. rewrite (rsum_zero s (fun l => A i l * 0)) by (intros; ring). ring.
  - apply Bool.not_true_is_false in Hu. apply (Hvf Hu); auto using npoint_length. apply (firstn_nth_eq n _ L0); auto using npoint_length.
Qed.
Lemma b2_Kb : forall l q, (l < s)%nat -> (q < n)%nat -> GOrder.Oh (base2 * R) snd 0 (fun i => bk2 l i q).
Proof.
  destruct b2_HT as (T & HT).
  apply (uexplicit_bounded (base2 * R) snd true uV (S (n + n)) n p (fun i => T (fst i)) (fun i => bell (fst i)) b2_ell (pu2 n) (pv2 n) (pu2_lt n) (pv2_lt' n) (fo G (n + n)) _ HT s
    (fun i => (fun _ : base2 => A) (fst i)) (fun i => (fun _ : base2 => Ap) (fst i)) (fun i => (fun _ : base2 => c) (fst i))).
  - intros l l' Hl Hl'. apply (Oh0_of _ _ _ W 1); [lra|]. intros i _. apply WA; auto.
  - intros l l' Hl Hl'. apply (Oh0_of _ _ _ W 1); [lra|]. intros i _. apply WAp; auto.
  - intros l Hl. apply (Oh0_of _ _ _ W 1); [lra|]. intros i _. apply Wc; auto.
  - exact b2_Hk.
  - intros i l l' H. apply HA; auto.
  - intros i l l' H. apply HAp; auto.
Qed.

Variables b bp : nat -> R.
Hypothesis Wb : forall i, (i < s)%nat -> Rabs (b i) <= W.
Hypothesis Wbp : forall i, (i < s)%nat -> Rabs (bp i) <= W.
Variable eps : R.
Hypothesis Heps : 0 <= eps.
Hypothesis Hp : (0 < p)%nat.
Hypothesis OU : near_U true uV s A Ap c eps b (p - 1).
Hypothesis OV : near_V true uV s A Ap c eps bp p.

(** one step of size h from (t, y) *)
Definition rkn_step (t : R) (y : list R) (h : R) : list R :=
  npoint n y h 1 (lcomb s b (nstages n G A Ap c t y h s)) (lcomb s bp (nstages n G A Ap c t y h s)).
Lemma rkn_step_len t y h : length (rkn_step t y h) = (n + n)%nat.
Proof. apply npoint_length. Qed.

Lemma W_pos b' : (forall i, (i < s)%nat -> Rabs (b' i) <= W) -> forall i, (i < s)%nat -> Rabs (b' i) <= Rabs W.
Proof. intros H i Hi. eapply Rle_trans; [apply H; auto|apply Rle_abs]. Qed.
Lemma local2_v q : (q < n)%nat -> exists C del, 0 <= C /\ 0 < del /\ forall t h, lo <= t <= hi -> Rabs h < del ->
  Rabs (nth (n + q) (rkn_step t (Y t) h) 0 - nth (n + q) (Y (t + h)) 0) <= C * (eps * Rabs h + Rabs h ^ S p).
Proof.
  intros Hq. destruct b2_HT as (T & HT).
  destruct (u_order_V base2 true uV (S (n + n)) n p T bell b2_ell (pu2 n) (pv2 n) (pu2_lt n) (pv2_lt' n) (fo G (n + n)) (fun b => pt (bt2 b) (Y (bt2 b))) HT
    bKK bV bU b2_HYV b2_HYU b2_HKb b2_HK s (fun _ => A) (fun _ => Ap) (fun _ => c) W) with (k := bk2) (b := fun _ : base2 => bp) (eps := fun _ : base2 => eps) (m := p) (q := q) as (C & del & HC & Hd & H); auto.
  - exact b2_Kb.
  - exact b2_Hk.
  - exists C, del. split; auto. split; auto. intros t h Ht Hh. specialize (H (exist _ t Ht) h Hh). unfold YV2, bk2, bt2 in H. cbn [fst snd proj1_sig] in H. rewrite Rplus_0_r in H.
    unfold rkn_step. rewrite npoint_v by auto. unfold lcomb. match goal with |- Rabs (?y + ?a - ?b) <= _ => replace (y + a - b) with (a - (b - y)) by ring end. exact H.
Qed.
Lemma local2_x q : (q < n)%nat -> exists C del, 0 <= C /\ 0 < del /\ forall t h, lo <= t <= hi -> Rabs h < del ->
  Rabs (nth q (rkn_step t (Y t) h) 0 - nth q (Y (t + h)) 0) <= C * (eps * Rabs h + Rabs h ^ S p).
Proof.
  intros Hq. destruct b2_HT as (T & HT).
  destruct (u_order_U base2 true uV (S (n + n)) n p T bell b2_ell (pu2 n) (pv2 n) (pu2_lt n) (pv2_lt' n) (fo G (n + n)) (fun b => pt (bt2 b) (Y (bt2 b))) HT
    bKK bV bU b2_HYV b2_HYU b2_HKb b2_HK s (fun _ => A) (fun _ => Ap) (fun _ => c) W) with (k := bk2) (b := fun _ : base2 => b) (eps := fun _ : base2 => eps) (m := (p - 1)%nat) (q := q) as (C & del & HC & Hd & H); auto; try lia.
  - exact b2_Kb.
  - exact b2_Hk.
  - exists C, del. split; auto. split; auto. intros t h Ht Hh. specialize (H (exist _ t Ht) h Hh). unfold YU2, bk2, bt2 in H. cbn [fst snd proj1_sig] in H. rewrite Rplus_0_r in H.
    replace (S (S (p - 1))) with (S p) in H by lia. eapply Rle_trans; [|exact H]. right. f_equal.
    unfold rkn_step. rewrite npoint_x by auto. unfold lcomb. ring.
Qed.
Lemma local_error2 : exists C del, 0 <= C /\ 0 < del /\ forall t h, lo <= t <= hi -> Rabs h < del ->
  close (n + n) (rkn_step t (Y t) h) (Y (t + h)) (C * (eps * Rabs h + Rabs h ^ S p)).
Proof.
  assert (Q : forall q, (q < n + n)%nat -> exists C del, 0 <= C /\ 0 < del /\ forall t h, lo <= t <= hi -> Rabs h < del ->
    Rabs (nth q (rkn_step t (Y t) h) 0 - nth q (Y (t + h)) 0) <= C * (eps * Rabs h + Rabs h ^ S p)).
  { intros q Hq. destruct (lt_dec q n) as [Hn|Hn]; [apply local2_x; auto|]. replace q with (n + (q - n))%nat by lia. apply local2_v. lia. }
  assert (K : forall k, (k <= n + n)%nat -> exists C del, 0 <= C /\ 0 < del /\ forall t h, lo <= t <= hi -> Rabs h < del ->
    forall q, (q < k)%nat -> Rabs (nth q (rkn_step t (Y t) h) 0 - nth q (Y (t + h)) 0) <= C * (eps * Rabs h + Rabs h ^ S p)).
  { induction k as [|k IH]; intros Hk; [exists 0, 1; split; [lra|]; split; [lra|]; intros; lia|].
    destruct IH as (C1 & d1 & HC1 & Hd1 & H1); [lia|]. destruct (Q k ltac:(lia)) as (C2 & d2 & HC2 & Hd2 & H2).
    exists (C1 + C2), (Rmin d1 d2). split; [lra|]. split; [apply Rmin_case; auto|]. intros t h Ht Hh q Hq.
    assert (A1 : Rabs h < d1) by (eapply Rlt_le_trans; [exact Hh|apply Rmin_l]).
    assert (A2 : Rabs h < d2) by (eapply Rlt_le_trans; [exact Hh|apply Rmin_r]).
    assert (P : 0 <= eps * Rabs h + Rabs h ^ S p).
    { apply Rplus_le_le_0_compat; [apply Rmult_le_pos; [auto|apply Rabs_pos]|apply pow_le, Rabs_pos]. }
    rewrite Rmult_plus_distr_r.
    assert (P1 : 0 <= C1 * (eps * Rabs h + Rabs h ^ S p)) by (apply Rmult_le_pos; auto).
    assert (P2 : 0 <= C2 * (eps * Rabs h + Rabs h ^ S p)) by (apply Rmult_le_pos; auto).
    destruct (Nat.eq_dec q k) as [->|Hne]; [specialize (H2 t h Ht A2); lra|]. specialize (H1 t h Ht A1 q ltac:(lia)). lra. }
  exact (K (n + n)%nat (le_n _)).
Qed.
Lemma stages_bounded2 : exists B del, 0 <= B /\ 0 < del /\ forall t h, lo <= t <= hi -> Rabs h < del ->
  forall l q, (l < s)%nat -> (q < n)%nat -> Rabs (nth q (nth l (nstages n G A Ap c t (Y t) h s) []) 0) <= B.
Proof.
  assert (HO : GOrder.Oh (base2 * R) snd 0 (fun i => rsum s (fun l => rsum n (fun q => Rabs (bk2 l i q))))).
  { apply GOrder.Oh_rsum. intros l Hl. apply GOrder.Oh_rsum. intros q Hq. apply (GOrder.Oh_le _ _ 0 _ (fun i => bk2 l i q)); [|apply b2_Kb; auto].
    exists 1. split; [lra|]. intros. rewrite Rabs_Rabsolu. lra. }
  destruct (Oh0_at _ _ _ HO) as (B & del & HB & Hd & H). exists B, del. split; auto. split; auto. intros t h Ht Hh l q Hl Hq.
  specialize (H (((exist _ t Ht) : base2), h) Hh). cbv beta in H. eapply Rle_trans; [|eapply Rle_trans; [apply Rle_abs|exact H]].
  assert (S1 : forall k (g : nat -> R) j, (forall i, 0 <= g i) -> (j < k)%nat -> g j <= rsum k g).
  { clear. induction k as [|k IH]; intros g j Hg Hj; [lia|]. cbn [rsum]. destruct (Nat.eq_dec j k) as [->|].
    - assert (0 <= rsum k g) by (apply rsum_nonneg; auto). lra.
    - specialize (IH g j Hg ltac:(lia)). pose proof (Hg k). lra. }
  set (i := (((exist (fun t => lo <= t <= hi) t Ht) : base2), h)).
  change (Rabs (bk2 l i q) <= rsum s (fun l0 => rsum n (fun q0 => Rabs (bk2 l0 i q0)))).
  eapply Rle_trans; [apply (S1 n (fun q0 => Rabs (bk2 l i q0)) q); [intros; apply Rabs_pos|auto]|].
  apply (S1 s (fun l0 => rsum n (fun q0 => Rabs (bk2 l0 i q0))) l); auto. intros; apply rsum_nonneg; intros; apply Rabs_pos.
Qed.
End Local.

(** ** one-step methods: local errors and stability give a global bound *)
Section OneStep.
Variables (d p : nat) (lo hi : R) (Y : R -> list R) (Phi : R -> list R -> R -> list R).
(** a sequence of steps from the initial point of the trajectory, in one direction, inside [lo, hi] *)
Inductive opath (H : R) (ta : R) : R -> list R -> Prop :=
| opath0 : opath H ta ta (Y ta)
| opathS t y t' : opath H ta t y -> lo <= t' <= hi -> 0 <= (t' - t) * (t - ta) -> Rabs (t' - t) <= H -> opath H ta t' (Phi t y (t' - t)).
Variables (C1 Lam eps e0 d1 d2 : R).
Hypothesis HC1 : 0 <= C1.
Hypothesis HLam : 0 <= Lam.
Hypothesis Heps : 0 <= eps.
Hypothesis HPl : forall t y h, length (Phi t y h) = d.
Hypothesis HYl : forall t, lo <= t <= hi -> length (Y t) = d.
Hypothesis Hloc : forall t h, lo <= t <= hi -> Rabs h < d2 -> close d (Phi t (Y t) h) (Y (t + h)) (C1 * (eps * Rabs h + Rabs h ^ S p)).
Hypothesis Hst : forall t y h e, lo <= t <= hi -> length y = d -> Rabs h < d1 -> 0 <= e <= e0 -> close d y (Y t) e ->
  close d (Phi t y h) (Phi t (Y t) h) ((1 + Rabs h * Lam) * e).
Lemma onestep_core H ta t y : let C := C1 * (Rabs (hi - lo) * exp (Lam * Rabs (hi - lo))) in
  0 <= H -> H < d1 -> H < d2 -> C * (eps + H ^ p) <= e0 -> lo <= ta <= hi -> opath H ta t y ->
  length y = d /\ lo <= t <= hi /\ close d y (Y t) (C * (eps + H ^ p)).
Proof.
  set (Xx := Rabs (hi - lo)). assert (HX : 0 <= Xx) by apply Rabs_pos.
  set (G := Xx * exp (Lam * Xx)). assert (HG : 0 <= G) by (apply Rmult_le_pos; [auto|left; apply exp_pos]).
  intros C H0 D1 D2 He0 Hta HP.
  set (eta := C1 * (eps + H ^ p)).
  assert (HHp : 0 <= H ^ p) by (apply pow_le; auto).
  assert (Heta : 0 <= eta) by (unfold eta; apply Rmult_le_pos; lra).
  assert (HetaG : eta * G <= e0) by (replace (eta * G) with (C1 * G * (eps + H ^ p)) by (unfold eta; ring); exact He0).
  assert (HXm : forall u, lo <= u <= hi -> Rabs (u - ta) * exp (Lam * Rabs (u - ta)) <= G).
  { intros u Hu. assert (HA : Rabs (u - ta) <= Xx).
    { unfold Xx. rewrite (Rabs_pos_eq (hi - lo)) by lra. apply Rabs_le. lra. }
    apply Rmult_le_compat; [apply Rabs_pos|left; apply exp_pos|auto|].
    destruct (Rmult_le_compat_l Lam _ _ HLam HA) as [E|E]; [left; apply exp_increasing; auto|rewrite E; right; auto]. }
  assert (Q : length y = d /\ lo <= t <= hi /\ close d y (Y t) (eta * (Rabs (t - ta) * exp (Lam * Rabs (t - ta))))).
  2:{ destruct Q as (Q1 & Q2 & Q3). split; [auto|]. split; [auto|]. eapply close_le; [exact Q3|].
      unfold C. replace (C1 * G * (eps + H ^ p)) with (eta * G) by (unfold eta; ring). apply Rmult_le_compat_l; [lra|]. apply HXm; auto. }
  induction HP as [|t y t' HP IH Ht' Hsg Hst'].
  - split; [apply HYl; auto|]. split; [auto|]. apply close_refl.
    apply Rmult_le_pos; [lra|]. apply Rmult_le_pos; [apply Rabs_pos|left; apply exp_pos].
  - destruct IH as (IH1 & IH2 & IH3). split; [apply HPl|]. split; [auto|].
    set (h := t' - t) in *. set (x := Rabs (t - ta)) in *.
    assert (Hx : 0 <= x) by apply Rabs_pos. assert (Hh : 0 <= Rabs h) by apply Rabs_pos.
    set (e := eta * (x * exp (Lam * x))) in *.
    assert (He : 0 <= e <= e0).
    { unfold e. split; [apply Rmult_le_pos; [lra|]; apply Rmult_le_pos; [auto|left; apply exp_pos]|].
      eapply Rle_trans; [apply Rmult_le_compat_l; [lra|apply (HXm t IH2)]|auto]. }
    pose proof (Hst t y h e IH2 IH1 ltac:(lra) He IH3) as S1.
    pose proof (Hloc t h IH2 ltac:(lra)) as S2. replace (t + h) with t' in S2 by (unfold h; ring).
    eapply close_le; [exact (close_trans _ _ _ _ _ _ S1 S2)|].
    assert (Hx' : Rabs (t' - ta) = x + Rabs h).
    { unfold x. replace (t' - ta) with ((t - ta) + h) by (unfold h; ring). clear - Hsg.
      destruct (Rle_dec 0 (t - ta)) as [P|P].
      - destruct (Rle_lt_or_eq_dec _ _ P) as [P'|P'].
        + assert (0 <= h) by (destruct (Rle_dec 0 h); auto; exfalso; nra). rewrite !Rabs_pos_eq; lra.
        + rewrite <- P', Rplus_0_l, Rabs_R0. lra.
      - assert (h <= 0) by (destruct (Rle_dec h 0); auto; exfalso; nra). rewrite !Rabs_left1; lra. }
    rewrite Hx'. set (a := Rabs h) in *.
    assert (L1 : C1 * (eps * a + a ^ S p) <= eta * a).
    { unfold eta. rewrite Rmult_assoc. apply Rmult_le_compat_l; [auto|]. simpl.
      assert (a ^ p <= H ^ p) by (apply pow_incr; auto). nra. }
    assert (E1 : 1 + a * Lam <= exp (Lam * a)) by (rewrite (Rmult_comm a); apply exp_ineq1_le).
    assert (E2 : exp (Lam * (x + a)) = exp (Lam * x) * exp (Lam * a)) by (rewrite <- exp_plus; f_equal; ring).
    assert (E3 : 1 <= exp (Lam * (x + a))).
    { eapply Rle_trans; [|apply exp_ineq1_le]. assert (0 <= Lam * (x + a)) by (apply Rmult_le_pos; lra). lra. }
    apply Rle_trans with (exp (Lam * a) * e + eta * a); [apply Rplus_le_compat; [apply Rmult_le_compat_r; lra|auto]|].
    replace (eta * ((x + a) * exp (Lam * (x + a)))) with (exp (Lam * a) * e + eta * (a * exp (Lam * (x + a)))).
    2:{ unfold e. rewrite E2. ring. }
    apply Rplus_le_compat_l. apply Rmult_le_compat_l; [lra|]. nra.
Qed.
End OneStep.

(** ** stability of the steps, and the global error *)
Section Global2.
Variables (uV : bool) (n p : nat) (G : R -> list R -> list R) (lo hi : R) (Y : R -> list R).
Hypothesis Hvf : uV = false -> velocity_free n G.
Hypothesis HY : solution2_on n G lo hi Y.
Hypothesis HS : smooth2_along p n G lo hi Y.
Variable s : nat.
Variables A Ap : nat -> nat -> R.
Variable c : nat -> R.
Hypothesis HA : forall i l, (i <= l)%nat -> A i l = 0.
Hypothesis HAp : forall i l, (i <= l)%nat -> Ap i l = 0.
Variable W : R.
Hypothesis WA : forall i l, (i < s)%nat -> (l < s)%nat -> Rabs (A i l) <= W.
Hypothesis WAp : forall i l, (i < s)%nat -> (l < s)%nat -> Rabs (Ap i l) <= W.
Hypothesis Wc : forall i, (i < s)%nat -> Rabs (c i) <= W.
Notation ST := (nstages n G A Ap c).

Lemma stages_close2 L r : lipschitz2_near n G lo hi Y L r -> exists B del, 0 <= B /\ 0 < del <= 1 /\ forall t y h e, lo <= t <= hi -> length y = (n + n)%nat ->
  Rabs h < del -> 0 <= e <= r / 4 -> close (n + n) y (Y t) e -> forall l, (l < s)%nat ->
    close n (nth l (ST t y h s) []) (nth l (ST t (Y t) h s) []) (2 * L * e) /\
    forall q, (q < n)%nat -> Rabs (nth q (nth l (ST t (Y t) h s) []) 0) <= B.
Proof.
  intros (HL0 & Hr & HLip). destruct (stages_bounded2 uV n p G lo hi Y Hvf HY HS s A Ap c HA HAp W WA WAp Wc) as (B & d1 & HB & Hd1 & HB1).
  destruct (traj_bound (n + n) (sys2 n G) lo hi Y (sys2_solution _ _ _ _ _ HY)) as (V & HV & HVb).
  set (w := Rabs W). assert (Hw : 0 <= w) by apply Rabs_pos. assert (HWw : W <= w) by apply Rle_abs.
  set (k := INR s). assert (Hk : 0 <= k) by apply pos_INR.
  set (q1 := 4 * (k * (w * (2 * L))) + 4 * w + 1). set (q2 := 4 * (k * (w * B)) + 4 * (w * V) + 1).
  assert (P1 : 0 <= k * (w * (2 * L))) by (repeat apply Rmult_le_pos; lra).
  assert (P2 : 0 <= k * (w * B)) by (repeat apply Rmult_le_pos; lra).
  assert (P3 : 0 <= w * V) by (repeat apply Rmult_le_pos; lra).
  set (D := Rmin d1 (Rmin (/ q1) (Rmin (r / q2) (Rmin (r / (w + 1)) 1)))).
  assert (D0 : 0 < D).
  { unfold D. repeat apply Rmin_case; auto; try lra; try (apply Rinv_0_lt_compat; unfold q1; lra); apply Rdiv_lt_0_compat; unfold q2; lra. }
  assert (M1 : D <= d1) by apply Rmin_l.
  assert (M2 : D <= / q1) by (eapply Rle_trans; [apply Rmin_r|apply Rmin_l]).
  assert (M3 : D <= r / q2) by (eapply Rle_trans; [apply Rmin_r|eapply Rle_trans; [apply Rmin_r|apply Rmin_l]]).
  assert (M4 : D <= r / (w + 1)) by (eapply Rle_trans; [apply Rmin_r|eapply Rle_trans; [apply Rmin_r|eapply Rle_trans; [apply Rmin_r|apply Rmin_l]]]).
  assert (M5 : D <= 1) by (eapply Rle_trans; [apply Rmin_r|eapply Rle_trans; [apply Rmin_r|eapply Rle_trans; [apply Rmin_r|apply Rmin_r]]]).
  clearbody D. exists B, D. split; [exact HB|]. split; [lra|]. intros t y h e Ht Ly Hh He Hy.
  assert (A1 : Rabs h < d1) by lra. assert (A2 : Rabs h < / q1) by lra. assert (A3 : Rabs h < r / q2) by lra. assert (A4 : Rabs h < r / (w + 1)) by lra. assert (A5 : Rabs h < 1) by lra.
  clear Hh M1 M2 M3 M4 M5 D0 D. pose proof (Rabs_pos h) as Hh0.
  apply Rmult_lt_compat_r with (r := q1) in A2; [|unfold q1; lra]. rewrite Rinv_l in A2 by (unfold q1; lra).
  apply Rmult_lt_compat_r with (r := q2) in A3; [|unfold q2; lra]. unfold Rdiv in A3 at 1. rewrite Rmult_assoc, Rinv_l, Rmult_1_r in A3 by (unfold q2; lra).
  apply Rmult_lt_compat_r with (r := w + 1) in A4; [|lra]. unfold Rdiv in A4 at 1. rewrite Rmult_assoc, Rinv_l, Rmult_1_r in A4 by lra.
  set (a := Rabs h) in *.
  assert (N1 : a * (k * (w * (2 * L))) <= 1 / 4 /\ a * w <= 1 / 4).
  { assert (0 <= a * (k * (w * (2 * L)))) by (apply Rmult_le_pos; auto). assert (0 <= a * w) by (apply Rmult_le_pos; auto). unfold q1 in A2.
    replace (a * (4 * (k * (w * (2 * L))) + 4 * w + 1)) with (4 * (a * (k * (w * (2 * L)))) + 4 * (a * w) + a) in A2 by ring. lra. }
  assert (N3 : a * (k * (w * B)) + a * (w * V) <= r / 4).
  { unfold q2 in A3. replace (a * (4 * (k * (w * B)) + 4 * (w * V) + 1)) with (4 * (a * (k * (w * B)) + a * (w * V)) + a) in A3 by ring. lra. }
  assert (LY : length (Y t) = (n + n)%nat) by (apply (Y_len2 n G lo hi Y HY); auto).
  specialize (HB1 t h Ht A1).
  set (K1 := ST t y h). set (K2 := ST t (Y t) h).
  assert (CB : forall (w' : nat -> R) l q, (l < s)%nat -> (forall l', (l' < s)%nat -> Rabs (w' l') <= W) -> (q < n)%nat -> Rabs (lcomb l w' (K2 l) q) <= k * (w * B)).
  { intros w' l q Hl Hw' Hq. unfold K2. rewrite (lcomb_prefix2 n G A Ap c t (Y t) h s l w' q) by lia.
    eapply Rle_trans; [apply (rsum_bound l _ (w * B))|].
    - intros l' Hl'. rewrite Rabs_mult. apply Rmult_le_compat; try apply Rabs_pos; [eapply Rle_trans; [apply Hw'; lia|auto]|apply HB1; auto; lia].
    - apply Rmult_le_compat_r; [apply Rmult_le_pos; lra|]. unfold k. apply le_INR. lia. }
  assert (Q : forall l, (l < s)%nat -> close n (nth l (K1 s) []) (nth l (K2 s) []) (2 * L * e)).
  { induction l as [l IH] using lt_wf_ind. intros Hl.
    assert (CD : forall (w' : nat -> R) q, (forall l', (l' < s)%nat -> Rabs (w' l') <= W) -> (q < n)%nat -> Rabs (lcomb l w' (K1 l) q - lcomb l w' (K2 l) q) <= k * (w * (2 * L * e))).
    { intros w' q Hw' Hq. unfold K1, K2. rewrite (lcomb_prefix2 n G A Ap c t (Y t) h s l w' q) by lia.
      rewrite (lcomb_prefix2 n G A Ap c t y h s l w' q) by lia. fold (K1 s). fold (K2 s). unfold lcomb.
      rewrite <- rsum_sub'. eapply Rle_trans; [apply (rsum_bound l _ (w * (2 * L * e)))|].
      - intros l' Hl'. rewrite <- Rmult_minus_distr_l, Rabs_mult. apply Rmult_le_compat; try apply Rabs_pos; [eapply Rle_trans; [apply Hw'; lia|auto]|].
        apply IH; auto. lia.
      - apply Rmult_le_compat_r; [repeat apply Rmult_le_pos; lra|]. unfold k. apply le_INR. lia. }
    unfold K1, K2. rewrite !nstages_nth by auto. fold (K1 l). fold (K2 l).
    replace (2 * L * e) with (L * (2 * e)) by ring.
    assert (WAl : forall l', (l' < s)%nat -> Rabs (A l l') <= W) by (intros; apply WA; auto).
    assert (WApl : forall l', (l' < s)%nat -> Rabs (Ap l l') <= W) by (intros; apply WAp; auto).
    assert (Cl : Rabs (c l) <= w) by (eapply Rle_trans; [apply Wc; auto|auto]).
    assert (EL : a * (k * (w * (2 * L * e))) <= e / 4).
    { replace (a * (k * (w * (2 * L * e)))) with ((a * (k * (w * (2 * L)))) * e) by ring. replace (e / 4) with (1 / 4 * e) by field.
      apply Rmult_le_compat_r; [lra|apply N1]. }
    assert (EC : Rabs (c l) * a * e <= e / 4).
    { replace (e / 4) with (1 / 4 * e) by field. apply Rmult_le_compat_r; [lra|]. apply Rle_trans with (w * a); [apply Rmult_le_compat_r; auto|]. rewrite Rmult_comm. apply N1. }
    assert (aa : forall x, 0 <= x -> a * a * x <= a * x).
    { intros x Hx. rewrite Rmult_assoc. rewrite <- (Rmult_1_l (a * x)) at 2. apply Rmult_le_compat_r; [apply Rmult_le_pos; auto|lra]. }
    assert (N2 : close (n + n) (npoint n (Y t) h (c l) (lcomb l (A l) (K2 l)) (lcomb l (Ap l) (K2 l))) (Y t) (r / 2)).
    { intros q Hq. destruct (lt_dec q n) as [Hn|Hn].
      - rewrite npoint_x by auto. match goal with |- Rabs (?x + ?z - ?x) <= _ => replace (x + z - x) with z by ring end.
        eapply Rle_trans; [apply Rabs_triang|]. rewrite !Rabs_mult. fold a.
        pose proof (CB (A l) l q Hl WAl Hn) as C1. pose proof (HVb t (S (n + q)) Ht ltac:(lia)) as C2. unfold pt in C2. cbn [nth] in C2.
        assert (T1 : a * a * Rabs (lcomb l (A l) (K2 l) q) <= a * (k * (w * B))).
        { eapply Rle_trans; [apply aa, Rabs_pos|]. apply Rmult_le_compat_l; auto. }
        assert (T2 : Rabs (c l) * a * Rabs (nth (n + q) (Y t) 0) <= a * (w * V)).
        { replace (a * (w * V)) with (w * a * V) by ring. apply Rmult_le_compat; try apply Rabs_pos; auto; [apply Rmult_le_pos; [apply Rabs_pos|auto]|apply Rmult_le_compat_r; auto]. }
        lra.
      - replace q with (n + (q - n))%nat by lia. rewrite npoint_v by lia. match goal with |- Rabs (?x + ?z - ?x) <= _ => replace (x + z - x) with z by ring end.
        rewrite Rabs_mult. fold a. pose proof (CB (Ap l) l (q - n)%nat Hl WApl ltac:(lia)) as C1. apply (Rmult_le_compat_l _ _ _ Hh0) in C1.
        assert (0 <= a * (w * V)) by (apply Rmult_le_pos; auto). lra. }
    assert (N12 : close (n + n) (npoint n y h (c l) (lcomb l (A l) (K1 l)) (lcomb l (Ap l) (K1 l))) (npoint n (Y t) h (c l) (lcomb l (A l) (K2 l)) (lcomb l (Ap l) (K2 l))) (2 * e)).
    { intros q Hq. destruct (lt_dec q n) as [Hn|Hn].
      - rewrite !npoint_x by auto.
        match goal with |- Rabs (?u + (h * h * ?x + c l * h * ?v) - (?u' + (h * h * ?x' + c l * h * ?v'))) <= _ =>
          replace (u + (h * h * x + c l * h * v) - (u' + (h * h * x' + c l * h * v'))) with ((u - u') + (h * h * (x - x') + c l * h * (v - v'))) by ring end.
        eapply Rle_trans; [apply Rabs_triang|]. eapply Rle_trans; [apply Rplus_le_compat_l, Rabs_triang|]. rewrite !Rabs_mult. fold a.
        pose proof (CD (A l) q WAl Hn) as C1. pose proof (Hy q ltac:(lia)) as C2. pose proof (Hy (n + q)%nat ltac:(lia)) as C3.
        assert (T1 : a * a * Rabs (lcomb l (A l) (K1 l) q - lcomb l (A l) (K2 l) q) <= e / 4).
        { eapply Rle_trans; [apply aa, Rabs_pos|]. eapply Rle_trans; [apply Rmult_le_compat_l; [auto|exact C1]|exact EL]. }
        assert (T2 : Rabs (c l) * a * Rabs (nth (n + q) y 0 - nth (n + q) (Y t) 0) <= e / 4).
        { eapply Rle_trans; [apply Rmult_le_compat_l; [apply Rmult_le_pos; [apply Rabs_pos|auto]|exact C3]|exact EC]. }
        lra.
      - replace q with (n + (q - n))%nat by lia. rewrite !npoint_v by lia.
        match goal with |- Rabs (?u + h * ?x - (?u' + h * ?x')) <= _ => replace (u + h * x - (u' + h * x')) with ((u - u') + h * (x - x')) by ring end.
        eapply Rle_trans; [apply Rabs_triang|]. rewrite Rabs_mult. fold a.
        pose proof (CD (Ap l) (q - n)%nat WApl ltac:(lia)) as C1. apply (Rmult_le_compat_l _ _ _ Hh0) in C1. pose proof (Hy (n + (q - n))%nat ltac:(lia)) as C3. lra. }
    apply (HLip t); auto using npoint_length.
    - replace (t + c l * h - t) with (c l * h) by ring. rewrite Rabs_mult. fold a.
      assert (Rabs (c l) * a <= w * a) by (apply Rmult_le_compat_r; auto). lra.
    - eapply close_le; [eapply close_trans; [exact N12|exact N2]|lra].
    - eapply close_le; [exact N2|lra]. }
  intros l Hl. split; [apply Q; auto|]. intros q Hq. apply HB1; auto.
Qed.

Variables b bp : nat -> R.
Hypothesis Wb : forall i, (i < s)%nat -> Rabs (b i) <= W.
Hypothesis Wbp : forall i, (i < s)%nat -> Rabs (bp i) <= W.
Variable eps : R.
Hypothesis Heps : 0 <= eps.
Hypothesis Hp : (0 < p)%nat.
Hypothesis OU : near_U true uV s A Ap c eps b (p - 1).
Hypothesis OV : near_V true uV s A Ap c eps bp p.
Notation STEP := (rkn_step n G s A Ap c b bp).

Definition Lamb2 (L : R) : R := 1 + INR s * (Rabs W * (2 * L)).
Lemma stability2 L r : lipschitz2_near n G lo hi Y L r -> exists del, 0 < del /\ forall t y h e, lo <= t <= hi -> length y = (n + n)%nat ->
  Rabs h < del -> 0 <= e <= r / 4 -> close (n + n) y (Y t) e ->
  close (n + n) (STEP t y h) (STEP t (Y t) h) ((1 + Rabs h * Lamb2 L) * e).
Proof.
  intros HLn. pose proof (proj1 HLn) as HL0. destruct (stages_close2 L r HLn) as (B & del & _ & (Hdel & Hd1) & HG). exists del. split; [auto|]. intros t y h e Ht Ly Hh He Hy.
  assert (Q : forall l, (l < s)%nat -> close n (nth l (ST t y h s) []) (nth l (ST t (Y t) h s) []) (2 * L * e)) by (intros l Hl; apply (HG t y h e); auto).
  set (w := Rabs W). assert (Hw : 0 <= w) by apply Rabs_pos. assert (HWw : W <= w) by apply Rle_abs.
  pose proof (Rabs_pos h) as Hh0. unfold Lamb2. fold w. set (k := INR s). assert (Hk : 0 <= k) by apply pos_INR.
  assert (CD : forall w' q, (forall l, (l < s)%nat -> Rabs (w' l) <= W) -> (q < n)%nat -> Rabs (lcomb s w' (ST t y h s) q - lcomb s w' (ST t (Y t) h s) q) <= k * (w * (2 * L * e))).
  { intros w' q Hw' Hq. unfold lcomb. rewrite <- rsum_sub'. apply rsum_bound. intros l Hl. rewrite <- Rmult_minus_distr_l, Rabs_mult.
    apply Rmult_le_compat; try apply Rabs_pos; [eapply Rle_trans; [apply Hw'; auto|auto]|]. apply Q; auto. }
  set (a := Rabs h) in *. set (X := k * (w * (2 * L * e))) in *.
  assert (HX : 0 <= X) by (unfold X; repeat apply Rmult_le_pos; lra).
  replace ((1 + a * (1 + k * (w * (2 * L)))) * e) with (e + a * e + a * X) by (unfold X; ring).
  assert (0 <= a * e) by (apply Rmult_le_pos; lra).
  intros q Hq. unfold rkn_step. destruct (lt_dec q n) as [Hn|Hn].
  - rewrite !npoint_x by auto.
    match goal with |- Rabs (?u + (h * h * ?x + 1 * h * ?v) - (?u' + (h * h * ?x' + 1 * h * ?v'))) <= _ =>
      replace (u + (h * h * x + 1 * h * v) - (u' + (h * h * x' + 1 * h * v'))) with ((u - u') + (h * h * (x - x') + h * (v - v'))) by ring end.
    eapply Rle_trans; [apply Rabs_triang|]. eapply Rle_trans; [apply Rplus_le_compat_l, Rabs_triang|]. rewrite !Rabs_mult. fold a.
    pose proof (CD b q Wb Hn) as C1. pose proof (Hy q ltac:(lia)) as C2. pose proof (Hy (n + q)%nat ltac:(lia)) as C3.
    apply (Rmult_le_compat_l a _ _ Hh0) in C1. apply (Rmult_le_compat_l a _ _ Hh0) in C3.
    assert (T1 : a * a * Rabs (lcomb s b (ST t y h s) q - lcomb s b (ST t (Y t) h s) q) <= a * X).
    { rewrite Rmult_assoc. eapply Rle_trans; [|exact C1]. rewrite <- (Rmult_1_l (a * Rabs _)) at 2. apply Rmult_le_compat_r; [apply Rmult_le_pos; [auto|apply Rabs_pos]|lra]. }
    lra.
  - replace q with (n + (q - n))%nat by lia. rewrite !npoint_v by lia.
    match goal with |- Rabs (?u + h * ?x - (?u' + h * ?x')) <= _ => replace (u + h * x - (u' + h * x')) with ((u - u') + h * (x - x')) by ring end.
    eapply Rle_trans; [apply Rabs_triang|]. rewrite Rabs_mult. fold a.
    pose proof (CD bp (q - n)%nat Wbp ltac:(lia)) as C1. apply (Rmult_le_compat_l _ _ _ Hh0) in C1. pose proof (Hy (n + (q - n))%nat ltac:(lia)) as C3. lra.
Qed.

Lemma global_core2 L : 0 <= L -> exists C, 0 <= C /\ forall r, lipschitz2_near n G lo hi Y L r ->
  exists del, 0 < del /\ forall H ta t y, 0 <= H < del -> C * (eps + H ^ p) <= r / 4 -> lo <= ta <= hi -> opath lo hi Y STEP H ta t y ->
  length y = (n + n)%nat /\ lo <= t <= hi /\ close (n + n) y (Y t) (C * (eps + H ^ p)).
Proof.
  intros HL. destruct (local_error2 uV n p G lo hi Y Hvf HY HS s A Ap c HA HAp W WA WAp Wc b bp Wb Wbp eps Heps Hp OU OV) as (C1 & d2 & HC1 & Hd2 & Hloc).
  assert (HLam : 0 <= Lamb2 L) by (unfold Lamb2; pose proof (pos_INR s); pose proof (Rabs_pos W); assert (0 <= INR s * (Rabs W * (2 * L))) by (repeat apply Rmult_le_pos; lra); lra).
  exists (C1 * (Rabs (hi - lo) * exp (Lamb2 L * Rabs (hi - lo)))). split; [apply Rmult_le_pos; [auto|apply Rmult_le_pos; [apply Rabs_pos|left; apply exp_pos]]|].
  intros r HLip. destruct (stability2 L r HLip) as (d1 & Hd1 & Hst). exists (Rmin d1 d2). split; [apply Rmin_case; auto|].
  intros H ta t y (H0 & HH) He0 Hta HP.
  apply (onestep_core (n + n) p lo hi Y STEP C1 (Lamb2 L) eps (r / 4) d1 d2) with (ta := ta); auto.
  - intros; apply rkn_step_len.
  - intros; apply (Y_len2 n G lo hi Y HY); auto.
  - eapply Rlt_le_trans; [exact HH|apply Rmin_l].
  - eapply Rlt_le_trans; [exact HH|apply Rmin_r].
Qed.
Lemma pow_le_self H D : 0 <= H < D -> D <= 1 -> 0 <= H ^ p <= D.
Proof.
  intros (H0 & HH) D3. split; [apply pow_le; auto|]. revert Hp. clear - H0 HH D3. generalize p as k. intros [|p'] Hp; [lia|]. simpl. apply Rle_trans with (H * 1); [|lra].
  apply Rmult_le_compat_l; [auto|]. replace 1 with (1 ^ p') by apply pow1. apply pow_incr. lra.
Qed.
Theorem global_error2 : eps = 0 -> lipschitz2_along n G lo hi Y -> exists C del, 0 <= C /\ 0 < del /\ forall H ta t y,
  0 <= H < del -> lo <= ta <= hi -> opath lo hi Y STEP H ta t y ->
  length y = (n + n)%nat /\ lo <= t <= hi /\ close (n + n) y (Y t) (C * H ^ p).
Proof.
  intros E0 (L & r & HL). destruct (global_core2 L (proj1 HL)) as (C & HC & H1). destruct (H1 r HL) as (d1 & Hd1 & H2).
  assert (Hr : 0 < r) by (destruct HL as (_ & Hr & _); exact Hr).
  set (D := Rmin d1 (Rmin 1 (r / 4 / (C + 1)))). exists C, D. split; [auto|].
  split. { unfold D. apply Rmin_case; auto. apply Rmin_case; [lra|]. apply Rdiv_lt_0_compat; lra. }
  intros H ta t y HH Hta HP.
  assert (D1 : D <= d1) by apply Rmin_l.
  assert (D3 : D <= 1) by (eapply Rle_trans; [apply Rmin_r|apply Rmin_l]).
  assert (D4 : D <= r / 4 / (C + 1)) by (eapply Rle_trans; [apply Rmin_r|apply Rmin_r]).
  apply Rmult_le_compat_r with (r := C + 1) in D4; [|lra]. unfold Rdiv in D4 at 1. rewrite Rmult_assoc, Rinv_l, Rmult_1_r in D4 by lra.
  pose proof (pow_le_self H D HH D3) as HHp. rewrite E0 in H2.
  replace (C * H ^ p) with (C * (0 + H ^ p)) by ring. apply (H2 H ta t y); auto; [lra|].
  assert (C * (0 + H ^ p) <= C * D) by (apply Rmult_le_compat_l; lra). lra.
Qed.
Theorem global_error_lipschitz2 : lipschitz2_global n G -> exists C del, 0 <= C /\ 0 < del /\ forall H ta t y,
  0 <= H < del -> lo <= ta <= hi -> opath lo hi Y STEP H ta t y ->
  length y = (n + n)%nat /\ lo <= t <= hi /\ close (n + n) y (Y t) (C * (eps + H ^ p)).
Proof.
  intros (L & HL0 & HL). destruct (global_core2 L HL0) as (C & HC & H1).
  set (r := 4 * (C * (eps + 1)) + 1).
  assert (Hr : 0 <= C * (eps + 1)) by (apply Rmult_le_pos; lra).
  destruct (H1 r) as (d1 & Hd1 & H2).
  { split; [auto|]. split; [unfold r; lra|]. intros t s0 u v e _ _ Hu Hv _ _ Huv. apply HL; auto. }
  exists C, (Rmin d1 1). split; [auto|]. split; [apply Rmin_case; lra|]. intros H ta t y (H0 & HH) Hta HP.
  assert (D1 : H < d1) by (eapply Rlt_le_trans; [exact HH|apply Rmin_l]).
  assert (D3 : H < 1) by (eapply Rlt_le_trans; [exact HH|apply Rmin_r]).
  apply (H2 H ta t y); auto. unfold r.
  pose proof (pow_le_self H 1 ltac:(lra) ltac:(lra)) as HHp. apply Rle_trans with (C * (eps + 1)); [apply Rmult_le_compat_l; lra|lra].
Qed.
End Global2.
