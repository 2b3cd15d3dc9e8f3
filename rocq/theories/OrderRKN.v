(** Local order of explicit Runge-Kutta-Nystrom methods on x'' = G(t, x, x'):
    instance of OrderThm.v; the state y is the list x ++ x' of 2 n reals. *)
From Coq Require Import Reals Lra QArith Qreals Lia List Arith Bool.
From Verif Require Import Series Trees OrderThm OrderCheck OrderRK.
Import ListNotations.
Open Scope R_scope.

(** G has a Taylor expansion of order p at (t0, x0, v0) *)
Definition smooth_at2 (n p : nat) (G : R -> list R -> list R) (t0 : R) (y0 : list R) : Prop :=
  exists T, taylor_at (S (n + n)) n (fo G (n + n)) (pt t0 y0) T p.
(** Y = (X, X') solves x'' = G(t, x, x') near t0 with Y(t0) = y0 *)
Definition solves2 (n : nat) (G : R -> list R -> list R) (t0 : R) (y0 : list R) (Y : R -> list R) : Prop :=
  Y t0 = y0 /\ exists del, 0 < del /\ forall t, Rabs (t - t0) < del -> length (Y t) = (n + n)%nat /\
    forall q, (q < n)%nat -> derivable_pt_lim (fun x => nth q (Y x) 0) t (nth (n + q) (Y t) 0) /\
      derivable_pt_lim (fun x => nth (n + q) (Y x) 0) t (nth q (G t (Y t)) 0).
Definition velocity_free (n : nat) (G : R -> list R -> list R) : Prop :=
  forall t y y', length y = (n + n)%nat -> length y' = (n + n)%nat -> firstn n y = firstn n y' -> G t y = G t y'.

(** the real Nystrom stages *)
Definition npoint (n : nat) (y : list R) (h c : R) (gx gv : nat -> R) : list R :=
  map (fun q => nth q y 0 + (h * h * gx q + c * h * nth (n + q) y 0)) (seq 0 n) ++
  map (fun q => nth (n + q) y 0 + h * gv q) (seq 0 n).
Fixpoint nstages (n : nat) (G : R -> list R -> list R) (A Ap : nat -> nat -> R) (c : nat -> R) (t : R) (y : list R) (h : R) (m : nat) : list (list R) :=
  match m with
  | O => []
  | S i => let ks := nstages n G A Ap c t y h i in
           ks ++ [G (t + c i * h) (npoint n y h (c i) (lcomb i (A i) ks) (lcomb i (Ap i) ks))]
  end.
Lemma nstages_length n G A Ap c t y h m : length (nstages n G A Ap c t y h m) = m.
Proof. induction m as [|m IH]; [reflexivity|]. simpl. rewrite app_length, IH. simpl. lia. Qed.
Lemma nstages_nth n G A Ap c t y h m : forall i, (i < m)%nat ->
  nth i (nstages n G A Ap c t y h m) [] = G (t + c i * h) (npoint n y h (c i) (lcomb i (A i) (nstages n G A Ap c t y h i)) (lcomb i (Ap i) (nstages n G A Ap c t y h i))).
Proof.
  induction m as [|m IH]; intros i Hi; [lia|]. simpl. destruct (Nat.eq_dec i m) as [->|Hne].
  - rewrite app_nth2; rewrite nstages_length; [|lia]. rewrite Nat.sub_diag. reflexivity.
  - rewrite app_nth1; [|rewrite nstages_length; lia]. apply IH. lia.
Qed.
Lemma lcomb_prefix2 n G A Ap c t y h m i w q : (i <= m)%nat -> lcomb i w (nstages n G A Ap c t y h i) q = lcomb i w (nstages n G A Ap c t y h m) q.
Proof. intros Hn. apply rsum_ext. intros l Hl. f_equal. f_equal. rewrite !nstages_nth by lia. reflexivity. Qed.
Lemma npoint_length n y h c gx gv : length (npoint n y h c gx gv) = (n + n)%nat.
Proof. unfold npoint. rewrite app_length, !map_length, !seq_length. reflexivity. Qed.
Lemma npoint_x n y h c gx gv q : (q < n)%nat -> nth q (npoint n y h c gx gv) 0 = nth q y 0 + (h * h * gx q + c * h * nth (n + q) y 0).
Proof. intros H. unfold npoint. rewrite app_nth1 by (rewrite map_length, seq_length; auto). rewrite (nth_map_seq (fun q => nth q y 0 + (h * h * gx q + c * h * nth (n + q) y 0))); auto. Qed.
Lemma npoint_v n y h c gx gv q : (q < n)%nat -> nth (n + q) (npoint n y h c gx gv) 0 = nth (n + q) y 0 + h * gv q.
Proof.
  intros H. unfold npoint. rewrite app_nth2 by (rewrite map_length, seq_length; lia). rewrite map_length, seq_length.
  replace (n + q - n)%nat with q by lia. rewrite (nth_map_seq (fun q => nth (n + q) y 0 + h * gv q)); auto.
Qed.

Section SecondOrder.
Variable uV : bool.
Variable n : nat.
Variable G : R -> list R -> list R.
Variable t0 : R.
Variable y0 : list R.
Hypothesis Hy0 : length y0 = (n + n)%nat.
Variable p : nat.
Hypothesis HG : smooth_at2 n p G t0 y0.
Hypothesis Hvf : uV = false -> velocity_free n G.
Variable Y : R -> list R.
Hypothesis HY : solves2 n G t0 y0 Y.

Definition ell2 (j : nat) : R := match j with O => 1 | S j' => if Nat.ltb j' n then nth (n + j') y0 0 else 0 end.
Definition pu2 (j : nat) : option nat := match j with O => None | S j' => if Nat.ltb j' n then Some j' else None end.
Definition pv2 (j : nat) : option nat := match j with O => None | S j' => if Nat.ltb j' n then None else if Nat.ltb j' (n + n) then Some (j' - n)%nat else None end.
Lemma pu2_lt j q : pu2 j = Some q -> (q < n)%nat.
Proof. destruct j as [|j]; simpl; [discriminate|]. destruct (Nat.ltb_spec j n); [|discriminate]. intros E. injection E as <-. auto. Qed.
Lemma pv2_lt j q : pv2 j = Some q -> (q < n)%nat.
Proof.
  destruct j as [|j]; simpl; [discriminate|]. destruct (Nat.ltb_spec j n); [discriminate|].
  destruct (Nat.ltb_spec j (n + n)); [|discriminate]. intros E. injection E as <-. lia.
Qed.

Definition YV2 (h : R) (q : nat) : R := nth (n + q) (Y (t0 + h)) 0.
Definition YU2 (h : R) (q : nat) : R := nth q (Y (t0 + h)) 0 - h * nth (n + q) y0 0.
Definition K2 (h : R) (q : nat) : R := nth q (G (t0 + h) (Y (t0 + h))) 0.

Lemma HYV2 : exists del, 0 < del /\ forall h, Rabs h < del -> forall q, (q < n)%nat -> derivable_pt_lim (fun x => YV2 x q) h (K2 h q).
Proof.
  destruct HY as (_ & del & Hd & H). exists del. split; auto. intros h Hh q Hq.
  destruct (H (t0 + h)) as (_ & H1); [replace (t0 + h - t0) with h by ring; auto|].
  unfold YV2. apply (shift_derive t0 (fun x => nth (n + q) (Y x) 0)). apply H1; auto.
Qed.
Lemma YV2_0 q : YV2 0 q = nth (n + q) y0 0.
Proof. unfold YV2. replace (t0 + 0) with t0 by ring. destruct HY as (-> & _). reflexivity. Qed.
Lemma HYU2 : exists del, 0 < del /\ forall h, Rabs h < del -> forall q, (q < n)%nat -> derivable_pt_lim (fun x => YU2 x q) h (YV2 h q - YV2 0 q).
Proof.
  destruct HY as (_ & del & Hd & H). exists del. split; auto. intros h Hh q Hq.
  destruct (H (t0 + h)) as (_ & H1); [replace (t0 + h - t0) with h by ring; auto|].
  rewrite YV2_0. unfold YU2, YV2.
  apply (derivable_pt_lim_minus (fun x => nth q (Y (t0 + x)) 0) (fun x => x * nth (n + q) y0 0)).
  - apply (shift_derive t0 (fun x => nth q (Y x) 0)). apply H1; auto.
  - intros eps He. exists (mkposreal 1 Rlt_0_1). intros x Hx _.
    replace (((h + x) * nth (n + q) y0 0 - h * nth (n + q) y0 0) / x - nth (n + q) y0 0) with 0 by (field; auto).
    rewrite Rabs_R0. exact He.
Qed.
Definition exact_pt (h : R) (j : nat) : R := pt t0 y0 j + exact_arg true uV ell2 pu2 pv2 YV2 YU2 h j.
Lemma exact_pt_t h : exact_pt h 0 = t0 + h.
Proof. unfold exact_pt, exact_arg, pt, opt0, inj. simpl. destruct uV; ring. Qed.
Lemma exact_pt_x h j : (j < n)%nat -> exact_pt h (S j) = nth j (Y (t0 + h)) 0.
Proof.
  intros Hj. unfold exact_pt, exact_arg, pt, opt0, inj. simpl. destruct (Nat.ltb_spec j n); [|lia].
  unfold YU2. replace (t0 + 0) with t0 by ring. destruct HY as (-> & _). destruct uV; ring.
Qed.
Lemma exact_pt_v h j : uV = true -> (j < n)%nat -> exact_pt h (S (n + j)) = nth (n + j) (Y (t0 + h)) 0.
Proof.
  intros Hu Hj. unfold exact_pt, exact_arg, pt, opt0, inj. rewrite Hu. simpl.
  destruct (Nat.ltb_spec (n + j) n); [lia|]. destruct (Nat.ltb_spec (n + j) (n + n)); [|lia].
  replace (n + j - n)%nat with j by lia. rewrite YV2_0. unfold YV2. ring.
Qed.
Lemma list_split_eq (l l' : list R) : length l = (n + n)%nat -> length l' = (n + n)%nat ->
  (forall j, (j < n)%nat -> nth j l 0 = nth j l' 0) -> (forall j, (j < n)%nat -> nth (n + j) l 0 = nth (n + j) l' 0) -> l = l'.
Proof.
  intros L1 L2 H1 H2. apply (nth_ext _ _ 0 0); [congruence|]. intros j Hj.
  destruct (le_lt_dec n j); [|auto]. replace j with (n + (j - n))%nat by lia. apply H2. lia.
Qed.
Lemma firstn_nth_eq (l l' : list R) : length l = (n + n)%nat -> length l' = (n + n)%nat ->
  (forall j, (j < n)%nat -> nth j l 0 = nth j l' 0) -> firstn n l = firstn n l'.
Proof.
  intros L1 L2 H1. apply (nth_ext _ _ 0 0); [rewrite !firstn_length; lia|]. intros j Hj. rewrite firstn_length in Hj.
  assert (Hn : forall m : list R, nth j (firstn n m) 0 = nth j m 0).
  { intros m. rewrite <- (firstn_skipn n m) at 2. destruct (lt_dec j (length (firstn n m))).
    - rewrite app_nth1; auto.
    - assert (length m <= j)%nat by (rewrite firstn_length in n0; lia).
      rewrite firstn_skipn. rewrite (nth_overflow m) by lia. apply nth_overflow. rewrite firstn_length. lia. }
  rewrite !Hn. apply H1. lia.
Qed.
Lemma arg_list (g : nat -> R) j : (j < n + n)%nat -> nth j (map (fun j => g (S j)) (seq 0 (n + n))) 0 = g (S j).
Proof. intros H. apply (nth_map_seq (fun j => g (S j))). auto. Qed.

Lemma HK2 : exists del, 0 < del /\ forall h, Rabs h < del -> forall q, (q < n)%nat ->
  K2 h q = fo G (n + n) (exact_pt h) q.
Proof.
  destruct HY as (HY0 & del & Hd & H). exists del. split; auto. intros h Hh q Hq.
  destruct (H (t0 + h)) as (HL & _); [replace (t0 + h - t0) with h by ring; auto|].
  unfold K2, fo. rewrite exact_pt_t. f_equal.
  assert (L : length (map (fun j => exact_pt h (S j)) (seq 0 (n + n))) = (n + n)%nat) by (rewrite map_length, seq_length; auto).
  destruct (Bool.bool_dec uV true) as [Hu|Hu].
  - f_equal. apply list_split_eq; auto.
    + intros j Hj. rewrite (arg_list (exact_pt h)) by lia. symmetry. apply exact_pt_x; auto.
    + intros j Hj. rewrite (arg_list (exact_pt h)) by lia. symmetry. apply exact_pt_v; auto.
  - apply Bool.not_true_is_false in Hu. apply (Hvf Hu); auto. apply firstn_nth_eq; auto.
    intros j Hj. rewrite (arg_list (exact_pt h)) by lia. symmetry. apply exact_pt_x; auto.
Qed.
Lemma deriv_small (g : R -> R) l eps : derivable_pt_lim g 0 l -> 0 < eps -> exists del, 0 < del /\ forall h, Rabs h < del -> Rabs (g h - g 0) < eps.
Proof.
  intros H He. assert (Hc : continuity_pt g 0) by (apply derivable_continuous_pt; exists l; exact H).
  destruct (Hc eps He) as (d4 & Hd4 & H4). exists d4. split; [lra|]. intros h Hh.
  unfold dist in H4. simpl in H4. unfold R_dist in H4.
  destruct (Req_dec h 0) as [->|Hne]; [rewrite Rminus_diag_eq by auto; rewrite Rabs_R0; auto|].
  apply H4. split; [split; [exact I|auto]|]. rewrite Rminus_0_r. exact Hh.
Qed.
Lemma HKb2 : forall q, (q < n)%nat -> Oh 0 (fun h => K2 h q).
Proof.
  intros q Hq. destruct HG as (T & HT). destruct (taylor_bounded _ _ _ _ _ _ HT) as (B & d1 & Hd1 & H1).
  destruct HK2 as (d2 & Hd2 & H2).
  assert (Hz : forall j, (j < S (n + n))%nat -> exists del, 0 < del /\ forall h, Rabs h < del ->
     Rabs (exact_arg true uV ell2 pu2 pv2 YV2 YU2 h j) < d1).
  { intros j Hj.
    assert (Hlin : forall a, exists del, 0 < del /\ forall h, Rabs h < del -> Rabs (h * a) < d1).
    { intros a. apply (Oh_small 0); auto. apply (Oh_ext 1 (fun h => a * h ^ 1)); [intros; ring|]. apply Oh_scal, Oh_pow. }
    destruct j as [|j].
    - destruct (Hlin 1) as (del & Hd & HH). exists del. split; auto. intros h Hh. specialize (HH h Hh).
      unfold exact_arg, opt0, inj. simpl. destruct uV; rewrite !Rplus_0_r; exact HH.
    - destruct (le_lt_dec n j) as [Hnj|Hnj].
      + destruct (Bool.bool_dec uV true) as [Hu|Hu].
        * destruct HYV2 as (d3 & Hd3 & H3). specialize (H3 0 ltac:(rewrite Rabs_R0; auto) (j - n)%nat ltac:(lia)).
          destruct (deriv_small _ _ d1 H3 Hd1) as (d4 & Hd4 & H4). exists d4. split; auto. intros h Hh. specialize (H4 h Hh).
          unfold exact_arg, opt0, inj. rewrite Hu. simpl. destruct (Nat.ltb_spec j n); [lia|]. destruct (Nat.ltb_spec j (n + n)); [|lia].
          rewrite Rmult_0_r, !Rplus_0_l. exact H4.
        * apply Bool.not_true_is_false in Hu. exists 1. split; [lra|]. intros h _. unfold exact_arg, opt0, inj. rewrite Hu. simpl.
          destruct (Nat.ltb_spec j n); [lia|]. rewrite Rmult_0_r, !Rplus_0_l, Rabs_R0. auto.
      + destruct HY as (HY0 & d3 & Hd3 & H3). destruct (H3 t0) as (_ & H5); [rewrite Rminus_diag_eq by auto; rewrite Rabs_R0; auto|].
        destruct (H5 j Hnj) as (H6 & _). rewrite <- (Rplus_0_r t0) in H6 at 1.
        apply (shift_derive t0 (fun x => nth j (Y x) 0)) in H6.
        destruct (deriv_small _ _ d1 H6 Hd1) as (d4 & Hd4 & H4). exists d4. split; auto. intros h Hh. specialize (H4 h Hh).
        pose proof (exact_pt_x h j Hnj) as E. unfold exact_pt, pt in E. simpl nth in E.
        replace (t0 + 0) with t0 in H4 by ring. rewrite HY0 in H4.
        replace (exact_arg true uV ell2 pu2 pv2 YV2 YU2 h (S j)) with (nth j (Y (t0 + h)) 0 - nth j y0 0); [exact H4|].
        rewrite <- E. ring. }
  destruct (common_del _ _ Hz) as (d3 & Hd3 & H3).
  apply (Oh0_intro _ B (Rmin d2 d3)); [apply Rmin_case; auto|]. intros h Hh.
  assert (A2 : Rabs h < d2) by (eapply Rlt_le_trans; [exact Hh|apply Rmin_l]).
  assert (A3 : Rabs h < d3) by (eapply Rlt_le_trans; [exact Hh|apply Rmin_r]).
  rewrite (H2 h A2 q Hq). apply (H1 (exact_arg true uV ell2 pu2 pv2 YV2 YU2 h)); auto.
Qed.

Variable s : nat.
Variables A Ap : nat -> nat -> R.
Variable c : nat -> R.
Hypothesis HA : forall i l, (i <= l)%nat -> A i l = 0.
Hypothesis HAp : forall i l, (i <= l)%nat -> Ap i l = 0.
Definition kn (i : nat) (h : R) (q : nat) : R := nth q (nth i (nstages n G A Ap c t0 y0 h s) []) 0.
Lemma lcomb_kn i w h q : (i <= s)%nat -> (forall l, (i <= l)%nat -> w l = 0) ->
  lcomb i w (nstages n G A Ap c t0 y0 h i) q = rsum s (fun l => w l * kn l h q).
Proof. intros Hi Hw. rewrite (lcomb_prefix2 n G A Ap c t0 y0 h s) by auto. rewrite (lcomb_zero_tail i s) by auto. reflexivity. Qed.
Lemma Hk2 : exists del, 0 < del /\ forall h, Rabs h < del -> forall i q, (i < s)%nat -> (q < n)%nat ->
  kn i h q = fo G (n + n) (fun j => pt t0 y0 j + stage_arg true uV ell2 pu2 pv2 s A Ap c kn i h j) q.
Proof.
  exists 1. split; [lra|]. intros h _ i q Hi Hq. unfold kn at 1. rewrite nstages_nth by auto.
  set (g := fun j => pt t0 y0 j + stage_arg true uV ell2 pu2 pv2 s A Ap c kn i h j).
  assert (E0 : g 0%nat = t0 + c i * h).
  { unfold g, stage_arg, pt, opt0, inj. simpl. rewrite !(rsum_zero s) by (intros; ring). destruct uV; ring. }
  unfold fo. rewrite E0. f_equal.
  assert (L : length (map (fun j => g (S j)) (seq 0 (n + n))) = (n + n)%nat) by (rewrite map_length, seq_length; auto).
  assert (EX : forall j, (j < n)%nat -> nth j (npoint n y0 h (c i) (lcomb i (A i) (nstages n G A Ap c t0 y0 h i)) (lcomb i (Ap i) (nstages n G A Ap c t0 y0 h i))) 0 = nth j (map (fun j => g (S j)) (seq 0 (n + n))) 0).
  { intros j Hj. rewrite npoint_x, (arg_list g) by lia. rewrite lcomb_kn by (auto; lia).
    unfold g, stage_arg, pt, opt0, inj. simpl. destruct (Nat.ltb_spec j n); [|lia].
    rewrite (rsum_zero s (fun l => Ap i l * 0)) by (intros; ring). destruct uV; ring. }
  destruct (Bool.bool_dec uV true) as [Hu|Hu].
  - f_equal. apply list_split_eq; auto using npoint_length.
    intros j Hj. rewrite npoint_v, (arg_list g) by lia. rewrite lcomb_kn by (auto; lia).
    unfold g, stage_arg, pt, opt0, inj. rewrite Hu. simpl. destruct (Nat.ltb_spec (n + j) n); [lia|]. destruct (Nat.ltb_spec (n + j) (n + n)); [|lia].
    replace (n + j - n)%nat with j by lia. rewrite (rsum_zero s (fun l => A i l * 0)) by (intros; ring). ring.
  - apply Bool.not_true_is_false in Hu. apply (Hvf Hu); auto using npoint_length. apply firstn_nth_eq; auto using npoint_length.
Qed.
Lemma HB2 : forall i q, (i < s)%nat -> (q < n)%nat -> Oh 0 (fun h => kn i h q).
Proof.
  destruct HG as (T & HT). apply (explicit_bounded true uV (S (n + n)) n p s T ell2 pu2 pv2 pu2_lt pv2_lt (fo G (n + n)) (pt t0 y0) HT A Ap c); auto.
  apply Hk2.
Qed.

(** velocities and positions at t0 + th h *)
Theorem rkn_order_v (D : R -> Prop) (b : R -> nat -> R) (B : R) (m q : nat) :
  (q < n)%nat -> (m <= p)%nat -> 0 <= B ->
  (forall th, D th -> Rabs th <= 1 /\ (forall i, (i < s)%nat -> Rabs (b th i) <= B) /\ order_V true uV s A Ap c (b th) th m) ->
  exists C del, 0 < del /\ forall th h, D th -> Rabs h < del ->
    Rabs (nth (n + q) y0 0 + h * lcomb s (b th) (nstages n G A Ap c t0 y0 h s) q - nth (n + q) (Y (t0 + th * h)) 0) <= C * Rabs h ^ S m.
Proof.
  intros Hq Hm HB HD. destruct HG as (T & HT).
  destruct (order_V_error true uV (S (n + n)) n p T ell2 pu2 pv2 pu2_lt pv2_lt (fo G (n + n)) (pt t0 y0) HT s A Ap c kn HB2 Hk2
    K2 YV2 YU2 HYV2) with (D := D) (b := b) (B := B) (m := m) (q := q) as (C & del & Hd & H); auto.
  - intros _. exact HYU2.
  - exact HKb2.
  - exact HK2.
  - exists C, del. split; auto. intros th h HDt Hh. specialize (H th h HDt Hh). rewrite YV2_0 in H. unfold YV2 in H.
    unfold lcomb.
    replace (nth (n + q) y0 0 + h * rsum s (fun l => b th l * nth q (nth l (nstages n G A Ap c t0 y0 h s) []) 0) - nth (n + q) (Y (t0 + th * h)) 0)
      with (h * rsum s (fun i => b th i * kn i h q) - (nth (n + q) (Y (t0 + th * h)) 0 - nth (n + q) y0 0)) by (unfold kn; ring).
    exact H.
Qed.
Theorem rkn_order_x (D : R -> Prop) (b : R -> nat -> R) (B : R) (m q : nat) :
  (q < n)%nat -> (m <= p)%nat -> 0 <= B ->
  (forall th, D th -> Rabs th <= 1 /\ (forall i, (i < s)%nat -> Rabs (b th i) <= B) /\ order_U true uV s A Ap c (b th) th m) ->
  exists C del, 0 < del /\ forall th h, D th -> Rabs h < del ->
    Rabs (nth q y0 0 + (th * h * nth (n + q) y0 0 + h * (h * lcomb s (b th) (nstages n G A Ap c t0 y0 h s) q)) - nth q (Y (t0 + th * h)) 0) <= C * Rabs h ^ S (S m).
Proof.
  intros Hq Hm HB HD. destruct HG as (T & HT).
  destruct (order_U_error true uV (S (n + n)) n p T ell2 pu2 pv2 pu2_lt pv2_lt (fo G (n + n)) (pt t0 y0) HT s A Ap c kn HB2 Hk2
    K2 YV2 YU2 HYV2) with (D := D) (b := b) (B := B) (m := m) (q := q) as (C & del & Hd & H); auto.
  - intros _. exact HYU2.
  - exact HKb2.
  - exact HK2.
  - exists C, del. split; auto. intros th h HDt Hh. specialize (H th h HDt Hh). unfold YU2 in H.
    replace (t0 + 0) with t0 in H by ring. destruct HY as (HY0 & _). rewrite HY0 in H.
    unfold lcomb.
    replace (nth q y0 0 + (th * h * nth (n + q) y0 0 + h * (h * rsum s (fun l => b th l * nth q (nth l (nstages n G A Ap c t0 y0 h s) []) 0))) - nth q (Y (t0 + th * h)) 0)
      with (h * (h * rsum s (fun i => b th i * kn i h q)) - (nth q (Y (t0 + th * h)) 0 - th * h * nth (n + q) y0 0 - (nth q y0 0 - 0 * nth (n + q) y0 0))) by (unfold kn; ring).
    exact H.
Qed.
Theorem rkn_small (b : nat -> R) (m q : nat) : (q < n)%nat -> (m <= p)%nat -> order_Z true uV s A Ap c b m ->
  exists C del, 0 < del /\ forall h, Rabs h < del ->
    Rabs (lcomb s b (nstages n G A Ap c t0 y0 h s) q) <= C * Rabs h ^ m.
Proof.
  intros Hq Hm HO. destruct HG as (T & HT).
  exact (order_Z_bound true uV (S (n + n)) n p T ell2 pu2 pv2 pu2_lt pv2_lt (fo G (n + n)) (pt t0 y0) HT s A Ap c kn HB2 Hk2 b m q Hq Hm HO).
Qed.
End SecondOrder.
