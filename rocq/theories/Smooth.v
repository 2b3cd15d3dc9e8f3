(** Polynomial right-hand sides have Taylor expansions of every order at every point. *)
From Coq Require Import Reals Lra Psatz Lia List Arith.
From Verif Require Import Series Trees OrderThm OrderRK OrderRKN.
Import ListNotations.
Open Scope R_scope.

Definition mono (w : nat -> R) (js : list nat) : R := fold_right (fun j pr => w j * pr) 1 js.
Definition pval (w : nat -> R) (P : list (R * list nat)) : R := lsum P (fun m => fst m * mono w (snd m)).

Fixpoint expand (w0 : nat -> R) (js : list nat) : list (R * list nat) :=
  match js with
  | [] => [(1, [])]
  | j :: js' => flat_map (fun m => [(w0 j * fst m, snd m); (fst m, j :: snd m)]) (expand w0 js')
  end.
Definition shift (w0 : nat -> R) (P : list (R * list nat)) : list (R * list nat) :=
  flat_map (fun m => map (fun m' => (fst m * fst m', snd m')) (expand w0 (snd m))) P.

Lemma expand_ok w0 z js : mono (fun j => w0 j + z j) js = pval z (expand w0 js).
Proof.
  induction js as [|j js IH]; unfold pval in *; simpl; [ring|]. change (fold_right _ 1 js) with (mono (fun j => w0 j + z j) js).
  rewrite lsum_flat_map, IH, <- lsum_scal. apply lsum_ext. intros [c l] _. simpl. change (fold_right (fun j pr => z j * pr) 1 l) with (mono z l). unfold mono. ring.
Qed.
Lemma shift_ok w0 z P : pval (fun j => w0 j + z j) P = pval z (shift w0 P).
Proof.
  unfold pval, shift. rewrite lsum_flat_map. apply lsum_ext. intros [c js] _. cbn [fst snd]. rewrite lsum_map, expand_ok. unfold pval.
  rewrite <- lsum_scal. apply lsum_ext. intros [c' l] _. cbn [fst snd]. ring.
Qed.
Lemma expand_in w0 e js : Forall (fun j => (j < e)%nat) js -> forall m, In m (expand w0 js) -> Forall (fun j => (j < e)%nat) (snd m).
Proof.
  induction 1 as [|j js Hj Hjs IH]; simpl; intros m Hm; [destruct Hm as [<-|[]]; constructor|].
  apply in_flat_map in Hm. destruct Hm as (m' & H1 & H2). destruct H2 as [<-|[<-|[]]]; simpl; auto.
Qed.
Lemma shift_in w0 e P : Forall (fun m => Forall (fun j => (j < e)%nat) (snd m)) P ->
  Forall (fun m => Forall (fun j => (j < e)%nat) (snd m)) (shift w0 P).
Proof.
  rewrite !Forall_forall. intros H m Hm. unfold shift in Hm. apply in_flat_map in Hm. destruct Hm as (m1 & H1 & H2).
  apply in_map_iff in H2. destruct H2 as (m2 & <- & H2). cbn [snd]. apply (expand_in w0 e (snd m1)); auto.
Qed.

(** coefficients *)
Ltac led E := match goal with |- context [list_eq_dec ?a ?b ?c] => destruct (list_eq_dec a b c) as [E|E] end.
Definition coef (P : list (R * list nat)) (js : list nat) : R :=
  lsum P (fun m => if list_eq_dec Nat.eq_dec (snd m) js then fst m else 0).
Lemma pick e : forall m js' (g : list nat -> R), Forall (fun j => (j < e)%nat) js' ->
  lsum (idx e m) (fun js => (if list_eq_dec Nat.eq_dec js' js then 1 else 0) * g js) = if Nat.eqb (length js') m then g js' else 0.
Proof.
  induction m as [|m IH]; intros js' g H.
  - destruct js' as [|j js']; cbn [idx lsum length Nat.eqb]; led E; try discriminate; try congruence; ring.
  - cbn [idx]. rewrite lsum_flat_map. destruct js' as [|j' js'].
    + cbn [length Nat.eqb]. apply lsum_zero. intros j _. rewrite lsum_map. apply lsum_zero. intros js _. led E; [discriminate|ring].
    + inversion H as [|? ? Hj' Hjs']; subst.
      rewrite (lsum_ext _ _ (fun j => (if Nat.eq_dec j' j then 1 else 0) * (if Nat.eqb (length js') m then g (j' :: js') else 0))).
      * rewrite lsum_scal_r. cbn [length Nat.eqb]. replace (lsum (seq 0 e) _) with 1; [ring|].
        rewrite lsum_seq. clear -Hj'. induction e as [|e IHe]; [lia|]. cbn [rsum]. destruct (Nat.eq_dec j' e) as [->|].
        -- rewrite rsum_zero; [ring|]. intros k Hk. destruct (Nat.eq_dec e k); [lia|reflexivity].
        -- rewrite <- IHe by lia. ring.
      * intros j _. rewrite lsum_map. destruct (Nat.eq_dec j' j) as [->|Hne].
        -- rewrite <- (IH js' (fun js => g (j :: js)) Hjs'). rewrite Rmult_1_l. apply lsum_ext. intros js _. f_equal.
           led E; led E'; try reflexivity; [injection E; congruence|congruence].
        -- rewrite Rmult_0_l. apply lsum_zero. intros js _. led E; [injection E; congruence|ring].
Qed.

Lemma coef_ok e z P m : Forall (fun m => Forall (fun j => (j < e)%nat) (snd m)) P ->
  lsum (idx e m) (fun js => coef P js * mono z js) = lsum P (fun t => if Nat.eqb (length (snd t)) m then fst t * mono z (snd t) else 0).
Proof.
  intros H. unfold coef. rewrite (lsum_ext _ _ (fun js => lsum P (fun t => fst t * ((if list_eq_dec Nat.eq_dec (snd t) js then 1 else 0) * mono z js)))).
  - rewrite lsum_swap. apply lsum_ext. intros [c js'] Hin. cbn [fst snd]. rewrite lsum_scal. rewrite Forall_forall in H. rewrite pick by (apply (H _ Hin)).
    destruct (Nat.eqb _ _); ring.
  - intros js _. rewrite <- lsum_scal_r. apply lsum_ext. intros [c js'] _. cbn [fst snd]. led E; ring.
Qed.

Lemma mono_bound e z js : Forall (fun j => (j < e)%nat) js -> Rabs (mono z js) <= rsum e (fun j => Rabs (z j)) ^ length js.
Proof.
  intros H. induction H as [|j js Hj Hjs IH]; simpl; [rewrite Rabs_R1; lra|]. rewrite Rabs_mult.
  apply Rmult_le_compat; try apply Rabs_pos; auto. clear -Hj.
  induction e as [|e IH]; [lia|]. cbn [rsum]. assert (P : 0 <= rsum e (fun j => Rabs (z j))).
  { clear. induction e; simpl; [lra|]. pose proof (Rabs_pos (z e)). lra. }
  destruct (Nat.eq_dec j e) as [->|]; [lra|]. specialize (IH ltac:(lia)). pose proof (Rabs_pos (z e)). lra.
Qed.

Lemma lt_sum p k (a : R) : rsum p (fun m => if Nat.eqb k m then a else 0) = if Nat.ltb k p then a else 0.
Proof.
  induction p as [|p IH]; [reflexivity|]. cbn [rsum]. rewrite IH. destruct (Nat.ltb_spec k p), (Nat.ltb_spec k (S p)), (Nat.eqb_spec k p); try lia; ring.
Qed.

Lemma poly_taylor_at e d (f : (nat -> R) -> nat -> R) w0 (P : nat -> list (R * list nat)) p :
  (forall q, (q < d)%nat -> Forall (fun m => Forall (fun j => (j < e)%nat) (snd m)) (P q)) ->
  (forall w q, (q < d)%nat -> f w q = pval w (P q)) ->
  forall q, (q < d)%nat -> forall z : nat -> R, (forall j, (j < e)%nat -> Rabs (z j) < / (INR e + 1)) ->
    Rabs (f (fun j => w0 j + z j) q
          - rsum p (fun m => lsum (idx e m) (fun js => coef (shift w0 (P q)) js * fold_right (fun j pr => z j * pr) 1 js)))
      <= lsum (shift w0 (P q)) (fun t => Rabs (fst t)) * rsum e (fun j => Rabs (z j)) ^ p.
Proof.
  intros HP Hf q Hq. set (L := shift w0 (P q)). assert (HL := shift_in w0 e (P q) (HP q Hq)). fold L in HL.
  assert (Hd : 0 < / (INR e + 1)) by (apply Rinv_0_lt_compat; pose proof (pos_INR e); lra).
  intros z Hz. set (S := rsum e (fun j => Rabs (z j))).
  assert (S0 : 0 <= S) by (unfold S; clear; induction e; simpl; [lra|]; pose proof (Rabs_pos (z e)); lra).
  assert (S1 : S <= 1).
  { assert (B : S <= INR e * / (INR e + 1)).
    { assert (HS : forall m, (m <= e)%nat -> rsum m (fun j => Rabs (z j)) <= INR m * / (INR e + 1)).
      { induction m as [|m IHm]; intros Hm; [simpl; lra|]. cbn [rsum]. rewrite S_INR. specialize (Hz m ltac:(lia)). specialize (IHm ltac:(lia)). lra. }
      unfold S. apply HS. lia. }
    eapply Rle_trans; [exact B|]. pose proof (pos_INR e). apply (Rmult_le_reg_r (INR e + 1)); [lra|]. rewrite Rmult_assoc, Rinv_l by lra. lra. }
  rewrite Hf by auto. rewrite shift_ok. fold L.
  rewrite (rsum_ext p _ (fun m => lsum L (fun t => if Nat.eqb (length (snd t)) m then fst t * mono z (snd t) else 0))).
  2:{ intros m _. apply (coef_ok e z L m HL). }
  rewrite <- lsum_rsum_swap. rewrite (lsum_ext L (fun x => rsum p _) (fun t => if Nat.ltb (length (snd t)) p then fst t * mono z (snd t) else 0)).
  2:{ intros t _. apply lt_sum. }
  unfold pval. replace (_ - _) with (lsum L (fun t => if Nat.ltb (length (snd t)) p then 0 else fst t * mono z (snd t))).
  2:{ unfold Rminus. rewrite <- (Rmult_1_l (lsum L (fun t => if Nat.ltb _ _ then fst t * _ else 0))), Ropp_mult_distr_l, <- lsum_scal, <- lsum_plus.
      apply lsum_ext. intros t _. destruct (Nat.ltb _ _); ring. }
  rewrite <- lsum_scal_r. apply lsum_abs_le. intros [c js] Hin. cbn [fst snd]. rewrite Forall_forall in HL. specialize (HL _ Hin). cbn [snd] in HL.
  pose proof (Rabs_pos c). pose proof (pow_le S p S0). destruct (Nat.ltb_spec (length js) p).
  - rewrite Rabs_R0. apply Rmult_le_pos; lra.
  - rewrite Rabs_mult. apply Rmult_le_compat_l; [lra|]. eapply Rle_trans; [apply mono_bound; exact HL|]. fold S.
    replace (length js) with (p + (length js - p))%nat by lia. rewrite pow_add. rewrite <- (Rmult_1_r (S ^ p)) at 2. apply Rmult_le_compat_l; [lra|].
    rewrite <- (pow1 (length js - p)). apply pow_incr. lra.
Qed.

Theorem poly_taylor e d (f : (nat -> R) -> nat -> R) w0 (P : nat -> list (R * list nat)) p :
  (forall q, (q < d)%nat -> Forall (fun m => Forall (fun j => (j < e)%nat) (snd m)) (P q)) ->
  (forall w q, (q < d)%nat -> f w q = pval w (P q)) ->
  taylor_at e d f w0 (fun q js => coef (shift w0 (P q)) js) p.
Proof.
  intros HP Hf q Hq. exists (lsum (shift w0 (P q)) (fun t => Rabs (fst t))), (/ (INR e + 1)).
  split; [apply Rinv_0_lt_compat; pose proof (pos_INR e); lra|]. exact (poly_taylor_at e d f w0 P p HP Hf q Hq).
Qed.

(** every component of F is a polynomial in t and the components of y *)
Definition polynomial (d : nat) (F : R -> list R -> list R) : Prop :=
  exists P : nat -> list (R * list nat),
    (forall q, (q < d)%nat -> Forall (fun m => Forall (fun j => (j <= d)%nat) (snd m)) (P q)) /\
    forall t y, length y = d -> length (F t y) = d /\ forall q, (q < d)%nat ->
      nth q (F t y) 0 = lsum (P q) (fun m => fst m * fold_right (fun j pr => nth j (t :: y) 0 * pr) 1 (snd m)).

Lemma mono_ext (w w' : nat -> R) e js : Forall (fun j => (j < e)%nat) js -> (forall j, (j < e)%nat -> w j = w' j) -> mono w js = mono w' js.
Proof. intros H E. induction H as [|j js Hj Hjs IH]; [reflexivity|]. change (w j * mono w js = w' j * mono w' js). rewrite E, IH by auto. reflexivity. Qed.

Lemma coords (w : nat -> R) d j : (j < S d)%nat -> nth j (w 0%nat :: map (fun k => w (S k)) (seq 0 d)) 0 = w j.
Proof.
  intros H. destruct j as [|j]; [reflexivity|]. cbn [nth]. rewrite (nth_indep _ 0 (w (S 0%nat))) by (rewrite map_length, seq_length; lia).
  rewrite (map_nth (fun k => w (S k)) (seq 0 d) 0%nat). rewrite seq_nth by lia. reflexivity.
Qed.

Theorem polynomial_smooth d F t0 y0 p : polynomial d F -> length y0 = d -> smooth_at p F t0 y0.
Proof.
  intros (P & HP & HF) Hy. eexists. rewrite Hy. apply (poly_taylor (S d) d (fo F d) (pt t0 y0) P p).
  - intros q Hq. eapply Forall_impl; [|apply (HP q Hq)]. intros m Hm. eapply Forall_impl; [|exact Hm]. intros j Hj. simpl in *. lia.
  - intros w q Hq. unfold fo. destruct (HF (w 0%nat) (map (fun k => w (S k)) (seq 0 d)) ltac:(rewrite map_length, seq_length; reflexivity)) as (_ & E).
    rewrite E by auto. unfold pval. apply lsum_ext. intros [c js] Hin. cbn [fst snd]. f_equal.
    specialize (HP q Hq). rewrite Forall_forall in HP. specialize (HP _ Hin). cbn [snd] in HP.
    apply (mono_ext _ w (S d)); [eapply Forall_impl; [|exact HP]; intros; simpl in *; lia|]. intros j Hj. apply coords. exact Hj.
Qed.

(** second order systems: n accelerations in terms of t and the 2n components of y *)
Definition polynomial2 (n : nat) (G : R -> list R -> list R) : Prop :=
  exists P : nat -> list (R * list nat),
    (forall q, (q < n)%nat -> Forall (fun m => Forall (fun j => (j <= n + n)%nat) (snd m)) (P q)) /\
    forall t y, length y = (n + n)%nat -> length (G t y) = n /\ forall q, (q < n)%nat ->
      nth q (G t y) 0 = lsum (P q) (fun m => fst m * fold_right (fun j pr => nth j (t :: y) 0 * pr) 1 (snd m)).
Theorem polynomial_smooth2 n G t0 y0 p : polynomial2 n G -> length y0 = (n + n)%nat -> smooth_at2 n p G t0 y0.
Proof.
  intros (P & HP & HF) Hy. eexists. apply (poly_taylor (S (n + n)) n (fo G (n + n)) (pt t0 y0) P p).
  - intros q Hq. eapply Forall_impl; [|apply (HP q Hq)]. intros m Hm. eapply Forall_impl; [|exact Hm]. intros j Hj. simpl in *. lia.
  - intros w q Hq. unfold fo. destruct (HF (w 0%nat) (map (fun k => w (S k)) (seq 0 (n + n))) ltac:(rewrite map_length, seq_length; reflexivity)) as (_ & E).
    rewrite E by auto. unfold pval. apply lsum_ext. intros [c js] Hin. cbn [fst snd]. f_equal.
    specialize (HP q Hq). rewrite Forall_forall in HP. specialize (HP _ Hin). cbn [snd] in HP.
    apply (mono_ext _ w (S (n + n))); [eapply Forall_impl; [|exact HP]; intros; simpl in *; lia|]. intros j Hj. apply coords. exact Hj.
Qed.

(** a Taylor expansion of order p contains those of lower order *)
Lemma taylor_pred e d f w0 T p : taylor_at e d f w0 T (S p) -> taylor_at e d f w0 T p.
Proof.
  intros H q Hq. destruct (H q Hq) as (C & del & Hd & HB).
  set (B := lsum (idx e p) (fun js => Rabs (T q js))).
  exists (Rabs C * INR e + B), (Rmin del 1). split; [apply Rmin_case; lra|]. intros z Hz.
  set (S1 := rsum e (fun j => Rabs (z j))).
  assert (HS0 : 0 <= S1). { unfold S1. clear. induction e as [|e IH]; cbn [rsum]; [lra|]. pose proof (Rabs_pos (z e)). lra. }
  assert (HS1 : S1 <= INR e).
  { unfold S1. assert (G : forall e', (e' <= e)%nat -> rsum e' (fun j => Rabs (z j)) <= INR e').
    { induction e' as [|e' IH]; intros Hle; [simpl; lra|]. cbn [rsum]. rewrite S_INR. specialize (IH ltac:(lia)).
      pose proof (Hz e' ltac:(lia)). pose proof (Rmin_r del 1). lra. }
    apply G. lia. }
  specialize (HB z ltac:(intros j Hj; eapply Rlt_le_trans; [apply Hz; exact Hj|apply Rmin_l])). fold S1 in HB. cbn [rsum] in HB.
  set (P := rsum p _) in *. match type of HB with Rabs (?f - (_ + ?t)) <= _ => set (fz := f) in *; set (tp := t) in * end.
  assert (Hp : 0 <= S1 ^ p) by (apply pow_le; auto).
  assert (Ht : Rabs tp <= B * S1 ^ p).
  { unfold tp, B. rewrite <- lsum_scal_r. apply lsum_abs_le. intros js Hjs. rewrite Rabs_mult. apply Rmult_le_compat_l; [apply Rabs_pos|].
    rewrite <- (idx_length e p js Hjs). apply (mono_bound e z js). apply (idx_in e p js Hjs). }
  assert (HC : C * S1 ^ S p <= Rabs C * INR e * S1 ^ p).
  { simpl. rewrite <- Rmult_assoc. apply Rmult_le_compat_r; auto. eapply Rle_trans; [apply Rmult_le_compat_r; [exact HS0|apply Rle_abs]|]. apply Rmult_le_compat_l; [apply Rabs_pos|exact HS1]. }
  replace (fz - P) with ((fz - (P + tp)) + tp) by ring. eapply Rle_trans; [apply Rabs_triang|]. nra.
Qed.
Lemma smooth_le p p' F t0 y0 : (p' <= p)%nat -> smooth_at p F t0 y0 -> smooth_at p' F t0 y0.
Proof.
  intros H [T HT]. exists T. induction H as [|p H IH]; [exact HT|]. apply IH. apply taylor_pred. exact HT.
Qed.
