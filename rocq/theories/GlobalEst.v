(** Error estimates of short steps that start near a trajectory. *)
From Coq Require Import Reals Lra Psatz QArith Qreals Lia List Arith Bool.
From Verif Require Import Series Trees OrderThm OrderCheck OrderRK OrderModel GOrder NearPair UOrder UOrder2 GlobalRK.
Import ListNotations.
Open Scope nat_scope.
Open Scope R_scope.

(** ** fewer terms of a Taylor expansion *)
Lemma idx_power e (z : nat -> R) m : lsum (idx e m) (fun js => fold_right (fun j pr => z j * pr) 1 js) = rsum e z ^ m.
Proof.
  induction m as [|m IH]; cbn [idx lsum fold_right]; [simpl; ring|].
  rewrite lsum_flat_map, lsum_seq.
  rewrite (rsum_ext e _ (fun j => rsum e z ^ m * z j)).
  2:{ intros j Hj. rewrite lsum_map. cbn [fold_right]. rewrite lsum_scal. etransitivity; [apply f_equal; exact IH|ring]. }
  rewrite rsum_scal. simpl. ring.
Qed.
Lemma lsum_abs_le {X} (l : list X) g g' : (forall x, In x l -> Rabs (g x) <= g' x) -> Rabs (lsum l g) <= lsum l g'.
Proof.
  induction l as [|x l IH]; intros H; simpl; [rewrite Rabs_R0; lra|]. eapply Rle_trans; [apply Rabs_triang|].
  pose proof (H x ltac:(left; auto)). assert (Rabs (lsum l g) <= lsum l g') by (apply IH; intros; apply H; right; auto). lra.
Qed.
Lemma fold_abs (z : nat -> R) js : Rabs (fold_right (fun j pr => z j * pr) 1 js) = fold_right (fun j pr => Rabs (z j) * pr) 1 js.
Proof. induction js as [|j js IH]; simpl; [apply Rabs_R1|]. rewrite Rabs_mult, IH. reflexivity. Qed.
Lemma fold_nonneg (z : nat -> R) js : (forall j, 0 <= z j) -> 0 <= fold_right (fun j pr => z j * pr) 1 js.
Proof. intros H. induction js as [|j js IH]; simpl; [lra|]. apply Rmult_le_pos; auto. Qed.
Lemma smooth_weaken1 p d F lo hi Y : smooth_along (S p) d F lo hi Y -> smooth_along p d F lo hi Y.
Proof.
  intros (T & C & M & del & Hdel & H). set (e := INR (S d)). assert (He : 0 <= e) by apply pos_INR.
  exists T, (Rabs C * e + Rabs M), M, (Rmin del 1). split; [apply Rmin_case; lra|]. intros t q Ht Hq.
  destruct (H t q Ht Hq) as (H1 & H2). split; [intros js L Hj; apply H1; auto|]. intros z Hz.
  assert (Hz1 : forall j, (j < S d)%nat -> Rabs (z j) < del) by (intros j Hj; eapply Rlt_le_trans; [apply Hz; auto|apply Rmin_l]).
  assert (Hz2 : forall j, (j < S d)%nat -> Rabs (z j) <= 1) by (intros j Hj; left; eapply Rlt_le_trans; [apply Hz; auto|apply Rmin_r]).
  specialize (H2 z Hz1). change (rsum (S p) (fun m => lsum (idx (S d) m) (fun js => T t q js * fold_right (fun j pr => z j * pr) 1 js))) with
    (rsum p (fun m => lsum (idx (S d) m) (fun js => T t q js * fold_right (fun j pr => z j * pr) 1 js)) + lsum (idx (S d) p) (fun js => T t q js * fold_right (fun j pr => z j * pr) 1 js)) in H2.
  set (Sm := rsum p _) in *. set (L := lsum (idx (S d) p) _) in *. set (Z := rsum (S d) (fun j => Rabs (z j))) in *. set (f := fo F d _ q) in *.
  assert (HZ : 0 <= Z <= e).
  { split; [apply rsum_nonneg; intros; apply Rabs_pos|]. unfold Z, e. eapply Rle_trans; [apply Rle_abs|].
    eapply Rle_trans; [apply (rsum_bound _ _ 1); intros i Hi; rewrite Rabs_Rabsolu; auto|lra]. }
  assert (HL : Rabs L <= Rabs M * Z ^ p).
  { unfold L, Z. rewrite <- idx_power, <- lsum_scal. apply lsum_abs_le. intros js Hjs. rewrite Rabs_mult, fold_abs.
    apply Rmult_le_compat_r; [apply fold_nonneg; intros; apply Rabs_pos|]. eapply Rle_trans; [apply H1|apply Rle_abs].
    - rewrite (idx_len _ _ _ Hjs). auto.
    - apply idx_in in Hjs. exact Hjs. }
  replace (f - Sm) with ((f - (Sm + L)) + L) by ring. eapply Rle_trans; [apply Rabs_triang|].
  assert (HP : 0 <= Z ^ p) by (apply pow_le; lra). cbn [pow] in H2.
  assert (C * (Z * Z ^ p) <= Rabs C * (e * Z ^ p)).
  { pose proof (Rle_abs C). assert (0 <= Z * Z ^ p) by (apply Rmult_le_pos; lra). assert (Z * Z ^ p <= e * Z ^ p) by (apply Rmult_le_compat_r; lra).
    apply Rle_trans with (Rabs C * (Z * Z ^ p)); [apply Rmult_le_compat_r; lra|]. apply Rmult_le_compat_l; [apply Rabs_pos|auto]. }
  nra.
Qed.
Lemma smooth_weaken p m d F lo hi Y : (m <= p)%nat -> smooth_along p d F lo hi Y -> smooth_along m d F lo hi Y.
Proof. intros H. induction H as [|p H IH]; intros HS; auto. apply IH, smooth_weaken1, HS. Qed.

(** ** combinations of the stages that vanish up to order m *)
Section Est.
Variables (d p s : nat) (F : R -> list R -> list R) (lo hi : R) (Y : R -> list R) (W : R).
Hypothesis HY : solution_on d F lo hi Y.
Hypothesis HS : smooth_along p d F lo hi Y.

(** weights w of the stages of M whose order conditions vanish up to order m, up to eps *)
Definition vanishes (M : method s p W) (w : nat -> R) (eps : R) (m : nat) : Prop :=
  near_Z false true s (fun _ _ => 0) (mA M) (mc M) eps w m.

Lemma near_V_le (M : method s p W) m : (m <= p)%nat -> near_V false true s (fun _ _ => 0) (mA M) (mc M) (meps M) (mb M) m.
Proof. intros H n fs Hn Hf. apply (m_order _ _ _ M); auto. lia. Qed.

Lemma est_on (M : method s p W) w eps m : (m <= p)%nat -> 0 <= eps -> vanishes M w eps m ->
  exists C del, 0 <= C /\ 0 < del /\ forall t h, lo <= t <= hi -> Rabs h < del -> forall q, (q < d)%nat ->
    Rabs (h * lcomb s w (rstages F (mA M) (mc M) t (Y t) h s) q) <= C * ((2 * meps M + eps) * Rabs h + Rabs h ^ S m).
Proof.
  intros Hm He HV. destruct (weights_bound s w) as (Bw & HBw & Hw).
  set (W2 := Rabs W + Bw). assert (HW : W <= W2) by (unfold W2; pose proof (Rle_abs W); lra).
  unshelve epose (M1 := {| mA := mA M; mb := mb M; mc := mc M; meps := meps M |} : method s m W2).
  { apply m_lower. } { intros; eapply Rle_trans; [apply m_A; auto|auto]. } { intros; eapply Rle_trans; [apply m_b; auto|auto]. }
  { intros; eapply Rle_trans; [apply m_c; auto|auto]. } { apply m_eps. } { apply near_V_le; auto. }
  unshelve epose (M2 := {| mA := mA M; mb := fun l => mb M l + w l; mc := mc M; meps := meps M + eps |} : method s m W2).
  { apply m_lower. } { intros; eapply Rle_trans; [apply m_A; auto|auto]. }
  { intros i Hi; eapply Rle_trans; [apply Rabs_triang|]. pose proof (m_b _ _ _ M i Hi). specialize (Hw i Hi). unfold W2. pose proof (Rle_abs W). lra. }
  { intros; eapply Rle_trans; [apply m_c; auto|auto]. } { pose proof (m_eps _ _ _ M); lra. }
  { intros n fs Hn Hf. pose proof (near_V_le M m Hm n fs Hn Hf) as H1. specialize (HV n fs Hn Hf).
    rewrite (rsum_ext s (fun i => (mb M i + w i) * _) (fun i => mb M i * stage_weight s (fun _ _ => 0) (mA M) (mc M) fs i + w i * stage_weight s (fun _ _ => 0) (mA M) (mc M) fs i)) by (intros; ring).
    rewrite rsum_plus. match goal with |- Rabs (?a + ?b - ?c) <= _ => replace (a + b - c) with ((a - c) + b) by ring end.
    eapply Rle_trans; [apply Rabs_triang|]. lra. }
  destruct (local_error d m F lo hi Y HY s W2 (smooth_weaken _ _ _ _ _ _ _ Hm HS)) as (C & del & HC & Hdel & H).
  exists (2 * C), del. split; [lra|]. split; [auto|]. intros t h Ht Hh q Hq.
  pose proof (H t M1 h Ht Hh q Hq) as E1. pose proof (H t M2 h Ht Hh q Hq) as E2. cbn [meps M1 M2] in E1, E2. unfold rk_step, rpoint in E1, E2. rewrite nth_map_seq in E1, E2 by auto.
  unfold lcomb in *. cbn [mb mA mc M1 M2] in E1, E2. set (K := rstages F (mA M) (mc M) t (Y t) h s) in *.
  rewrite (rsum_ext s (fun i => (mb M i + w i) * _) (fun i => mb M i * nth q (nth i K []) 0 + w i * nth q (nth i K []) 0)) in E2 by (intros; ring).
  rewrite rsum_plus in E2. set (U := rsum s (fun i => mb M i * nth q (nth i K []) 0)) in *. set (V := rsum s (fun i => w i * nth q (nth i K []) 0)) in *.
  set (y0 := nth q (Y t) 0) in *. set (y1 := nth q (Y (t + h)) 0) in *.
  replace (h * V) with ((y0 + h * (U + V) - y1) - (y0 + h * U - y1)) by ring. eapply Rle_trans; [apply Rabs_triang|]. rewrite Rabs_Ropp.
  assert (0 <= C * Rabs h ^ S m) by (apply Rmult_le_pos; [lra|apply pow_le, Rabs_pos]).
  assert (0 <= C * (meps M * Rabs h)) by (repeat apply Rmult_le_pos; auto using Rabs_pos; apply m_eps).
  assert (0 <= C * (eps * Rabs h)) by (repeat apply Rmult_le_pos; auto using Rabs_pos).
  nra.
Qed.

(** ** starting within e of the trajectory *)
Lemma est_near L r (M : method s p W) w eps m : lipschitz_near d F lo hi Y L r -> (m <= p)%nat -> 0 <= eps -> vanishes M w eps m ->
  exists C del, 0 <= C /\ 0 < del /\ forall t y h e, lo <= t <= hi -> length y = d -> Rabs h < del -> 0 <= e <= r / 4 -> close d y (Y t) e ->
    forall q, (q < d)%nat ->
    Rabs (h * lcomb s w (rstages F (mA M) (mc M) t y h s) q) <= C * ((2 * meps M + eps + e) * Rabs h + Rabs h ^ S m).
Proof.
  intros HL Hm He HV. destruct (est_on M w eps m Hm He HV) as (C1 & d1 & HC1 & Hd1 & H1).
  destruct (stages_close d p F lo hi Y HY s W HS L r HL) as (B & d2 & _ & Hd2 & H2).
  destruct (weights_bound s w) as (Bw & HBw & Hw). assert (HL0 : 0 <= L) by apply HL.
  set (C2 := INR s * (Bw * (2 * L))). assert (HC2 : 0 <= C2) by (unfold C2; pose proof (pos_INR s); repeat apply Rmult_le_pos; lra).
  exists (C1 + C2), (Rmin d1 d2). split; [lra|]. split; [apply Rmin_case; auto|]. intros t y h e Ht Ly Hh He' Hy q Hq.
  assert (A1 : Rabs h < d1) by (eapply Rlt_le_trans; [exact Hh|apply Rmin_l]).
  assert (A2 : Rabs h < d2) by (eapply Rlt_le_trans; [exact Hh|apply Rmin_r]).
  specialize (H1 t h Ht A1 q Hq).
  set (K := rstages F (mA M) (mc M) t y h s) in *. set (K' := rstages F (mA M) (mc M) t (Y t) h s) in *.
  assert (HD : Rabs (lcomb s w K q - lcomb s w K' q) <= C2 * e).
  { unfold lcomb. rewrite <- rsum_sub'. unfold C2. replace (INR s * (Bw * (2 * L)) * e) with (INR s * (Bw * (2 * L * e))) by ring.
    apply rsum_bound. intros i Hi. rewrite <- Rmult_minus_distr_l, Rabs_mult. apply Rmult_le_compat; auto using Rabs_pos.
    destruct (H2 t M y h e Ht Ly A2 He' Hy i Hi) as (H3 & _). apply (H3 q Hq). }
  replace (h * lcomb s w K q) with (h * (lcomb s w K q - lcomb s w K' q) + h * lcomb s w K' q) by ring.
  eapply Rle_trans; [apply Rabs_triang|]. rewrite (Rabs_mult h). pose proof (Rabs_pos h) as P.
  apply (Rmult_le_compat_l _ _ _ P) in HD.
  assert (Q1 : 0 <= Rabs h ^ S m) by (apply pow_le; auto). assert (Q2 : 0 <= (2 * meps M + eps) * Rabs h) by (pose proof (m_eps _ _ _ M); apply Rmult_le_pos; lra).
  assert (Q3 : 0 <= e * Rabs h) by (apply Rmult_le_pos; lra).
  set (x := Rabs h ^ S m) in *. set (ah := Rabs h) in *.
  assert (0 <= C2 * x) by (apply Rmult_le_pos; lra). assert (0 <= C2 * ((2 * meps M + eps) * ah)) by (apply Rmult_le_pos; lra). assert (0 <= C1 * (e * ah)) by (apply Rmult_le_pos; lra).
  nra.
Qed.
End Est.
