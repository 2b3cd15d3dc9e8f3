(** Uniform order theorem for interpolants: the weights depend on the fraction th of the step. *)
From Coq Require Import Reals Lra Psatz Lia List Arith Bool.
From Verif Require Import Series Trees OrderThm OrderRK GOrder GDense UOrder UOrder2.
Import ListNotations.
Open Scope R_scope.

Section Dense.
Variable B : Type.
Notation I := (B * R)%type.
Notation Oh := (GOrder.Oh I snd).
Notation uasy := (uasy I snd).
Variables uU uV : bool.
Variables e d p : nat.
Variable T : B -> nat -> list nat -> R.
Variable ell : B -> nat -> R.
Hypothesis Hell : forall j, (j < e)%nat -> Oh 0 (fun i => ell (fst i) j).
Variables pu pv : nat -> option nat.
Hypothesis Hpu : forall j q, pu j = Some q -> (q < d)%nat.
Hypothesis Hpv : forall j q, pv j = Some q -> (q < d)%nat.
Variable f : (nat -> R) -> nat -> R.
Variable w0 : B -> nat -> R.
Hypothesis HT : utaylor I snd e d f (fun i => w0 (fst i)) (fun i => T (fst i)) p.
Variables K YV YU : B -> R -> nat -> R.
Hypothesis HYV : exists del, 0 < del /\ forall b h, Rabs h < del -> forall q, (q < d)%nat -> derivable_pt_lim (fun x => YV b x q) h (K b h q).
Hypothesis HYU : uU = true -> exists del, 0 < del /\ forall b h, Rabs h < del -> forall q, (q < d)%nat -> derivable_pt_lim (fun x => YU b x q) h (YV b h q - YV b 0 q).
Hypothesis Hb : forall q, (q < d)%nat -> Oh 0 (fun i => K (fst i) (snd i) q).
Hypothesis Hk : exists del, 0 < del /\ forall b h, Rabs h < del -> forall q, (q < d)%nat ->
  K b h q = f (fun j => w0 b j + exact_arg uU uV (ell b) pu pv (YV b) (YU b) h j) q.
Notation Ae := (fun b q r => Acoef uU uV (fun _ => 1) ex_U ex_V e (T b) (ell b) pu pv 0%nat q r).
Variable s : nat.
Variables AU AV : B -> nat -> nat -> R.
Variable c : B -> nat -> R.
Variable W : R.
Hypothesis BAU : forall b l l', (l < s)%nat -> (l' < s)%nat -> Rabs (AU b l l') <= W.
Hypothesis BAV : forall b l l', (l < s)%nat -> (l' < s)%nat -> Rabs (AV b l l') <= W.
Hypothesis Bc : forall b l, (l < s)%nat -> Rabs (c b l) <= W.
Variable k : nat -> I -> nat -> R.
Hypothesis Kb : forall l q, (l < s)%nat -> (q < d)%nat -> Oh 0 (fun i => k l i q).
Hypothesis Kk : exists del, 0 < del /\ forall i : I, Rabs (snd i) < del -> forall l q, (l < s)%nat -> (q < d)%nat ->
  k l i q = f (fun j => w0 (fst i) j + ustage_arg I snd uU uV (fun i => ell (fst i)) pu pv s (fun i => AU (fst i)) (fun i => AV (fst i)) (fun i => c (fst i)) k l i j) q.
Notation Ak := (fun x l q r => Acoef uU uV (c x) (st_op s (AU x)) (st_op s (AV x)) e (T x) (ell x) pu pv l q r).

(** combinations of the stages with any bounded weights *)
Lemma udcomb m q Bw : (q < d)%nat -> (m <= p)%nat -> exists C del, 0 <= C /\ 0 < del /\ forall x h (w : nat -> R), Rabs h < del ->
  (forall l, (l < s)%nat -> Rabs (w l) <= Bw) ->
  Rabs (rsum s (fun l => w l * k l (x, h) q) - rsum m (fun r => rsum s (fun l => w l * Ak x l q r) * h ^ r)) <= C * Rabs h ^ m.
Proof.
  intros Hq Hm.
  assert (HO : Oh m (fun i => rsum s (fun l => Rabs (k l i q - rsum m (fun r => Ak (fst i) l q r * snd i ^ r))))).
  { apply GOrder.Oh_rsum. intros l Hl.
    assert (H : uasy m (fun i => k l i q) (fun i r => Ak (fst i) l q r)).
    { apply (uasy_weaken I snd p m); auto. apply (stages_uasy B uU uV e d p T ell Hell pu pv Hpu Hpv f w0 HT s AU AV c W); auto. }
    apply (GOrder.Oh_le _ _ m _ (fun i => k l i q - rsum m (fun r => Ak (fst i) l q r * snd i ^ r))); [|exact (proj2 H)].
    exists 1. split; [lra|]. intros. rewrite Rabs_Rabsolu. lra. }
  destruct (GOrder.Oh_pos _ _ _ _ HO) as (C & del & HC & Hd & H).
  exists (Rabs Bw * C), del. split; [apply Rmult_le_pos; [apply Rabs_pos|exact HC]|]. split; [apply Hd|]. intros x h w Hh Hw. specialize (H (x, h) Hh). cbn [fst snd] in H.
  replace (rsum s (fun l => w l * k l (x, h) q) - rsum m (fun r => rsum s (fun l => w l * Ak x l q r) * h ^ r))
    with (rsum s (fun l => w l * (k l (x, h) q - rsum m (fun r => Ak x l q r * h ^ r)))).
  2:{ rewrite (rsum_ext s (fun l => w l * (k l (x, h) q - _)) (fun l => w l * k l (x, h) q + (-1) * (w l * rsum m (fun r => Ak x l q r * h ^ r)))) by (intros; ring).
      rewrite rsum_plus, rsum_scal.
      replace (rsum s (fun l => w l * rsum m (fun r => Ak x l q r * h ^ r))) with (rsum m (fun r => rsum s (fun l => w l * Ak x l q r) * h ^ r)); [ring|].
      rewrite (rsum_ext m _ (fun r => rsum s (fun l => w l * (Ak x l q r * h ^ r)))).
      - rewrite rsum_swap. apply rsum_ext. intros l _. rewrite <- rsum_scal. reflexivity.
      - intros r _. rewrite Rmult_comm, <- rsum_scal. apply rsum_ext. intros; ring. }
  rewrite Rmult_assoc.
  assert (HN : 0 <= rsum s (fun l => Rabs (k l (x, h) q - rsum m (fun r => Ak x l q r * h ^ r)))) by (apply rsum_nonneg; intros; apply Rabs_pos).
  rewrite Rabs_pos_eq in H by exact HN.
  apply Rle_trans with (Rabs Bw * rsum s (fun l => Rabs (k l (x, h) q - rsum m (fun r => Ak x l q r * h ^ r)))); [|apply Rmult_le_compat_l; [apply Rabs_pos|exact H]].
  rewrite <- rsum_scal.
  assert (G : forall n g g', (forall i, (i < n)%nat -> Rabs (g i) <= g' i) -> Rabs (rsum n g) <= rsum n g').
  { clear. induction n as [|n IH]; intros g g' H; cbn [rsum]; [rewrite Rabs_R0; lra|]. eapply Rle_trans; [apply Rabs_triang|].
    apply Rplus_le_compat; [apply IH; intros; apply H; lia|apply H; lia]. }
  apply G. intros l Hl. rewrite Rabs_mult. apply Rmult_le_compat_r; [apply Rabs_pos|]. eapply Rle_trans; [apply Hw; auto|apply Rle_abs].
Qed.

Lemma umass m q : (q < d)%nat -> (m <= p)%nat -> exists C del, 0 <= C /\ 0 < del /\ forall x h, Rabs h < del ->
  0 <= rsum m (fun n => mass uU uV e (T x) (ell x) pu pv n q * Rabs h ^ n) <= C.
Proof.
  intros Hq Hm.
  assert (HM : Oh 0 (fun i => rsum m (fun n => mass uU uV e (T (fst i)) (ell (fst i)) pu pv n q))).
  { apply GOrder.Oh_rsum. intros n Hn. apply (mass_bounded I snd uU uV e d p (fun i => T (fst i)) (fun i => ell (fst i)) Hell pu pv Hpu Hpv); auto; [|lia].
    intros q' m' js Hq' Hm' Hjs. exact (proj1 (HT q' Hq') m' js Hm' Hjs). }
  destruct (Oh0_at _ _ _ HM) as (C3 & d3 & HC3 & Hd3 & H3). exists C3, (Rmin d3 1). split; [auto|]. split; [apply Rmin_case; lra|].
  intros x h Hh. assert (A3 : Rabs h < d3) by (eapply Rlt_le_trans; [exact Hh|apply Rmin_l]).
  assert (Hh1 : Rabs h <= 1) by (left; eapply Rlt_le_trans; [exact Hh|apply Rmin_r]). specialize (H3 (x, h) A3). cbn [fst snd] in H3. pose proof (Rabs_pos h) as Hh0.
  assert (Hm0 : forall n, 0 <= mass uU uV e (T x) (ell x) pu pv n q) by (intros n; unfold mass; clear; induction (FOREST uU uV n) as [|y l IH]; cbn [lsum]; [lra|pose proof (Rabs_pos (F e (T x) (ell x) pu pv y q)); lra]).
  split; [apply rsum_nonneg; intros; apply Rmult_le_pos; [apply Hm0|apply pow_le; lra]|].
  eapply Rle_trans; [|eapply Rle_trans; [apply Rle_abs|exact H3]]. apply rsum_le. intros n Hn.
  rewrite <- (Rmult_1_r (mass uU uV e (T x) (ell x) pu pv n q)) at 2. apply Rmult_le_compat_l; [apply Hm0|].
  rewrite <- (pow1 n). apply pow_incr. lra.
Qed.

Variable b : R -> nat -> R.
Hypothesis Hw : wbounded s b.
Variable eps : R.
Hypothesis Heps : 0 <= eps.

Theorem u_dense_V m q : (q < d)%nat -> (m <= p)%nat -> (forall x, dense_V uU uV s (AU x) (AV x) (c x) eps b m) ->
  exists C del, 0 <= C /\ 0 < del /\ forall x th h, 0 <= th <= 1 -> Rabs h < del ->
    Rabs (h * rsum s (fun l => b th l * k l (x, h) q) - (YV x (th * h) q - YV x 0 q)) <= C * (eps * Rabs h + Rabs h ^ S m).
Proof.
  intros Hq Hm HO. destruct Hw as (Bw & _ & HBw).
  destruct (udcomb m q Bw Hq Hm) as (C1 & d1 & HC1 & Hd1 & H1).
  destruct (uYV_expand B uU uV e d T ell pu pv K YV HYV m q Hq (uasy_weaken I snd p m _ _ Hm (uexact_expand B uU uV e d p T ell Hell pu pv Hpu Hpv f w0 HT K YV YU HYV HYU Hb Hk q Hq))) as (_ & HE).
  destruct (GOrder.Oh_pos _ _ _ _ HE) as (C2 & d2 & HC2 & Hd2 & H2).
  destruct (umass m q Hq Hm) as (C3 & d3 & HC3 & Hd3 & H3).
  exists (C1 + C2 + C3), (Rmin (Rmin d1 d2) d3). split; [lra|]. split; [apply Rmin_case; [apply Rmin_case; lra|lra]|]. intros x th h Hth Hh.
  assert (A1 : Rabs h < d1) by (eapply Rlt_le_trans; [exact Hh|eapply Rle_trans; [apply Rmin_l|apply Rmin_l]]).
  assert (A2 : Rabs h < d2) by (eapply Rlt_le_trans; [exact Hh|eapply Rle_trans; [apply Rmin_l|apply Rmin_r]]).
  assert (A3 : Rabs h < d3) by (eapply Rlt_le_trans; [exact Hh|apply Rmin_r]).
  pose proof (Rabs_pos h) as P.
  assert (Hle : Rabs (th * h) <= Rabs h) by (rewrite Rabs_mult, (Rabs_pos_eq th) by lra; nra).
  specialize (H1 x h (b th) A1 (fun l Hl => HBw th l Hth Hl)). specialize (H2 (x, th * h) ltac:(cbn [snd]; lra)). specialize (H3 x h A3). cbn [fst snd] in *. rewrite rsum_split in H2.
  pose proof (near_poly uU uV e (T x) (ell x) pu pv s (AU x) (AV x) (c x) eps (b th) m q (fun n => th ^ S n / INR (S n)) h
    (fun n Hn => near_coef uU uV e (T x) (ell x) pu pv s (AU x) (AV x) (c x) eps (b th) q n (th ^ S n / INR (S n)) (fun fs Hfs => HO x th n fs Hth Hn Hfs))) as H4.
  rewrite (rsum_ext m (fun r => Ae x q r / INR (S r) * (th * h) ^ S r) (fun r => h * (th ^ S r / INR (S r) * Ae x q r * h ^ r))) in H2.
  2:{ intros r Hr. rewrite Rpow_mult_distr. rewrite <- (tech_pow_Rmult h). unfold Rdiv. ring. }
  rewrite rsum_scal in H2.
  assert (Hpw : Rabs (th * h) ^ S m <= Rabs h ^ S m) by (apply pow_incr; split; [apply Rabs_pos|exact Hle]).
  set (S1 := rsum s (fun l => b th l * k l (x, h) q)) in *. set (S2 := rsum m (fun n => th ^ S n / INR (S n) * Ae x q n * h ^ n)) in *.
  set (S3 := rsum m (fun n => rsum s (fun l => b th l * Ak x l q n) * h ^ n)) in *.
  assert (He : 0 <= eps * C3 /\ Rabs (S3 - S2) <= eps * C3).
  { split; [apply Rmult_le_pos; auto|]. eapply Rle_trans; [exact H4|]. apply Rmult_le_compat_l; [auto|lra]. }
  destruct He as (He0 & He1).
  replace (h * S1 - (YV x (th * h) q - YV x 0 q)) with ((h * (S1 - S3) + h * (S3 - S2)) - (YV x (th * h) q - YV x 0 q - (0 * (th * h) ^ 0 + h * S2))) by ring.
  eapply Rle_trans; [apply Rabs_triang|]. rewrite Rabs_Ropp. eapply Rle_trans; [apply Rplus_le_compat_r, Rabs_triang|].
  rewrite !(Rabs_mult h). 
  apply (Rmult_le_compat_l _ _ _ P) in H1. apply (Rmult_le_compat_l _ _ _ P) in He1.
  assert (H2' : Rabs (YV x (th * h) q - YV x 0 q - (0 * (th * h) ^ 0 + h * S2)) <= C2 * Rabs h ^ S m) by (eapply Rle_trans; [exact H2|]; apply Rmult_le_compat_l; auto).
  clear H2 H4 Hpw. rewrite <- (tech_pow_Rmult (Rabs h) m) in *.
  assert (P2 : 0 <= Rabs h ^ m) by (apply pow_le; auto).
  set (z := Rabs h ^ m) in *. set (y := Rabs h) in *.
  assert (P3 : 0 <= eps * y) by (apply Rmult_le_pos; auto). assert (P4 : 0 <= y * z) by (apply Rmult_le_pos; auto).
  assert (0 <= C3 * (y * z)) by (apply Rmult_le_pos; auto). assert (0 <= (C1 + C2) * (eps * y)) by (apply Rmult_le_pos; lra).
  replace ((C1 + C2 + C3) * (eps * y + y * z)) with ((C1 + C2) * (eps * y) + y * (C1 * z) + C2 * (y * z) + y * (eps * C3) + C3 * (y * z)) by ring. lra.
Qed.

Theorem u_dense_U m q : uU = true -> (q < d)%nat -> (m <= p)%nat -> (forall x, dense_U uU uV s (AU x) (AV x) (c x) eps b m) ->
  exists C del, 0 <= C /\ 0 < del /\ forall x th h, 0 <= th <= 1 -> Rabs h < del ->
    Rabs (h * (h * rsum s (fun l => b th l * k l (x, h) q)) - (YU x (th * h) q - YU x 0 q)) <= C * (eps * Rabs h + Rabs h ^ S (S m)).
Proof.
  intros Hu Hq Hm HO. destruct Hw as (Bw & _ & HBw).
  destruct (udcomb m q Bw Hq Hm) as (C1 & d1 & HC1 & Hd1 & H1).
  destruct (uYU_expand B uU uV e d T ell pu pv K YV YU HYV HYU m q Hu Hq (uasy_weaken I snd p m _ _ Hm (uexact_expand B uU uV e d p T ell Hell pu pv Hpu Hpv f w0 HT K YV YU HYV HYU Hb Hk q Hq))) as (_ & HE).
  destruct (GOrder.Oh_pos _ _ _ _ HE) as (C2 & d2 & HC2 & Hd2 & H2).
  destruct (umass m q Hq Hm) as (C3 & d3 & HC3 & Hd3 & H3).
  exists (C1 + C2 + C3), (Rmin 1 (Rmin (Rmin d1 d2) d3)). split; [lra|]. split; [apply Rmin_case; [lra|]; apply Rmin_case; [apply Rmin_case; lra|lra]|]. intros x th h Hth Hh0.
  assert (Hh1 : Rabs h <= 1) by (left; eapply Rlt_le_trans; [exact Hh0|apply Rmin_l]).
  assert (Hh : Rabs h < Rmin (Rmin d1 d2) d3) by (eapply Rlt_le_trans; [exact Hh0|apply Rmin_r]). clear Hh0.
  assert (A1 : Rabs h < d1) by (eapply Rlt_le_trans; [exact Hh|eapply Rle_trans; [apply Rmin_l|apply Rmin_l]]).
  assert (A2 : Rabs h < d2) by (eapply Rlt_le_trans; [exact Hh|eapply Rle_trans; [apply Rmin_l|apply Rmin_r]]).
  assert (A3 : Rabs h < d3) by (eapply Rlt_le_trans; [exact Hh|apply Rmin_r]).
  pose proof (Rabs_pos h) as P.
  assert (Hle : Rabs (th * h) <= Rabs h) by (rewrite Rabs_mult, (Rabs_pos_eq th) by lra; nra).
  specialize (H1 x h (b th) A1 (fun l Hl => HBw th l Hth Hl)). specialize (H2 (x, th * h) ltac:(cbn [snd]; lra)). specialize (H3 x h A3). cbn [fst snd] in *. rewrite rsum_split, rsum_split in H2.
  pose proof (near_poly uU uV e (T x) (ell x) pu pv s (AU x) (AV x) (c x) eps (b th) m q (fun n => th ^ S (S n) / (INR (S (S n)) * INR (S n))) h
    (fun n Hn => near_coef uU uV e (T x) (ell x) pu pv s (AU x) (AV x) (c x) eps (b th) q n _ (fun fs Hfs => HO x th n fs Hth Hn Hfs))) as H4.
  rewrite (rsum_ext m (fun r => Ae x q r / (INR (S (S r)) * INR (S (S r) - 1)) * (th * h) ^ S (S r)) (fun r => h * h * (th ^ S (S r) / (INR (S (S r)) * INR (S r)) * Ae x q r * h ^ r))) in H2.
  2:{ intros r Hr. replace (S (S r) - 1)%nat with (S r) by lia. rewrite Rpow_mult_distr. rewrite <- !(tech_pow_Rmult h). unfold Rdiv. ring. }
  rewrite rsum_scal in H2.
  assert (Hpw : Rabs (th * h) ^ S (S m) <= Rabs h ^ S (S m)) by (apply pow_incr; split; [apply Rabs_pos|exact Hle]).
  set (S1 := rsum s (fun l => b th l * k l (x, h) q)) in *. set (S2 := rsum m (fun n => th ^ S (S n) / (INR (S (S n)) * INR (S n)) * Ae x q n * h ^ n)) in *.
  set (S3 := rsum m (fun n => rsum s (fun l => b th l * Ak x l q n) * h ^ n)) in *.
  assert (He : 0 <= eps * C3 /\ Rabs (S3 - S2) <= eps * C3).
  { split; [apply Rmult_le_pos; auto|]. eapply Rle_trans; [exact H4|]. apply Rmult_le_compat_l; [auto|lra]. }
  destruct He as (He0 & He1).
  replace (h * (h * S1) - (YU x (th * h) q - YU x 0 q)) with ((h * h * (S1 - S3) + h * h * (S3 - S2)) - (YU x (th * h) q - YU x 0 q - (0 * (th * h) ^ 0 + (0 * (th * h) ^ 1 + h * h * S2)))) by ring.
  eapply Rle_trans; [apply Rabs_triang|]. rewrite Rabs_Ropp. eapply Rle_trans; [apply Rplus_le_compat_r, Rabs_triang|].
  rewrite !(Rabs_mult (h * h)), (Rabs_mult h h).
  assert (H2' : Rabs (YU x (th * h) q - YU x 0 q - (0 * (th * h) ^ 0 + (0 * (th * h) ^ 1 + h * h * S2))) <= C2 * Rabs h ^ S (S m)) by (eapply Rle_trans; [exact H2|]; apply Rmult_le_compat_l; auto).
  clear H2 H4 Hpw. set (y := Rabs h) in *. assert (Py : 0 <= y * y) by (apply Rmult_le_pos; auto).
  apply (Rmult_le_compat_l _ _ _ Py) in H1. apply (Rmult_le_compat_l _ _ _ Py) in He1.
  assert (P2 : 0 <= y ^ m) by (apply pow_le; auto). replace (y ^ S (S m)) with (y * y * y ^ m) in * by (simpl; ring).
  set (z := y ^ m) in *.
  assert (P3 : 0 <= eps * y) by (apply Rmult_le_pos; auto).
  assert (0 <= C3 * (y * y * z)) by (repeat apply Rmult_le_pos; auto). assert (0 <= (C1 + C2) * (eps * y)) by (apply Rmult_le_pos; lra).
  assert (Q : y * y * (eps * C3) <= y * (eps * C3)) by (apply Rmult_le_compat_r; [exact He0|]; clear - P Hh1; nra).
  replace ((C1 + C2 + C3) * (eps * y + y * y * z)) with ((C1 + C2) * (eps * y) + y * y * (C1 * z) + C2 * (y * y * z) + y * (eps * C3) + C3 * (y * y * z)) by ring. lra.
Qed.
End Dense.
