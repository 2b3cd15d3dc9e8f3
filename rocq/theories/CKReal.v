(** CKdisc over the extended reals: step sizes, termination, order and factor ranges. *)
From Coq Require Import String ZArith Reals Lra Psatz QArith Qreals Bool Lia List.
From Verif Require Import Arith Common Stiff RK RKGen RX RKReal HStart RKInit RKInitReal RKStep RKBuilt NormReal
  Tableaux Classes Dense Ode CK CKGen.
Import ListNotations.
Close Scope string_scope.
Open Scope R_scope.

Implicit Types (c : Cfg RX) (s : CKst RX).

(** the ranges of the adaptive factors *)
Definition ck_ranges s : Prop :=
  (exists a, tw0 s = Fin a /\ 11/10 <= a <= 3/2) /\ tw1 s = Fin (11/10) /\
  (exists q, qt0 s = Fin q /\ 1 <= q <= 10000) /\ (exists q, qt1 s = Fin q /\ 1 <= q <= 10000).

Lemma l1110 : @lit RX (11#10) = Fin (11/10). Proof. litR. Qed.
Lemma l10000 : @lit RX 10000 = Fin 10000. Proof. litR. Qed.

Lemma ck_twiddle_range e q a : 11/10 <= a -> exists b, @ck_twiddle RX e (Fin q) (Fin a) = Fin b /\ 11/10 <= b <= a.
Proof.
  intros Ha. unfold ck_twiddle. cbv zeta. set (x := ndiv RX e (Fin q)). cbn [nltb RX].
  destruct (xltb x (Fin a)) eqn:E; [|exists a; split; [reflexivity|lra]].
  rewrite l1110. unfold pymax. cbn [nltb RX].
  destruct x as [x| | |]; cbn [xltb] in *; try discriminate.
  - apply Rltb_true in E. destruct (Rltb_spec (11/10) x); eexists; (split; [reflexivity|lra]).
  - eexists; split; [reflexivity|lra].
Qed.
Lemma ck_twiddle_floor e q : @ck_twiddle RX e (Fin q) (Fin (11/10)) = Fin (11/10).
Proof.
  destruct (ck_twiddle_range e q (11/10) ltac:(lra)) as (b & -> & Hb). f_equal. lra.
Qed.
Lemma ck_quit_range x q : exists b, @ck_quit RX x q = Fin b /\ 1 <= b <= 10000.
Proof.
  unfold ck_quit. cbv zeta. match goal with |- context [pymin (lit 10000) ?z] => generalize z end. intros z.
  rewrite l10000, n1_RX. unfold pymin. cbn [nltb RX].
  destruct (xltb z (Fin 10000)) eqn:E.
  - unfold pymax. cbn [nltb RX]. destruct (xltb (Fin 1) z) eqn:E1; [|exists 1; split; [reflexivity|lra]].
    destruct z as [z| | |]; cbn [xltb] in *; try discriminate. apply Rltb_true in E, E1. exists z. split; [reflexivity|lra].
  - rewrite pymax_fin. exists (Rmax 1 10000). split; [reflexivity|]. rewrite Rmax_right by lra. lra.
Qed.
(** per step the change is limited: at most tenfold up, at most one third down *)
Lemma ck_quit_change x q b : 1 <= q <= 10000 -> @ck_quit RX (Fin x) (Fin q) = Fin b -> 2/3 * q <= Rmax 1 b /\ Rmin b 1 = 1 /\ b <= 10 * q.
Proof.
  intros Hq. unfold ck_quit. cbv zeta. cbn [nltb RX xltb].
  assert (E10 : nmul RX (lit 10) (Fin q) = Fin (10 * q)).
  { replace (@lit RX 10) with (Fin 10) by (symmetry; litR). reflexivity. }
  assert (E23 : nmul RX (lit (2#3)) (Fin q) = Fin (2/3 * q)).
  { replace (@lit RX (2#3)) with (Fin (2/3)) by (symmetry; litR). reflexivity. }
  rewrite E10, E23, l10000, n1_RX, pymin_fin, pymax_fin.
  destruct (Rltb_spec q x); rewrite pymin_fin, pymax_fin; intros E; injection E as <-;
   unfold Rmin, Rmax; repeat (destruct (Rle_dec _ _)); lra.
Qed.

Lemma minf_RX : @lit RX CKdisc_min_factor = Fin (1/5). Proof. unfold CKdisc_min_factor. litR. Qed.
Lemma maxf_RX : @lit RX CKdisc_max_factor = Fin 5. Proof. unfold CKdisc_max_factor. litR. Qed.
Lemma safe_RX : @CK_SAFETY RX = Fin (9/10). Proof. unfold CK_SAFETY. litR. Qed.
Lemma fb0_RX : @entry RX 0 CKdisc_C_fallback = Fin (1/5). Proof. unfold entry, CKdisc_C_fallback. cbn [nth]. litR. Qed.
Lemma fb1_RX : @entry RX 1 CKdisc_C_fallback = Fin (3/5). Proof. unfold entry, CKdisc_C_fallback. cbn [nth]. litR. Qed.

(** a retry multiplies the step by a factor in [1/5, 9/10] *)
Lemma retry_factor est : (xltb est (Fin 1) = false) ->
  exists q, @pymax RX (Fin (1/5)) (xdiv (Fin (9/10)) est) = Fin q /\ 1/5 <= q <= 9/10.
Proof.
  intros H. destruct est as [x| | |]; cbn [xltb] in H; try discriminate.
  - apply Rltb_false in H. cbn [xdiv]. destruct (Req_EM_T x 0); [lra|]. rewrite pymax_fin.
    eexists; split; [reflexivity|].
    assert (9 / 10 / x <= 9/10).
    { apply Rmult_le_reg_r with x; [lra|]. unfold Rdiv. rewrite Rmult_assoc, Rinv_l by lra. nra. }
    split; [apply Rmax_l|]. apply Rmax_case; lra.
  - cbn [xdiv]. rewrite pymax_fin. eexists; split; [reflexivity|]. rewrite Rmax_left by lra. lra.
  - unfold pymax. cbn. eexists; split; [reflexivity|lra].
Qed.
Lemma est_ge1 e q a : 1 <= q -> 1 <= a -> xltb e (xmul (Fin a) (Fin q)) = false -> xltb (xdiv e (Fin q)) (Fin 1) = false.
Proof.
  intros Hq Ha H. destruct e as [x| | |]; cbn [xltb xmul xdiv] in *; try discriminate; [| |reflexivity].
  - apply Rltb_false in H. destruct (Req_EM_T q 0); [lra|]. cbn [xltb]. apply Rltb_false.
    apply Rmult_le_reg_r with q; [lra|]. unfold Rdiv. rewrite Rmult_assoc, Rinv_l by lra. nra.
  - destruct (Rlt_dec q 0); [lra|]. unfold inf_of_sign. cbn [xsgn]. destruct (Rlt_dec 0 (1 * 1)); [reflexivity|lra].
Qed.

Lemma ck_trial_ranges c s ha ms rej : ck_ranges s ->
  match ck_trial c s ha ms rej with
  | CkAbort s' _ | CkReject s' _ | CkAccept s' _ _ _ _ => ck_ranges s' end.
Proof.
  intros ((a & Ea & Ha) & Et & (q0 & E0 & H0) & (q1 & E1 & H1)).
  assert (TW : forall s', ck_tw s s' -> (exists b, tw0 s' = Fin b /\ 11/10 <= b <= 3/2) /\ tw1 s' = Fin (11/10)).
  { intros s' [[T0 T1]|(e0 & e1 & T0 & T1)].
    - rewrite T0, T1, Ea, Et. split; [eauto|reflexivity].
    - rewrite T0, T1, Ea, Et, E0, E1. destruct (ck_twiddle_range e0 q0 a) as (b & -> & Hb); [lra|].
      split; [exists b; split; [reflexivity|lra]|apply ck_twiddle_floor]. }
  assert (QT : forall s', ck_qt s s' -> (exists q, qt0 s' = Fin q /\ 1 <= q <= 10000) /\ (exists q, qt1 s' = Fin q /\ 1 <= q <= 10000)).
  { intros s' [T0 T1]. rewrite T0, T1, E0, E1. split; eexists; (split; [reflexivity|lra]). }
  pose proof (ck_trial_inv c s ha ms rej) as HT. cbv zeta in HT.
  destruct (ck_trial c s ha ms rej) as [s' msg|s' h'|s' ord h h' yn].
  - destruct HT as (_ & _ & _ & _ & T0 & T1 & HQ & _). destruct (TW s') as [W1 W2]; [left; auto|]. destruct (QT s' HQ). split; auto.
  - destruct HT as (_ & _ & _ & _ & _ & _ & HW & HQ & _). destruct (TW s' HW). destruct (QT s' HQ). split; auto.
  - destruct HT as (_ & _ & _ & _ & _ & HW & Ks & _ & _ & HC). destruct (TW s' HW) as [W1 W2]. split; [exact W1|]. split; [exact W2|].
    destruct HC as [HC|[HC|HC]].
    + destruct HC as (_ & _ & _ & _ & _ & _ & x0 & x1 & -> & ->). split; apply ck_quit_range.
    + apply QT, HC.
    + apply QT, HC.
Qed.

(** rejection shrinks by a factor in [1/5, 9/10] *)
Lemma ck_reject_shrinks c s h ms rej s' h' : ck_ranges s -> ck_trial c s (Fin h) ms rej = CkReject s' h' ->
  exists q, h' = Fin (h * q) /\ 1/5 <= q <= 9/10.
Proof.
  intros ((a & Ea & Ha) & Et & (q0 & E0 & H0) & (q1 & E1 & H1)) H.
  pose proof (ck_trial_inv c s (Fin h) ms rej) as HT. cbv zeta in HT. rewrite H in HT.
  destruct HT as (_ & _ & _ & _ & _ & _ & _ & _ & [E|(est & E & HC)]).
  - rewrite fb0_RX in E. exists (1/5). split; [exact E|lra].
  - rewrite minf_RX, safe_RX in E. change (nmul RX) with xmul in *. change (ndiv RX) with xdiv in *. cbn [nltb RX] in HC.
    assert (G : xltb est (Fin 1) = false).
    { destruct HC as [(e & -> & HC)|[(e & -> & HC)|(HC & _)]].
      - rewrite E0, Ea in *. apply (est_ge1 e q0 a); try lra. exact HC.
      - rewrite E1, Et in *. apply (est_ge1 e q1 (11/10)); try lra. exact HC.
      - rewrite n1_RX in HC. exact HC. }
    destruct (retry_factor est G) as (q & Eq & Hq). rewrite Eq in E. exists q. split; [exact E|exact Hq].
Qed.

(** the error norm of a candidate is nonnegative, infinite or nan *)
Lemma err_norm_nneg c y0 yn e : nneg (err_norm c y0 yn e).
Proof. unfold err_norm, norm. apply nneg_sqrt. Qed.
Lemma pow_nneg x e : nneg x -> nneg (xpow x (Fin e)).
Proof.
  intros H. unfold xpow. destruct (Req_EM_T e 0); [cbn; lra|]. destruct x as [x| | |]; cbn; auto.
  - destruct (Rlt_dec 0 x); [left; apply Rpower_pos|]. destruct (Req_EM_T x 0); [|cbn; auto]. destruct (Rlt_dec 0 e); cbn; auto. lra.
  - destruct (Rlt_dec 0 e); cbn; auto. lra.
Qed.
Lemma ck_E4_cases c y0 h K : let x := snd (ck_cand c (lv CKdisc_B) (lv CKdisc_E) 6 y0 h K) in
  xltb (ck_E4 c y0 h K) (Fin 1) = true ->
  (exists e, ck_E4 c y0 h K = Fin e /\ 0 < e < 1) /\ xltb x (Fin 1) = true.
Proof.
  intros x. unfold ck_E4. cbv zeta. fold x.
  assert (Nx : nneg x) by apply err_norm_nneg.
  replace (@lit RX (1#5)) with (Fin (1/5)) by (symmetry; litR). cbn [npow neqb RX]. rewrite n0_RX.
  assert (E160 : exists e, @lit RX (1 # 10 ^ 160) = Fin e /\ 0 < e < 1).
  { unfold lit. cbn [nofQ RX]. eexists. split; [reflexivity|]. clear.
    assert (Q1 : (0 < 1 # 10 ^ 160)%Q) by reflexivity. assert (Q2 : ((1 # 10 ^ 160) < 1)%Q) by reflexivity.
    apply Qlt_Rlt in Q1, Q2. rewrite RMicromega.Q2R_0 in Q1. rewrite RMicromega.Q2R_1 in Q2. split; assumption. }
  destruct x as [x| | |]; cbn [nneg] in Nx; try contradiction.
  - unfold xpow. destruct (Req_EM_T (1/5) 0); [lra|]. destruct (Rlt_dec 0 x) as [Hx|Hx].
    + pose proof (Rpower_pos x (1/5)) as HP. cbn [xeqb]. destruct (Reqb_spec (Rpower x (1/5)) 0); [lra|].
      cbn [xltb]. intros HL. apply Rltb_true in HL. split; [eexists; split; [reflexivity|lra]|].
      apply Rltb_true. destruct (Rlt_dec x 1) as [|Hg]; auto. exfalso.
      assert (1 <= Rpower x (1/5)).
      { assert (R1 : Rpower 1 (1/5) = 1) by (unfold Rpower; rewrite ln_1, Rmult_0_r; apply exp_0).
        rewrite <- R1 at 1. apply Rle_Rpower_l; lra. }
      lra.
    + assert (x = 0) by lra. subst x. destruct (Req_EM_T 0 0); [|lra]. destruct (Rlt_dec 0 (1/5)); [|lra].
      cbn [xeqb]. destruct (Reqb_spec 0 0); [|lra]. destruct E160 as (e160 & -> & He). intros _.
      split; [exists e160; split; [reflexivity|lra]|]. cbn [xltb]. apply Rltb_true. lra.
  - unfold xpow. destruct (Req_EM_T (1/5) 0); [lra|]. destruct (Rlt_dec 0 (1/5)); [|lra]. cbn. discriminate.
  - unfold xpow. destruct (Req_EM_T (1/5) 0); [lra|]. cbn. discriminate.
Qed.

(** theta: the fraction of the trial step that an accepted member advances *)
Definition ck_theta (ord : nat) : R := match ord with 4%nat => 1 | 2%nat => 3/5 | _ => 1/5 end.

Lemma ck_accept_real c s h ms rej s' ord hh h' yn d : direction c = Fin d -> 0 < h ->
  ck_trial c s (Fin h) ms rej = CkAccept s' ord hh h' yn ->
  (ord = 4%nat \/ ord = 2%nat \/ ord = 1%nat) /\ hh = Fin (ck_theta ord * h * d) /\
  (exists q, h' = Fin (h * q) /\ (ord = 4%nat -> 9/10 < q <= 5 \/ (rej = true /\ 9/10 < q <= 1)) /\
     (ord <> 4%nat -> q = ck_theta ord) /\ (rej = true -> q <= 1) /\ 1/5 <= q <= 5).
Proof.
  intros Hd Hh H. pose proof (ck_trial_inv c s (Fin h) ms rej) as HT. cbv zeta in HT. rewrite H in HT.
  destruct HT as (_ & _ & _ & _ & _ & _ & Ks & _ & _ & HC). rewrite Hd in HC.
  change (nmul RX) with xmul in *. cbn [xmul] in HC.
  destruct HC as [HC|[HC|HC]].
  - destruct HC as (-> & _ & -> & _ & HE & Hf & _). split; [auto|]. rewrite n1_RX in HE. cbn [nltb RX] in HE.
    destruct (ck_E4_cases c (y (ckb s)) (Fin (h * d)) Ks HE) as ((e & Ee & He) & _). rewrite Ee in Hf.
    rewrite safe_RX, maxf_RX, n1_RX in Hf. change (ndiv RX) with xdiv in Hf. cbn [xdiv] in Hf.
    destruct (Req_EM_T e 0); [lra|]. rewrite !pymin_fin in Hf.
    split; [f_equal; cbn; ring|].
    assert (G : 9/10 < 9/10/e).
    { apply Rmult_lt_reg_r with e; [lra|]. unfold Rdiv at 2. rewrite Rmult_assoc, Rinv_l by lra. nra. }
    set (x := 9/10/e) in *. assert (M : 9/10 < Rmin 5 x <= 5) by (split; [apply Rmin_case; lra|apply Rmin_l]).
    destruct rej.
    + exists (Rmin 1 (Rmin 5 x)). split; [exact Hf|].
      assert (9/10 < Rmin 1 (Rmin 5 x) <= 1) by (split; [apply Rmin_case; lra|apply Rmin_l]).
      repeat split; intros; try lra; try (right; split; auto; lra); try congruence.
    + exists (Rmin 5 x). split; [exact Hf|]. repeat split; intros; try lra; try congruence; try (left; lra); try discriminate.
  - destruct HC as (-> & _ & -> & -> & _). rewrite fb1_RX. cbn [xmul]. split; [auto|]. split; [f_equal; cbn; ring|].
    exists (3/5). split; [reflexivity|]. cbn. repeat split; intros; try lra; try congruence.
  - destruct HC as (-> & _ & -> & -> & _). rewrite fb0_RX. cbn [xmul]. split; [auto|]. split; [f_equal; cbn; ring|].
    exists (1/5). split; [reflexivity|]. cbn. repeat split; intros; try lra; try congruence.
Qed.

(** *** the loop *)
Lemma ck_loop_real c d : direction c = Fin d -> forall k s h ms rej s', ck_ranges s -> 0 < h ->
  ck_loop k c s (Fin h) (Fin ms) rej = IDone s' ->
  exists j H ord q, (nfs (ckb s') = nfs (ckb s) + j)%nat /\ ms <= H /\ h * (1/5) ^ j <= H <= h * (9/10) ^ j /\
    (ord = 4%nat \/ ord = 2%nat \/ ord = 1%nat) /\ ckord s' = ord /\
    t (ckb s') = xadd (t (ckb s)) (Fin (ck_theta ord * H * d)) /\
    h_previous (ckb s') = Some (Fin (ck_theta ord * H * d)) /\
    h_abs (ckb s') = Fin (H * q) /\ (ord = 4%nat -> 9/10 < q) /\ (ord <> 4%nat -> q = ck_theta ord) /\ 1/5 <= q <= 5 /\
    (rej = true \/ (1 <= j)%nat -> q <= 1) /\
    ck_ranges s' /\ same_ctl (ckb s) (ckb s') /\
    f (ckb s') = fn c (t (ckb s')) (y (ckb s')).
Proof.
  intros Hd. induction k as [|k IH]; intros s h ms rej s' HR Hh H; cbn [ck_loop] in H; [discriminate|].
  pose proof (ck_trial_ranges c s (Fin h) (Fin ms) rej HR) as HRR.
  pose proof (ck_trial_inv c s (Fin h) (Fin ms) rej) as HT. cbv zeta in HT.
  destruct (ck_trial c s (Fin h) (Fin ms) rej) as [s1 m1|s1 h1|s1 ord hh h1 yn] eqn:ET; try discriminate.
  - destruct (ck_reject_shrinks c s h (Fin ms) rej s1 h1 HR ET) as (q & -> & Hq).
    destruct HT as (_ & HC & Hs & Hn & _).
    destruct (IH s1 (h * q) ms true s' HRR ltac:(nra) H) as (j & HH & ord & q' & A1 & A2 & A3 & A4 & A5 & A6 & A7 & A8 & A9 & A10 & A11 & A12 & A13 & A14 & A16).
    exists (S j), HH, ord, q'. split; [lia|]. split; [exact A2|].
    assert (0 < (1/5) ^ j) by (apply pow_lt; lra). assert (0 < (9/10) ^ j) by (apply pow_lt; lra).
    assert (0 < h * (1/5)^j) by nra. assert (0 < h * (9/10)^j) by nra. split; [simpl; split; nra|]. split; [exact A4|]. split; [exact A5|].
    destruct HC as (C1 & _). rewrite C1 in A6. split; [exact A6|]. split; [exact A7|]. split; [exact A8|]. split; [exact A9|].
    split; [exact A10|]. split; [exact A11|]. split; [intros _; apply A12; auto|]. split; [exact A13|]. split; [unfold same_ctl in *; congruence|]. exact A16.
  - injection H as <-.
    destruct (ck_accept_real c s h (Fin ms) rej s1 ord hh h1 yn d Hd Hh ET) as (B1 & B2 & q & B3 & B4 & B5 & B6 & B7).
    destruct HT as (H0 & HC & Hs & Hn & _). cbn [nltb RX xltb] in H0. apply Rltb_false in H0.
    exists 0%nat, h, ord, q. cbn [ck_finish ckb ckord t y f h_abs h_previous standard_sc max_factor nfs].
    destruct HC as (C1 & C2 & _).
    split; [lia|]. split; [exact H0|]. split; [simpl; lra|]. split; [exact B1|]. split; [reflexivity|].
    split; [rewrite C1, B2; reflexivity|]. split; [rewrite B2; reflexivity|]. split; [exact B3|].
    split; [intros E; destruct (B4 E) as [B|[_ B]]; lra|]. split; [exact B5|]. split; [exact B7|].
    split; [intros [E|E]; [auto|lia]|]. split; [exact HRR|]. split; [exact Hs|reflexivity].
Qed.

(** *** step() *)
Definition ck_live (r : rconst) s : Prop :=
  live r (ckb s) /\ standard_sc (ckb s) = true /\ ck_ranges s.

Lemma ck_reassess c r (s0 : St RX) : good_cfg c r -> live r s0 ->
  exists sc, reassess_stepsize c s0 = (Fin (trial0 c r s0), Fin (min_step_at r s0), sc) /\
    (sc = false -> standard_sc s0 = false) /\ 0 < min_step_at r s0.
Proof.
  intros (HC & HR & HM) ((( tt & Ht) & _ & _) & (h & Hh & Hp)).
  destruct (reassess_real c r s0 tt h HC HR HM Ht Hh Hp) as (h' & sc & He & Hsc & Hms & Hh1 & Hh').
  assert (Et : tval s0 = tt) by (unfold tval; rewrite Ht; auto).
  assert (Eh : hval s0 = h) by (unfold hval; rewrite Hh; auto).
  exists sc. unfold min_step_at, trial0, dist, min_step_at. rewrite Et, Eh.
  rewrite He. subst h'. split; [reflexivity|]. split; [exact Hsc|exact Hms].
Qed.

Theorem ck_step_real c r k s s' : good_cfg c r -> ck_live r s -> dir r * (tb r - tval (ckb s)) <> 0 ->
  ck_step_impl k c s = IDone s' ->
  exists j H ord q, let s0 := ckb s in let s1 := ckb s' in
    nfs s1 = (nfs s0 + j)%nat /\ min_step_at r s0 <= H /\
    trial0 c r s0 * (1/5) ^ j <= H <= trial0 c r s0 * (9/10) ^ j /\
    (ord = 4%nat \/ ord = 2%nat \/ ord = 1%nat) /\ ckord s' = ord /\
    tval s1 = tval s0 + dir r * (ck_theta ord * H) /\
    h_previous s1 = Some (Fin (dir r * (ck_theta ord * H))) /\
    hval s1 = H * q /\ (ord = 4%nat -> 9/10 < q) /\ (ord <> 4%nat -> q = ck_theta ord) /\ 1/5 <= q <= 5 /\
    ((1 <= j)%nat -> q <= 1) /\ ck_live r s' /\ 0 < H /\ f s1 = fn c (t s1) (y s1).
Proof.
  intros HG (HL & Hsc & HR) Hne H. unfold ck_step_impl in H.
  destruct (ck_reassess c r (ckb s) HG HL) as (sc & Er & Hsc' & Hms). rewrite Er in H.
  assert (Esc : sc = true) by (destruct sc; auto; rewrite Hsc in Hsc'; specialize (Hsc' eq_refl); discriminate).
  pose proof (trial0_pos c r (ckb s) HG HL Hne) as Hpos.
  destruct HG as (HC & HR1 & HM). assert (HCd := HC). destruct HCd as (_ & Hd & _).
  match type of H with ck_loop k c ?x _ _ _ = _ => assert (HRx : ck_ranges x) by exact HR; set (sx := x) in * end.
  destruct (ck_loop_real c (dir r) Hd k sx _ _ _ s' HRx Hpos H)
    as (j & HH & ord & q & A1 & A2 & A3 & A4 & A5 & A6 & A7 & A8 & A9 & A10 & A11 & A12 & A13 & A14 & A16).
  assert (HP : 0 < HH) by lra.
  destruct HL as ((( tt & Ht) & Hmf & _) & (h & Hh & Hp)).
  unfold sx in A6. cbn [ckb with_trial t] in A6. rewrite Ht in A6. cbn [xadd] in A6.
  unfold sx in A14. unfold same_ctl in A14. cbn [ckb with_trial standard_sc max_factor] in A14. injection A14 as A14 A15.
  exists j, HH, ord, q. cbv zeta. split; [exact A1|]. split; [exact A2|]. split; [exact A3|]. split; [exact A4|]. split; [exact A5|].
  split; [unfold tval; rewrite A6, Ht; ring|].
  split; [rewrite A7; do 2 f_equal; ring|].
  split; [unfold hval; rewrite A8; reflexivity|]. split; [exact A9|]. split; [exact A10|]. split; [exact A11|].
  split; [intros; apply A12; right; auto|]. split; [|split; [exact HP|exact A16]].
  assert (E3 : standard_sc (ckb s') = true) by (rewrite A14; exact Esc).
  split; [|split; [exact E3|exact A13]].
  split; [|exists (HH * q); split; [exact A8|nra]].
  split; [eexists; exact A6|]. split; [rewrite A15; exact Hmf|]. intros E. congruence.
Qed.

Lemma pow910_le1 j : 0 < (9/10) ^ j <= 1.
Proof. induction j; simpl; [lra|]. nra. Qed.
Lemma theta_pos ord : 1/5 <= ck_theta ord <= 1.
Proof. unfold ck_theta. destruct ord as [|[|[|[|[|]]]]]; lra. Qed.

(** t moves forward, not past t_bound *)
Theorem ck_step_monotone c r k s s' : good_cfg c r -> ck_live r s -> 0 < dir r * (tb r - tval (ckb s)) ->
  max_above_min c r (ckb s) -> ck_step_impl k c s = IDone s' ->
  0 < dir r * (tval (ckb s') - tval (ckb s)) /\ 0 <= dir r * (tb r - tval (ckb s')) /\
  min_step_at r (ckb s) <= 5 * Rabs (tval (ckb s') - tval (ckb s)) /\
  match max_step c with Fin M => Rabs (tval (ckb s') - tval (ckb s)) <= M | _ => True end.
Proof.
  intros HG HI Hd HP H.
  destruct (ck_step_real c r k s s' HG HI ltac:(lra) H) as (j & HH & ord & q & A1 & A2 & A3 & A4 & A5 & A6 & _ & _ & _ & _ & _ & _ & _ & HP0 & _).
  destruct HI as (HL & _). destruct (trial0_le c r (ckb s) HG HL HP) as [T1 T2].
  pose proof (pow910_le1 j) as Hj. pose proof (theta_pos ord) as Hth.
  pose proof (trial0_pos c r (ckb s) HG HL ltac:(lra)) as Hpos.
  assert (HT : HH <= trial0 c r (ckb s)) by nra.
  destruct HG as (HC & (Hdir & _) & HM).
  set (th := ck_theta ord) in *. assert (B : 0 < th * HH <= HH) by nra.
  assert (Dd : dist r (ckb s) = dir r * (tb r - tval (ckb s))).
  { unfold dist. destruct Hdir as [E|E]; rewrite E in *; [rewrite Rabs_pos_eq|rewrite Rabs_left1]; lra. }
  assert (Ab : Rabs (tval (ckb s') - tval (ckb s)) = th * HH).
  { rewrite A6. replace (tval (ckb s) + dir r * (th * HH) - tval (ckb s)) with (dir r * (th * HH)) by ring.
    destruct Hdir as [E|E]; rewrite E; [rewrite Rabs_pos_eq|rewrite Rabs_left1]; lra. }
  rewrite Ab, A6. rewrite Dd in T1.
  assert (D2 : dir r * dir r = 1) by (destruct Hdir as [E|E]; rewrite E; lra).
  split; [replace (dir r * (tval (ckb s) + dir r * (th * HH) - tval (ckb s))) with (dir r * dir r * (th * HH)) by ring; rewrite D2; lra|].
  split; [replace (dir r * (tb r - (tval (ckb s) + dir r * (th * HH)))) with (dir r * (tb r - tval (ckb s)) - dir r * dir r * (th * HH)) by ring; rewrite D2; lra|].
  split; [nra|]. destruct (max_step c); auto. lra.
Qed.

Theorem ck_step_lands c r k s s' : good_cfg c r -> ck_live r s -> 0 < dir r * (tb r - tval (ckb s)) ->
  ck_step_impl k c s = IDone s' -> nfs (ckb s') = nfs (ckb s) -> ckord s' = 4%nat ->
  dist r (ckb s) <= clip (max_step c) (min_step_at r (ckb s)) (hval (ckb s)) ->
  tval (ckb s') = tb r.
Proof.
  intros HG HI Hd H Hn Ho Hc.
  destruct (ck_step_real c r k s s' HG HI ltac:(lra) H) as (j & HH & ord & q & A1 & A2 & A3 & A4 & A5 & A6 & _ & _ & _ & _ & _ & _ & _ & HP0 & _).
  assert (j = 0)%nat by lia. subst j. rewrite Ho in A5. subst ord. simpl in A3.
  destruct HI as (HL & _).
  assert (Hd0 : 0 < dist r (ckb s)).
  { unfold dist. apply Rabs_pos_lt. intros E. rewrite E in Hd. lra. }
  assert (Ht0 : trial0 c r (ckb s) = dist r (ckb s)).
  { unfold trial0. destruct (Rlt_dec _ _); [|lra]. destruct (Rlt_dec _ _); [lra|reflexivity]. }
  assert (E : HH = dist r (ckb s)) by lra. rewrite A6, E. unfold dist. cbn [ck_theta].
  destruct HG as (HC & (Hdir & _) & HM).
  destruct Hdir as [Ed|Ed]; rewrite Ed in *; [rewrite Rabs_pos_eq|rewrite Rabs_left1]; lra.
Qed.

(** step() terminates *)
Lemma ck_loop_terminates c d : direction c = Fin d -> forall k s h ms rej, ck_ranges s -> 0 < h -> h * (9/10) ^ k < ms ->
  ck_loop (S k) c s (Fin h) (Fin ms) rej <> IFuel.
Proof.
  intros Hd. induction k as [|k IH]; intros s h ms rej HR Hh Hb.
  - cbn [ck_loop]. unfold ck_trial. simpl in Hb. cbn [nltb RX xltb]. destruct (Rltb_spec h ms); [discriminate|lra].
  - remember (S k) as n. cbn [ck_loop]. pose proof (ck_trial_ranges c s (Fin h) (Fin ms) rej HR) as HRR.
    destruct (ck_trial c s (Fin h) (Fin ms) rej) as [s1 m1|s1 h1|s1 ord hh h1 yn] eqn:ET; try discriminate.
    destruct (ck_reject_shrinks c s h (Fin ms) rej s1 h1 HR ET) as (q & -> & Hq). subst n. apply IH; auto; [nra|].
    simpl in Hb. pose proof (pow910_le1 k). eapply Rle_lt_trans; [|exact Hb].
    assert (0 < h * (9/10)^k) by nra. nra.
Qed.
Theorem ck_step_terminates c r s : good_cfg c r -> ck_live r s -> dir r * (tb r - tval (ckb s)) <> 0 ->
  forall k, trial0 c r (ckb s) * (9/10) ^ k < min_step_at r (ckb s) ->
  forall k', (k < k')%nat -> ck_step_impl k' c s <> IFuel /\ ck_step_impl k' c s = ck_step_impl (S k) c s.
Proof.
  intros HG (HL & Hsc & HR) Hne k Hk k' Hk'.
  destruct (ck_reassess c r (ckb s) HG HL) as (sc & Er & _ & Hms).
  pose proof (trial0_pos c r (ckb s) HG HL Hne) as Hpos.
  unfold ck_step_impl. rewrite Er.
  match goal with |- ck_loop _ _ ?x _ _ _ <> _ /\ _ => assert (HRx : ck_ranges x) by exact HR end.
  destruct HG as ((_ & Hd & _) & _).
  pose proof (ck_loop_terminates c _ Hd k _ _ _ false HRx Hpos Hk) as HT.
  rewrite (ck_loop_fuel c (S k) _ _ _ _ HT k') by lia. auto.
Qed.
