(** Interpolants of Nystrom steps that start near a trajectory, and of runs of the Nystrom solvers. *)
From Coq Require Import String Reals Lra Psatz QArith Qreals Lia List Arith Bool.
From Verif Require Import Arith Common RK RKGen RKHist RX SpecRK RKSpecProofs RKReal RKInit RKInitReal RKStep RKBuilt RKMore RKTop Classes Tableaux Series Trees OrderThm OrderCheck
  OrderRK OrderRKN OrderModel OrderPair OrderPairN Dense DenseReal DenseStep DenseAcc DenseAccN DenseNear DenseNearN GOrder GDense GDenseCheck Balls BallTab NearPair UOrder UOrder2 UDense
  GlobalRK GlobalRun GlobalEst GlobalDense GlobalN GlobalRunN.
Import ListNotations.
Close Scope string_scope.
Open Scope nat_scope.
Open Scope R_scope.

Section Near.
Variables (uV : bool) (n p N : nat) (G : R -> list R -> list R) (lo hi : R) (Y : R -> list R).
Hypothesis Hvf : uV = false -> velocity_free n G.
Hypothesis HY : solution2_on n G lo hi Y.
Hypothesis HS : smooth2_along p n G lo hi Y.
Variables (A Ap : nat -> nat -> R) (c : nat -> R) (w wp : R -> nat -> R) (eps : R).
Hypothesis HA : forall i l, (i <= l)%nat -> A i l = 0.
Hypothesis HAp : forall i l, (i <= l)%nat -> Ap i l = 0.
Hypothesis Hw : wbounded N w.
Hypothesis Hwp : wbounded N wp.
Hypothesis Heps : 0 <= eps.
Hypothesis Hp : (0 < p)%nat.
Hypothesis OU : dense_U true uV N A Ap c eps w (p - 1).
Hypothesis OV : dense_V true uV N A Ap c eps wp p.

(** positions, then velocities *)
Definition point2 (t : R) (y : list R) (h th : R) (q : nat) : R :=
  if Nat.ltb q n then nth q y 0 + (th * h * nth (n + q) y 0 + h * (h * lcomb N (w th) (nstages n G A Ap c t y h N) q))
  else nth q y 0 + h * lcomb N (wp th) (nstages n G A Ap c t y h N) (q - n)%nat.

Lemma coef_bound3 : exists W, (forall i l, (i < N)%nat -> (l < N)%nat -> Rabs (A i l) <= W) /\ (forall i l, (i < N)%nat -> (l < N)%nat -> Rabs (Ap i l) <= W) /\
  (forall i, (i < N)%nat -> Rabs (c i) <= W).
Proof. destruct (coef_bound N A Ap c c c) as (W & H1 & H2 & H3 & _). exists W. auto. Qed.

Lemma dense_on2 : exists C del, 0 <= C /\ 0 < del /\ forall q, (q < n + n)%nat -> forall t th h, lo <= t <= hi -> 0 <= th <= 1 -> Rabs h < del ->
  Rabs (point2 t (Y t) h th q - nth q (Y (t + th * h)) 0) <= C * (eps * Rabs h + Rabs h ^ S p).
Proof.
  apply (uniform_bound (n + n) (fun q C del => forall t th h, lo <= t <= hi -> 0 <= th <= 1 -> Rabs h < del ->
    Rabs (point2 t (Y t) h th q - nth q (Y (t + th * h)) 0) <= C * (eps * Rabs h + Rabs h ^ S p))).
  { intros q C C' del del' H HC Hd t th h Ht Hth Hh. eapply Rle_trans; [apply H; auto; lra|]. apply Rmult_le_compat_r; [|auto].
    apply Rplus_le_le_0_compat; [apply Rmult_le_pos; [auto|apply Rabs_pos]|apply pow_le, Rabs_pos]. }
  intros q Hq. destruct coef_bound3 as (W & WA & WAp & Wc). destruct (b2_HT n p G lo hi Y HS) as (T & HT).
  set (bb := base2 lo hi) in *.
  pose proof (fun L => u_dense_V bb true uV (S (n + n)) n p T (fun b => ell2 n (Y (bt2 lo hi b))) (b2_ell n G lo hi Y HY) (pu2 n) (pv2 n) (pu2_lt n) (pv2_lt' n) (fo G (n + n)) (fun b => pt (bt2 lo hi b) (Y (bt2 lo hi b))) HT
    (fun b => K2 G (bt2 lo hi b) Y) (fun b => YV2 n (bt2 lo hi b) Y) (fun b => YU2 n (bt2 lo hi b) (Y (bt2 lo hi b)) Y) (b2_HYV n G lo hi Y HY) (b2_HYU n G lo hi Y HY)
    (b2_HKb uV n p G lo hi Y Hvf HY HS) (b2_HK uV n G lo hi Y Hvf HY) N (fun _ => A) (fun _ => Ap) (fun _ => c) W L) as XV.
  pose proof (fun L => u_dense_U bb true uV (S (n + n)) n p T (fun b => ell2 n (Y (bt2 lo hi b))) (b2_ell n G lo hi Y HY) (pu2 n) (pv2 n) (pu2_lt n) (pv2_lt' n) (fo G (n + n)) (fun b => pt (bt2 lo hi b) (Y (bt2 lo hi b))) HT
    (fun b => K2 G (bt2 lo hi b) Y) (fun b => YV2 n (bt2 lo hi b) Y) (fun b => YU2 n (bt2 lo hi b) (Y (bt2 lo hi b)) Y) (b2_HYV n G lo hi Y HY) (b2_HYU n G lo hi Y HY)
    (b2_HKb uV n p G lo hi Y Hvf HY HS) (b2_HK uV n G lo hi Y Hvf HY) N (fun _ => A) (fun _ => Ap) (fun _ => c) W L) as XU.
  unfold point2. destruct (Nat.ltb_spec q n) as [Hn|Hn].
  - destruct (XU (fun _ => WA) (fun _ => WAp) (fun _ => Wc) (bk2 n G lo hi Y N A Ap c) (b2_Kb uV n p G lo hi Y Hvf HY HS N A Ap c HA HAp W WA WAp Wc) (b2_Hk uV n G lo hi Y Hvf HY N A Ap c HA HAp) w Hw eps Heps (p - 1)%nat q eq_refl Hn ltac:(lia) (fun _ => OU))
      as (C & del & HC & Hd & H).
    exists C, del. split; [auto|]. split; [auto|]. intros t th h Ht Hth Hh. specialize (H (exist _ t Ht) th h Hth Hh). unfold YU2, bk2, bt2 in H. cbn [fst snd proj1_sig] in H. rewrite Rplus_0_r in H.
    replace (S (S (p - 1))) with (S p) in H by lia. eapply Rle_trans; [|exact H]. right. f_equal. unfold lcomb. ring.
  - destruct (XV (fun _ => WA) (fun _ => WAp) (fun _ => Wc) (bk2 n G lo hi Y N A Ap c) (b2_Kb uV n p G lo hi Y Hvf HY HS N A Ap c HA HAp W WA WAp Wc) (b2_Hk uV n G lo hi Y Hvf HY N A Ap c HA HAp) wp Hwp eps Heps p (q - n)%nat ltac:(lia) (le_n p) (fun _ => OV))
      as (C & del & HC & Hd & H).
    exists C, del. split; [auto|]. split; [auto|]. intros t th h Ht Hth Hh. specialize (H (exist _ t Ht) th h Hth Hh). unfold YV2, bk2, bt2 in H. cbn [fst snd proj1_sig] in H. rewrite Rplus_0_r in H.
    replace (n + (q - n))%nat with q in H by lia. eapply Rle_trans; [|exact H]. right. f_equal. unfold lcomb. ring.
Qed.

(** starting within e of the trajectory *)
Lemma dense_close2 L r : lipschitz2_near n G lo hi Y L r -> exists C del, 0 <= C /\ 0 < del /\ forall q t y h th e, (q < n + n)%nat -> lo <= t <= hi -> length y = (n + n)%nat ->
  0 <= th <= 1 -> Rabs h < del -> 0 <= e <= r / 4 -> close (n + n) y (Y t) e ->
  Rabs (point2 t y h th q - nth q (Y (t + th * h)) 0) <= C * (e + eps * Rabs h + Rabs h ^ S p).
Proof.
  intros HL. destruct dense_on2 as (C1 & d1 & HC1 & Hd1 & H1). destruct coef_bound3 as (W & WA & WAp & Wc).
  destruct (stages_close2 uV n p G lo hi Y Hvf HY HS N A Ap c HA HAp W WA WAp Wc L r HL) as (B & d2 & _ & Hd2 & H2).
  destruct Hw as (Bw & HBw & Hw'). destruct Hwp as (Bp & HBp & Hwp'). assert (HL0 : 0 <= L) by apply HL.
  assert (B1 : Bw <= Bw + Bp) by lra. assert (B2 : Bp <= Bw + Bp) by lra.
  set (C2 := INR N * ((Bw + Bp) * (2 * L))). assert (HC2 : 0 <= C2) by (unfold C2; pose proof (pos_INR N); repeat apply Rmult_le_pos; lra).
  exists (C1 + C2 + 2), (Rmin 1 (Rmin d1 d2)). split; [lra|]. split; [apply Rmin_case; [lra|apply Rmin_case; tauto]|]. intros q t y h th e Hq Ht Ly Hth Hh He Hy.
  assert (A0 : Rabs h <= 1) by (left; eapply Rlt_le_trans; [exact Hh|apply Rmin_l]).
  assert (A1 : Rabs h < d1) by (eapply Rlt_le_trans; [exact Hh|eapply Rle_trans; [apply Rmin_r|apply Rmin_l]]).
  assert (A2 : Rabs h < d2) by (eapply Rlt_le_trans; [exact Hh|eapply Rle_trans; [apply Rmin_r|apply Rmin_r]]).
  specialize (H1 q Hq t th h Ht Hth A1). specialize (H2 t y h e Ht Ly A2 He Hy).
  pose proof (Rabs_pos h) as P.
  assert (HD : forall (v : nat -> R) i, (forall l, (l < N)%nat -> Rabs (v l) <= Bw + Bp) -> (i < n)%nat ->
    Rabs (lcomb N v (nstages n G A Ap c t y h N) i - lcomb N v (nstages n G A Ap c t (Y t) h N) i) <= C2 * e).
  { intros v i Hv Hi. unfold lcomb. rewrite <- rsum_sub'. unfold C2. replace (INR N * ((Bw + Bp) * (2 * L)) * e) with (INR N * ((Bw + Bp) * (2 * L * e))) by ring.
    apply rsum_bound. intros l Hl. rewrite <- Rmult_minus_distr_l, Rabs_mult. apply Rmult_le_compat; auto using Rabs_pos.
    destruct (H2 l Hl) as (H3 & _). apply (H3 i Hi). }
  assert (HE : Rabs (point2 t y h th q - point2 t (Y t) h th q) <= (C2 + 2) * e).
  { assert (Z : 0 <= C2 * e) by (apply Rmult_le_pos; lra). unfold point2. destruct (Nat.ltb_spec q n) as [Hn|Hn].
    - pose proof (Hy q Hq) as E1. pose proof (Hy (n + q)%nat ltac:(lia)) as E2.
      pose proof (HD (w th) q (fun l Hl => Rle_trans _ _ _ (Hw' th l Hth Hl) B1) Hn) as E3.
      set (a := lcomb N (w th) (nstages n G A Ap c t y h N) q) in *. set (a' := lcomb N (w th) (nstages n G A Ap c t (Y t) h N) q) in *.
      replace (nth q y 0 + (th * h * nth (n + q) y 0 + h * (h * a)) - (nth q (Y t) 0 + (th * h * nth (n + q) (Y t) 0 + h * (h * a'))))
        with ((nth q y 0 - nth q (Y t) 0) + (th * h * (nth (n + q) y 0 - nth (n + q) (Y t) 0) + h * h * (a - a'))) by ring.
      eapply Rle_trans; [apply Rabs_triang|]. eapply Rle_trans; [apply Rplus_le_compat_l, Rabs_triang|]. rewrite !Rabs_mult, (Rabs_pos_eq th) by lra.
      assert (T1 : th * Rabs h * Rabs (nth (n + q) y 0 - nth (n + q) (Y t) 0) <= e).
      { rewrite <- (Rmult_1_l e). apply Rmult_le_compat; try apply Rabs_pos; auto; [apply Rmult_le_pos; lra|]. rewrite <- (Rmult_1_r 1). apply Rmult_le_compat; lra. }
      assert (T2 : Rabs h * Rabs h * Rabs (a - a') <= C2 * e).
      { rewrite <- (Rmult_1_l (C2 * e)). apply Rmult_le_compat; try apply Rabs_pos; auto; [apply Rmult_le_pos; lra|]. rewrite <- (Rmult_1_r 1). apply Rmult_le_compat; lra. }
      lra.
    - pose proof (Hy q Hq) as E1.
      pose proof (HD (wp th) (q - n)%nat (fun l Hl => Rle_trans _ _ _ (Hwp' th l Hth Hl) B2) ltac:(lia)) as E3.
      set (a := lcomb N (wp th) (nstages n G A Ap c t y h N) (q - n)%nat) in *. set (a' := lcomb N (wp th) (nstages n G A Ap c t (Y t) h N) (q - n)%nat) in *.
      replace (nth q y 0 + h * a - (nth q (Y t) 0 + h * a')) with ((nth q y 0 - nth q (Y t) 0) + h * (a - a')) by ring.
      eapply Rle_trans; [apply Rabs_triang|]. rewrite Rabs_mult.
      assert (T2 : Rabs h * Rabs (a - a') <= C2 * e) by (rewrite <- (Rmult_1_l (C2 * e)); apply Rmult_le_compat; try apply Rabs_pos; auto).
      lra. }
  replace (point2 t y h th q - nth q (Y (t + th * h)) 0) with ((point2 t y h th q - point2 t (Y t) h th q) + (point2 t (Y t) h th q - nth q (Y (t + th * h)) 0)) by ring.
  eapply Rle_trans; [apply Rabs_triang|].
  assert (Q1 : 0 <= Rabs h ^ S p) by (apply pow_le; auto). assert (Q2 : 0 <= eps * Rabs h) by (apply Rmult_le_pos; auto).
  set (x := Rabs h ^ S p) in *. set (z := eps * Rabs h) in *.
  assert (0 <= (C2 + 2) * (z + x)) by (apply Rmult_le_pos; lra). assert (0 <= C1 * e) by (apply Rmult_le_pos; lra).
  replace ((C1 + C2 + 2) * (e + z + x)) with (C1 * (z + x) + C1 * e + (C2 + 2) * e + (C2 + 2) * (z + x)) by ring. lra.
Qed.
End Near.

(** ** smoothness of lower order *)
Lemma smooth2_weaken1 p n G lo hi Y : smooth2_along (S p) n G lo hi Y -> smooth2_along p n G lo hi Y.
Proof.
  intros (T & C & M & del & Hdel & H). set (e := INR (S (n + n))). assert (He : 0 <= e) by apply pos_INR.
  exists T, (Rabs C * e + Rabs M), M, (Rmin del 1). split; [apply Rmin_case; lra|]. intros t q Ht Hq.
  destruct (H t q Ht Hq) as (H1 & H2). split; [intros js L Hj; apply H1; auto|]. intros z Hz.
  assert (Hz1 : forall j, (j < S (n + n))%nat -> Rabs (z j) < del) by (intros j Hj; eapply Rlt_le_trans; [apply Hz; auto|apply Rmin_l]).
  assert (Hz2 : forall j, (j < S (n + n))%nat -> Rabs (z j) <= 1) by (intros j Hj; left; eapply Rlt_le_trans; [apply Hz; auto|apply Rmin_r]).
  specialize (H2 z Hz1). change (rsum (S p) (fun m => lsum (idx (S (n + n)) m) (fun js => T t q js * fold_right (fun j pr => z j * pr) 1 js))) with
    (rsum p (fun m => lsum (idx (S (n + n)) m) (fun js => T t q js * fold_right (fun j pr => z j * pr) 1 js)) + lsum (idx (S (n + n)) p) (fun js => T t q js * fold_right (fun j pr => z j * pr) 1 js)) in H2.
  set (Sm := rsum p _) in *. set (L := lsum (idx (S (n + n)) p) _) in *. set (Z := rsum (S (n + n)) (fun j => Rabs (z j))) in *. set (f := fo G (n + n) _ q) in *.
  assert (HZ : 0 <= Z <= e).
  { split; [apply rsum_nonneg; intros; apply Rabs_pos|]. unfold Z, e. eapply Rle_trans; [apply Rle_abs|].
    eapply Rle_trans; [apply (rsum_bound _ _ 1); intros i Hi; rewrite Rabs_Rabsolu; auto|lra]. }
  assert (HL : Rabs L <= Rabs M * Z ^ p).
  { unfold L, Z. rewrite <- idx_power, <- lsum_scal. apply lsum_abs_le. intros js Hjs. rewrite Rabs_mult, fold_abs.
    apply Rmult_le_compat_r; [apply fold_nonneg; intros; apply Rabs_pos|]. eapply Rle_trans; [apply H1|apply Rle_abs].
    - rewrite (idx_len _ _ _ Hjs). auto.
    - apply idx_in in Hjs. exact Hjs. }
  replace (f - Sm) with ((f - (Sm + L)) + L) by ring. eapply Rle_trans; [apply Rabs_triang|].
  assert (HP : 0 <= Z ^ p) by (apply pow_le; lra). cbn [pow] in H2.
  assert (HC : C * (Z * Z ^ p) <= Rabs C * (e * Z ^ p)).
  { pose proof (Rle_abs C). assert (0 <= Z * Z ^ p) by (apply Rmult_le_pos; lra). assert (Z * Z ^ p <= e * Z ^ p) by (apply Rmult_le_compat_r; lra).
    apply Rle_trans with (Rabs C * (Z * Z ^ p)); [apply Rmult_le_compat_r; lra|]. apply Rmult_le_compat_l; [apply Rabs_pos|auto]. }
  rewrite Rmult_plus_distr_r. lra.
Qed.
Lemma smooth2_weaken p m n G lo hi Y : (m <= p)%nat -> smooth2_along p n G lo hi Y -> smooth2_along m n G lo hi Y.
Proof. intros H. induction H as [|p H IH]; intros HS; auto. apply IH, smooth2_weaken1, HS. Qed.

(** ** dense_output() of a Nystrom solver, as a combination of the stages *)
Definition dense_form_n (T : TabN RX) (impl : dimpl RX) (n N : nat) (A Ap : nat -> nat -> R) (c : nat -> R) (w wp : R -> nat -> R) : Prop :=
  forall G g m cf v v' t0 y0 t1, lifts2 n G g -> length y0 = (n + n)%nat -> uses_tabn m T n -> made_step m cf v v' -> fn cf = g ->
    t (st v) = Fin t0 -> y (st v) = map Fin y0 -> t (st v') = Fin t1 -> t1 <> t0 ->
    exists D s', dense_output impl cf v' = DenseOk D s' /\ forall th, exists r, call D (Fin (t0 + th * (t1 - t0))) = map Fin r /\ length r = (n + n)%nat /\
      forall q, (q < n + n)%nat -> nth q r 0 = point2 n N G A Ap c w wp t0 y0 (t1 - t0) th q.

Lemma nystrom_form s A Ap b bp c e ep X Xp x P Pp n impl : length A = s -> length Ap = s -> length c = s -> length x = length X -> length Xp = length X -> nth 0 c 0%Q = 0%Q ->
  (1 <= qcols P)%nat -> (1 <= qcols Pp)%nat -> nystrom_impl impl n X Xp x P Pp ->
  dense_form_n (mk_tabn s A Ap b bp c e ep) impl n (S s + length X) (mq (extA A b X)) (mq (extA Ap bp Xp)) (vq (extC c x)) (pw QN 2 (qcols P) P) (pw QN 1 (qcols Pp) Pp).
Proof.
  intros LA LAp LC Lx LXp C0 Hq Hqp HI G g m cf v v' t0 y0 t1 HL Hy HU HM Hg E0 Ey E1 Hne.
  assert (Hd : (0 < n + n)%nat) by (apply (y0_pos y0 _ Hy); rewrite <- Ey; apply (made_step_ne m cf v v' HM)).
  destruct (made_step_real_n n G g s A Ap b bp c e ep m cf v v' t0 y0 t1 HL Hy LA LAp LC C0 HU HM Hg E0 Ey E1) as (ks & SF & EY & EK).
  rewrite (dense_enter _ cf v v' _ ks t0 t1 SF E0 E1 Hne) by (rewrite EY, map_length, npoint_length; lia).
  set (h := t1 - t0) in *.
  assert (SY := sf_yold _ _ _ _ _ SF). rewrite Ey in SY.
  destruct (HI cf (Fin t0) (st v') (map Fin y0) (Fin h) SY (sf_h _ _ _ _ _ SF)) as (s' & ES). rewrite ES, EK, Hg, E1.
  destruct (extra_all_n n G g A Ap b bp c X Xp x t0 y0 h s (calls (st v')) HL LA LAp LC Hy Lx LXp) as (cl' & EX). rewrite EX. cbn [fst].
  eexists. eexists. split; [reflexivity|]. intros th.
  pose proof (call_nystrom n P Pp t0 h th (map Fin y0) _ _ _ ltac:(unfold h; lra) Hq Hqp (reals_intro _ y0 Hy)
     (realsK_nstages n G g (mq (extA A b X)) (mq (extA Ap bp Xp)) (vq (extC c x)) t0 y0 h (S s + length X) HL Hy)) as HR.
  replace (t0 + h) with t1 in HR by (unfold h; ring). destruct HR as (r & Er & Lr & Nr).
  exists r. split; [exact Er|]. split; [exact Lr|].
  intros q Hqn. rewrite Nr by auto. rewrite map_length, nstages_length. reflexivity.
Qed.
Lemma quintic_form s A Ap b bp c e ep n : length A = s -> length Ap = s -> length b = s -> length bp = s -> length c = s -> nth 0 c 0%Q = 0%Q -> (0 < s)%nat ->
  dense_form_n (mk_tabn s A Ap b bp c e ep) (dense_quintic n) n (S s) (mq (extA A b [])) (mq (extA Ap bp [])) (vq (extC c []))
    (pw QN 2 (qcols (quinP s b bp)) (quinP s b bp)) (pw QN 1 (qcols (quinPp s b bp)) (quinPp s b bp)).
Proof.
  intros LA LAp LB LBp LC C0 Hs G g m cf v v' t0 y0 t1 HL Hy HU HM Hg E0 Ey E1 Hne.
  pose proof (fun th => quintic_value s A Ap b bp c e ep n LA LAp LB LBp LC C0 Hs G g m cf v v' t0 y0 t1 th HL Hy HU HM Hg E0 Ey E1 Hne) as QV.
  destruct (QV 0) as (D & s' & _ & ED & _). exists D, s'. split; [exact ED|]. intros th.
  destruct (QV th) as (D2 & s2 & r & ED2 & EC & Lr & EV). rewrite ED in ED2. injection ED2 as <- <-.
  exists r. split; [exact EC|]. split; [exact Lr|]. intros q Hqn. unfold point2. destruct (Nat.ltb_spec q n) as [Hn|Hn].
  - exact (proj1 (EV q Hn)).
  - destruct (EV (q - n)%nat ltac:(lia)) as (_ & H). replace (n + (q - n))%nat with q in H by lia. exact H.
Qed.

(** ** their conditions *)
Lemma pw_wb_a a N P : wbounded N (pw QN a (qcols P) P).
Proof.
  destruct (weights_bound N (fun i => rsum (qcols P) (fun j => Rabs (mR QN P i j)))) as (B & HB & Hb).
  exists B. split; [auto|]. intros th i Hth Hi. eapply Rle_trans; [apply pw_bound_a; apply Rabs_le; lra|]. eapply Rle_trans; [apply Rle_abs|apply Hb; exact Hi].
Qed.
Lemma order_dense_U uV N A Ap c w p : (forall th, order_U true uV N A Ap c (w th) th p) -> dense_U true uV N A Ap c 0 w p.
Proof. intros H th n fs Hth Hn Hf. rewrite (H th n fs Hn Hf), Rminus_diag_eq, Rabs_R0 by auto. lra. Qed.
Lemma order_dense_V uV N A Ap c w p : (forall th, order_V true uV N A Ap c (w th) th p) -> dense_V true uV N A Ap c 0 w p.
Proof. intros H th n fs Hth Hn Hf. rewrite (H th n fs Hn Hf), Rminus_diag_eq, Rabs_R0 by auto. lra. Qed.

(** what the accuracy of an interpolant along a run needs *)
Definition dense_ready (vel : bool) (T : TabN RX) (impl : dimpl RX) (n q : nat) (eps : R) : Prop :=
  exists N A Ap c w wp, (forall i l, (i <= l)%nat -> A i l = 0) /\ (forall i l, (i <= l)%nat -> Ap i l = 0) /\ wbounded N w /\ wbounded N wp /\ 0 <= eps /\ (0 < q)%nat /\
    dense_U true vel N A Ap c eps w (q - 1) /\ dense_V true vel N A Ap c eps wp q /\ dense_form_n T impl n N A Ap c w wp.
Lemma nystrom_ready vel s A Ap b bp c e ep X Xp x P Pp q n impl : interpn_ok vel s A Ap b bp c X Xp x P Pp q = true -> nystrom_impl impl n X Xp x P Pp ->
  dense_ready vel (mk_tabn s A Ap b bp c e ep) impl n q 0.
Proof.
  intros HOK HI. destruct (interpn_spec _ _ _ _ _ _ _ _ _ _ _ _ _ HOK) as (LA & LAp & LB & LBp & LC & Lx & LXp & C0 & Hq & Hqp & Hp & Hl1 & Hl2 & HU & HV).
  eexists. eexists. eexists. eexists. eexists. eexists. split; [exact Hl1|]. split; [exact Hl2|]. split; [apply pw_wb_a|]. split; [apply pw_wb_a|]. split; [lra|]. split; [lia|].
  split; [exact (order_dense_U _ _ _ _ _ _ _ HU)|]. split; [exact (order_dense_V _ _ _ _ _ _ _ HV)|]. apply nystrom_form; auto.
Qed.
Lemma quintic_ready s A Ap b bp c e ep q n : (0 < s)%nat -> interpn_ok true s A Ap b bp c [] [] [] (quinP s b bp) (quinPp s b bp) q = true ->
  dense_ready true (mk_tabn s A Ap b bp c e ep) (dense_quintic n) n q 0.
Proof.
  intros Hs HOK. destruct (interpn_spec _ _ _ _ _ _ _ _ _ _ _ _ _ HOK) as (LA & LAp & LB & LBp & LC & Lx & LXp & C0 & Hq & Hqp & Hp & Hl1 & Hl2 & HU & HV).
  assert (L3 : (S s + length (@nil (list Q)) = S s)%nat) by (simpl; lia). rewrite L3 in HU, HV.
  eexists. eexists. eexists. eexists. eexists. eexists. split; [exact Hl1|]. split; [exact Hl2|]. split; [apply pw_wb_a|]. split; [apply pw_wb_a|]. split; [lra|]. split; [lia|].
  split; [exact (order_dense_U _ _ _ _ _ _ _ HU)|]. split; [exact (order_dense_V _ _ _ _ _ _ _ HV)|]. apply quintic_form; auto.
Qed.
Lemma pw_wU P cols th i : pw QN 2 cols P th i = wU (mR QN P) cols th i.
Proof. unfold pw, wU. apply rsum_ext. intros j _. do 2 f_equal. lia. Qed.
Lemma near_dense_U uV N A Ap c eps P q : dense_U true uV N A Ap c eps (wU (mR QN P) (qcols P)) q -> dense_U true uV N A Ap c eps (pw QN 2 (qcols P) P) q.
Proof.
  intros H th n fs Hth Hn Hf. specialize (H th n fs Hth Hn Hf).
  rewrite (rsum_ext _ _ (fun i => wU (mR QN P) (qcols P) th i * stage_weight N A Ap c fs i)); [exact H|]. intros i _. rewrite pw_wU. reflexivity.
Qed.
Lemma near_dense_V uV N A Ap c eps P q : dense_V true uV N A Ap c eps (wV (mR QN P) (qcols P)) q -> dense_V true uV N A Ap c eps (pw QN 1 (qcols P) P) q.
Proof.
  intros H th n fs Hth Hn Hf. specialize (H th n fs Hth Hn Hf).
  rewrite (rsum_ext _ _ (fun i => wV (mR QN P) (qcols P) th i * stage_weight N A Ap c fs i)); [exact H|]. intros i _. rewrite pw_wV. reflexivity.
Qed.
Lemma nystrom_ready_near bits s A Ap b bp c e ep X Xp x P Pp q eps n impl : interpn_near_ok bits s A Ap b bp c X Xp x P Pp q eps = true -> 0 <= Q2R eps -> nystrom_impl impl n X Xp x P Pp ->
  dense_ready true (mk_tabn s A Ap b bp c e ep) impl n q (Q2R eps).
Proof.
  intros HOK He HI. destruct (interpn_near_spec _ _ _ _ _ _ _ _ _ _ _ _ _ _ HOK) as (LA & LAp & LB & LBp & LC & Lx & LXp & C0 & Hq & Hqp & Hp & Hl1 & Hl2 & HU & HV).
  eexists. eexists. eexists. eexists. eexists. eexists. split; [exact Hl1|]. split; [exact Hl2|]. split; [apply pw_wb_a|]. split; [apply pw_wb_a|]. split; [exact He|]. split; [lia|].
  split; [exact (near_dense_U _ _ _ _ _ _ _ _ HU)|]. split; [exact (near_dense_V _ _ _ _ _ _ _ _ HV)|]. apply nystrom_form; auto.
Qed.
Lemma quintic_ready_near bits s A Ap b bp c e ep q eps n : (0 < s)%nat -> interpn_near_ok bits s A Ap b bp c [] [] [] (quinP s b bp) (quinPp s b bp) q eps = true -> 0 <= Q2R eps ->
  dense_ready true (mk_tabn s A Ap b bp c e ep) (dense_quintic n) n q (Q2R eps).
Proof.
  intros Hs HOK He. destruct (interpn_near_spec _ _ _ _ _ _ _ _ _ _ _ _ _ _ HOK) as (LA & LAp & LB & LBp & LC & Lx & LXp & C0 & Hq & Hqp & Hp & Hl1 & Hl2 & HU & HV).
  assert (L3 : (S s + length (@nil (list Q)) = S s)%nat) by (simpl; lia). rewrite L3 in HU, HV.
  eexists. eexists. eexists. eexists. eexists. eexists. split; [exact Hl1|]. split; [exact Hl2|]. split; [apply pw_wb_a|]. split; [apply pw_wb_a|]. split; [exact He|]. split; [lia|].
  split; [exact (near_dense_U _ _ _ _ _ _ _ _ HU)|]. split; [exact (near_dense_V _ _ _ _ _ _ _ _ HV)|]. apply quintic_form; auto.
Qed.
