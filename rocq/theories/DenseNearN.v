(** Accuracy of the dense outputs of the Nystrom solvers: interpolants typed as decimals and the
    quintic Hermite interpolant. *)
From Coq Require Import String Reals Lra QArith Qreals Lia List Arith Bool FunctionalExtensionality.
From Verif Require Import Arith Common RK RKGen RKHist RX SpecRK RKSpecProofs RKTop Classes Tableaux Series Trees OrderThm OrderCheck OrderRK OrderRKN OrderModel GOrder GDense Balls BallTab NearPair OrderPair OrderPairN GDenseCheck Dense DenseReal DenseStep DenseAcc DenseAccN DenseJoin2 DenseNear.
Import ListNotations.
Close Scope string_scope.
Open Scope nat_scope.
Open Scope R_scope.

(** position and velocity parts of the dense output, at every fraction theta of the step *)
Definition dense_nearly_accurate_n (T : TabN RX) (impl : dimpl RX) (n p : nat) (eps : Q) : Prop :=
  forall G t0 y0 Y g Ty, lifts2 n G g -> length y0 = (n + n)%nat -> taylor_at (S (n + n)) n (fo G (n + n)) (pt t0 y0) Ty p -> solves2 n G t0 y0 Y ->
  exists C del, 0 < del /\ forall m c v v' t1 th, uses_tabn m T n -> made_step m c v v' -> fn c = g ->
    t (st v) = Fin t0 -> y (st v) = map Fin y0 -> t (st v') = Fin t1 -> t1 <> t0 -> Rabs (t1 - t0) < del -> 0 <= th <= 1 ->
    exists D s' r, dense_output impl c v' = DenseOk D s' /\
      call D (Fin (t0 + th * (t1 - t0))) = map Fin r /\ length r = (n + n)%nat /\
      forall q, (q < n)%nat ->
        Rabs (nth q r 0 - nth q (Y (t0 + th * (t1 - t0))) 0) <= Q2R eps * rsum (p - 1) (fun k => diffs2 n y0 Ty k q * Rabs (t1 - t0) ^ S (S k)) + C * Rabs (t1 - t0) ^ S p /\
        Rabs (nth (n + q) r 0 - nth (n + q) (Y (t0 + th * (t1 - t0))) 0) <= Q2R eps * rsum p (fun k => diffs2 n y0 Ty k q * Rabs (t1 - t0) ^ S k) + C * Rabs (t1 - t0) ^ S p.

Section Second.
Variables (n : nat) (G : R -> list R -> list R) (t0 : R) (y0 : list R).
Hypothesis Hy0 : length y0 = (n + n)%nat.
Variables (p : nat) (T : nat -> list nat -> R).
Hypothesis HT : taylor_at (S (n + n)) n (fo G (n + n)) (pt t0 y0) T p.
Variable Y : R -> list R.
Hypothesis HY : solves2 n G t0 y0 Y.
Variables (s : nat) (A Ap : nat -> nat -> R) (c : nat -> R).
Hypothesis HA : forall i l, (i <= l)%nat -> A i l = 0.
Hypothesis HAp : forall i l, (i <= l)%nat -> Ap i l = 0.
Let HG : smooth_at2 n p G t0 y0 := ex_intro _ T HT.
Let Hvf : true = false -> velocity_free n G. Proof. discriminate. Qed.
Notation NS h := (nstages n G A Ap c t0 y0 h s).
Notation th01 := {th | 0 <= th <= 1}.

Lemma rkn_dense_V eps b m q : (q < n)%nat -> (m <= p)%nat -> wbounded s b -> dense_V true true s A Ap c eps b m ->
  exists C del, 0 < del /\ forall x : R * th01, Rabs (fst x) < del ->
    Rabs (nth (n + q) y0 0 + fst x * lcomb s (b (proj1_sig (snd x))) (NS (fst x)) q - nth (n + q) (Y (t0 + proj1_sig (snd x) * fst x)) 0) <= eps * rsum m (fun k => diffs2 n y0 T k q * Rabs (fst x) ^ S k) + C * Rabs (fst x) ^ S m.
Proof.
  intros Hq Hm HW HO.
  destruct (g_dense_V R (fun h => h) true true (S (n + n)) n p T (ell2 n y0) (pu2 n) (pv2 n) (pu2_lt n) (pv2_lt n y0 Hy0) (fo G (n + n)) (pt t0 y0) HT s A Ap c eps
    (kn n G t0 y0 s A Ap c) (HB2 true n G t0 y0 Hy0 p HG Hvf s A Ap c HA HAp) (Hk2 true n G t0 y0 Hy0 Hvf s A Ap c HA HAp)
    (K2 G t0 Y) (YV2 n t0 Y) (YU2 n t0 y0 Y) (HYV2 n G t0 y0 Y HY) (fun _ => HYU2 n G t0 y0 Y HY) (HKb2 true n G t0 y0 Hy0 p HG Hvf Y HY) (HK2 true n G t0 y0 Hy0 Hvf Y HY) b m q Hq Hm HW HO) as (C & del & Hd & H).
  exists C, del. split; [exact Hd|]. intros (h & th & Hth) Hh. cbn [fst snd proj1_sig] in *. specialize (H h th Hh Hth). rewrite (YV2_0 n G t0 y0 Y HY) in H. unfold YV2 in H.
  eapply Rle_trans; [|exact H]. right. f_equal. unfold lcomb, kn. ring.
Qed.
Lemma rkn_dense_U eps b m q : (q < n)%nat -> (m <= p)%nat -> wbounded s b -> dense_U true true s A Ap c eps b m ->
  exists C del, 0 < del /\ forall x : R * th01, Rabs (fst x) < del ->
    Rabs (nth q y0 0 + (proj1_sig (snd x) * fst x * nth (n + q) y0 0 + fst x * (fst x * lcomb s (b (proj1_sig (snd x))) (NS (fst x)) q)) - nth q (Y (t0 + proj1_sig (snd x) * fst x)) 0)
      <= eps * rsum m (fun k => diffs2 n y0 T k q * Rabs (fst x) ^ S (S k)) + C * Rabs (fst x) ^ S (S m).
Proof.
  intros Hq Hm HW HO.
  destruct (g_dense_U R (fun h => h) true true (S (n + n)) n p T (ell2 n y0) (pu2 n) (pv2 n) (pu2_lt n) (pv2_lt n y0 Hy0) (fo G (n + n)) (pt t0 y0) HT s A Ap c eps
    (kn n G t0 y0 s A Ap c) (HB2 true n G t0 y0 Hy0 p HG Hvf s A Ap c HA HAp) (Hk2 true n G t0 y0 Hy0 Hvf s A Ap c HA HAp)
    (K2 G t0 Y) (YV2 n t0 Y) (YU2 n t0 y0 Y) (HYV2 n G t0 y0 Y HY) (fun _ => HYU2 n G t0 y0 Y HY) (HKb2 true n G t0 y0 Hy0 p HG Hvf Y HY) (HK2 true n G t0 y0 Hy0 Hvf Y HY) b m q eq_refl Hq Hm HW HO) as (C & del & Hd & H).
  exists C, del. split; [exact Hd|]. intros (h & th & Hth) Hh. cbn [fst snd proj1_sig] in *. specialize (H h th Hh Hth). unfold YU2 in H. replace (t0 + 0) with t0 in H by ring. destruct HY as (HY0 & _). rewrite HY0 in H.
  eapply Rle_trans; [|exact H]. right. f_equal. unfold lcomb, kn. ring.
Qed.
End Second.

Definition interpn_near_ok (bits : Z) (s : nat) (A Ap : list (list Q)) (b bp c : list Q) (X Xp : list (list Q)) (x : list Q) (P Pp : list (list Q)) (p : nat) (e : Q) : bool :=
  let A' := extA A b X in let Ap' := extA Ap bp Xp in let c' := extC c x in
  let tb := ball_tab bits true c' A' Ap' (p - 1) in
  Nat.eqb (length A) s && Nat.eqb (length Ap) s && Nat.eqb (length b) s && Nat.eqb (length bp) s && Nat.eqb (length c) s &&
  Nat.eqb (length x) (length X) && Nat.eqb (length Xp) (length X) &&
  lower A' && lower Ap' && match nth 0 c 0%Q with (0 # 1)%Q => true | _ => false end &&
  Nat.leb 1 (qcols P) && Nat.leb 1 (qcols Pp) && Nat.leb 1 p && Z.leb 0 bits &&
  bcheckP bits tb (e / inject_Z (Z.of_nat (qcols P))) (p - 1) (qcols P) P (brhsU bits) &&
  bcheckP bits tb (e / inject_Z (Z.of_nat (qcols Pp))) p (qcols Pp) Pp (brhsV bits).

Lemma eps_cols eps k : (1 <= k)%nat -> INR k * Q2R (eps / inject_Z (Z.of_nat k)) = Q2R eps.
Proof.
  intros Hk. assert (Hne : ~ (inject_Z (Z.of_nat k) == 0)%Q) by (intros E; unfold Qeq in E; simpl in E; lia).
  rewrite Q2R_div by exact Hne. replace (Q2R (inject_Z (Z.of_nat k))) with (INR k).
  - field. apply not_0_INR. lia.
  - rewrite INR_IZR_INZ. unfold Q2R. simpl. field.
Qed.

Section Near.
Variables (bits : Z) (s : nat) (A Ap : list (list Q)) (b bp c : list Q) (X Xp : list (list Q)) (x : list Q) (P Pp : list (list Q)) (p : nat) (eps : Q).
Hypothesis HOK : interpn_near_ok bits s A Ap b bp c X Xp x P Pp p eps = true.
Notation N := (S s + length X)%nat.
Notation RS n G t y h := (nstages n G (mq (extA A b X)) (mq (extA Ap bp Xp)) (vq (extC c x)) t y h N).

Lemma interpn_near_spec : length A = s /\ length Ap = s /\ length b = s /\ length bp = s /\ length c = s /\ length x = length X /\ length Xp = length X /\
  nth 0 c 0%Q = 0%Q /\ (1 <= qcols P)%nat /\ (1 <= qcols Pp)%nat /\ (1 <= p)%nat /\
  (forall i l, (i <= l)%nat -> mq (extA A b X) i l = 0) /\ (forall i l, (i <= l)%nat -> mq (extA Ap bp Xp) i l = 0) /\
  dense_U true true N (mq (extA A b X)) (mq (extA Ap bp Xp)) (vq (extC c x)) (Q2R eps) (wU (mR QN P) (qcols P)) (p - 1) /\
  dense_V true true N (mq (extA A b X)) (mq (extA Ap bp Xp)) (vq (extC c x)) (Q2R eps) (wV (mR QN Pp) (qcols Pp)) p.
Proof.
  pose proof HOK as H. unfold interpn_near_ok in H. cbv zeta in H. repeat rewrite andb_true_iff in H.
  destruct H as (((((((((((((((HA & HAp) & Hb) & Hbp) & Hc) & Hx) & HXp) & Hlow) & Hlow2) & Hc0) & Hq) & Hqp) & Hp) & H0) & HU) & HV).
  apply Nat.eqb_eq in HA, HAp, Hb, Hbp, Hc, Hx, HXp. apply Nat.leb_le in Hq, Hqp, Hp. apply Z.leb_le in H0.
  assert (L1 : length (extC c x) = N) by (unfold extC; rewrite app_length; simpl; lia).
  assert (L2 : length (extA A b X) = N) by (unfold extA; rewrite app_length; simpl; lia).
  assert (L3 : length (extA Ap bp Xp) = N) by (unfold extA; rewrite app_length; simpl; lia).
  pose (K2 := fun (_ : true = true) => eq_trans L2 (eq_sym L1)). pose (K3 := eq_trans L3 (eq_sym L1)).
  destruct (bcheckP_U bits H0 true (extC c x) (extA A b X) (extA Ap bp Xp) K2 K3 (p - 1) _ (p - 1) (qcols P) P ltac:(lia) HU) as (U1 & U2 & U3).
  destruct (bcheckP_V bits H0 true (extC c x) (extA A b X) (extA Ap bp Xp) K2 K3 (p - 1) _ p (qcols Pp) Pp ltac:(lia) HV) as (V1 & V2 & V3).
  apply cols_dense_U in U3; auto. apply cols_dense_V in V3; auto. rewrite eps_cols in U3, V3 by lia. rewrite L1 in U3, V3.
  do 7 (split; [auto|]). split; [destruct (nth 0 c 0%Q) as [[| |] [| |]]; try discriminate Hc0; reflexivity|].
  do 3 (split; [auto|]). split; [apply lower_spec; auto|]. split; [apply lower_spec; auto|]. split; [exact U3|exact V3].
Qed.

Lemma interpn_near_real n G t0 y0 Y Ty : length y0 = (n + n)%nat -> taylor_at (S (n + n)) n (fo G (n + n)) (pt t0 y0) Ty p -> solves2 n G t0 y0 Y ->
  exists C del, 0 < del /\ forall th h, 0 <= th <= 1 -> Rabs h < del -> forall q, (q < n)%nat ->
    Rabs (nth q y0 0 + (th * h * nth (n + q) y0 0 + h * (h * lcomb N (pw QN 2 (qcols P) P th) (RS n G t0 y0 h) q)) - nth q (Y (t0 + th * h)) 0)
      <= Q2R eps * rsum (p - 1) (fun k => diffs2 n y0 Ty k q * Rabs h ^ S (S k)) + C * Rabs h ^ S p /\
    Rabs (nth (n + q) y0 0 + h * lcomb N (pw QN 1 (qcols Pp) Pp th) (RS n G t0 y0 h) q - nth (n + q) (Y (t0 + th * h)) 0)
      <= Q2R eps * rsum p (fun k => diffs2 n y0 Ty k q * Rabs h ^ S k) + C * Rabs h ^ S p.
Proof.
  intros Hy HT HY. destruct interpn_near_spec as (LA & LAp & LB & LBp & LC & Lx & LXp & C0 & Hq & Hqp & Hp & Hl1 & Hl2 & HU & HV).
  destruct (uniform_near (fun x : R * {th | 0 <= th <= 1} => fst x) n (S p) (fun q x => Q2R eps * rsum (p - 1) (fun k => diffs2 n y0 Ty k q * Rabs (fst x) ^ S (S k)))
     (fun q x => nth q y0 0 + (proj1_sig (snd x) * fst x * nth (n + q) y0 0 + fst x * (fst x * lcomb N (wU (mR QN P) (qcols P) (proj1_sig (snd x))) (RS n G t0 y0 (fst x)) q)) - nth q (Y (t0 + proj1_sig (snd x) * fst x)) 0)) as (C1 & d1 & Hd1 & H1).
  { intros q Hqn. replace (S p) with (S (S (p - 1))) by lia.
    exact (rkn_dense_U n G t0 y0 Hy p Ty HT Y HY N _ _ _ Hl1 Hl2 (Q2R eps) _ (p - 1) q Hqn ltac:(lia) (wU_bounded _ _ _) HU). }
  destruct (uniform_near (fun x : R * {th | 0 <= th <= 1} => fst x) n (S p) (fun q x => Q2R eps * rsum p (fun k => diffs2 n y0 Ty k q * Rabs (fst x) ^ S k))
     (fun q x => nth (n + q) y0 0 + fst x * lcomb N (wV (mR QN Pp) (qcols Pp) (proj1_sig (snd x))) (RS n G t0 y0 (fst x)) q - nth (n + q) (Y (t0 + proj1_sig (snd x) * fst x)) 0)) as (C2 & d2 & Hd2 & H2).
  { intros q Hqn. exact (rkn_dense_V n G t0 y0 Hy p Ty HT Y HY N _ _ _ Hl1 Hl2 (Q2R eps) _ p q Hqn ltac:(lia) (wV_bounded _ _ _) HV). }
  exists (Rmax C1 C2), (Rmin d1 d2). split; [apply Rmin_case; auto|]. intros th h Hth Hh q Hqn.
  apply Rmin_Rgt_l in Hh. destruct Hh as [A1 A2]. assert (Pw : 0 <= Rabs h ^ S p) by (apply pow_le, Rabs_pos).
  specialize (H1 (h, exist _ th Hth) A1 q Hqn). specialize (H2 (h, exist _ th Hth) A2 q Hqn). cbn [fst snd proj1_sig] in H1, H2.
  split.
  - eapply Rle_trans; [|eapply Rle_trans; [exact H1|]].
    + right. f_equal. do 5 f_equal. unfold lcomb. apply rsum_ext. intros i _. f_equal. unfold pw, wU. apply rsum_ext. intros j _. do 2 f_equal. lia.
    + apply Rplus_le_compat_l, Rmult_le_compat_r; [exact Pw|apply Rmax_l].
  - eapply Rle_trans; [|eapply Rle_trans; [exact H2|]].
    + right. f_equal. do 3 f_equal. unfold lcomb. apply rsum_ext. intros i _. f_equal. apply pw_wV.
    + apply Rplus_le_compat_l, Rmult_le_compat_r; [exact Pw|apply Rmax_r].
Qed.
End Near.

Theorem dense_n_near bits s A Ap b bp c e ep X Xp x P Pp p eps n impl : interpn_near_ok bits s A Ap b bp c X Xp x P Pp p eps = true ->
  nystrom_impl impl n X Xp x P Pp -> dense_nearly_accurate_n (mk_tabn s A Ap b bp c e ep) impl n p eps.
Proof.
  intros HOK HI G t0 y0 Y g Ty HL Hy HT HY.
  destruct (interpn_near_real _ _ _ _ _ _ _ _ _ _ _ _ _ _ HOK n G t0 y0 Y Ty Hy HT HY) as (C & del & Hdel & H).
  exists C, del. split; auto. intros m cf v v' t1 th HU HM Hg E0 Ey E1 Hne Hh Hth.
  destruct (interpn_near_spec _ _ _ _ _ _ _ _ _ _ _ _ _ _ HOK) as (LA & LAp & LB & LBp & LC & Lx & LXp & C0 & Hq & Hqp & Hp & _ & _ & _ & _).
  assert (Hd : (0 < n + n)%nat) by (apply (y0_pos y0 _ Hy); rewrite <- Ey; apply (made_step_ne m cf v v' HM)).
  destruct (made_step_real_n n G g s A Ap b bp c e ep m cf v v' t0 y0 t1 HL Hy LA LAp LC C0 HU HM Hg E0 Ey E1) as (ks & SF & EY & EK).
  rewrite (dense_enter _ cf v v' _ ks t0 t1 SF E0 E1 Hne) by (rewrite EY, map_length, npoint_length; lia).
  set (h := t1 - t0) in *.
  assert (SY := sf_yold _ _ _ _ _ SF). rewrite Ey in SY.
  destruct (HI cf (Fin t0) (st v') (map Fin y0) (Fin h) SY (sf_h _ _ _ _ _ SF)) as (s' & ES). rewrite ES, EK, Hg, E1.
  destruct (extra_all_n n G g A Ap b bp c X Xp x t0 y0 h s (calls (st v')) HL LA LAp LC Hy Lx LXp) as (cl' & EX). rewrite EX. cbn [fst].
  pose proof (call_nystrom n P Pp t0 h th (map Fin y0) _ _ _ ltac:(unfold h; lra) Hq Hqp (reals_intro _ y0 Hy)
     (realsK_nstages n G g (mq (extA A b X)) (mq (extA Ap bp Xp)) (vq (extC c x)) t0 y0 h (S s + length X) HL Hy)) as HR.
  replace (t0 + h) with t1 in HR by (unfold h; ring). destruct HR as (r & Er & Lr & Nr).
  eexists. eexists. exists r. split; [reflexivity|]. split; [exact Er|]. split; [exact Lr|].
  intros q Hqn. rewrite (Nr q), (Nr (n + q)%nat) by lia. rewrite map_length, nstages_length.
  destruct (Nat.ltb_spec q n) as [_|Hn]; [|lia]. destruct (Nat.ltb_spec (n + q) n) as [Hn|_]; [lia|].
  replace (n + q - n)%nat with q by lia. exact (H th h Hth Hh q Hqn).
Qed.

(** ** the quintic Hermite output as a Nystrom polynomial over the stages *)
Definition qrow (bi bpi x0 x1 x2 x3 y0 y1 y2 y3 z0 z1 z2 z3 w0 w1 w2 w3 : Q) (first last : bool) : list Q :=
  let d0 := if first then 1%Q else 0%Q in let d1 := if last then 1%Q else 0%Q in
  [(bi * x0 + bpi * y0 + d0 * z0 + d1 * w0)%Q; (bi * x1 + bpi * y1 + d0 * z1 + d1 * w1)%Q; (bi * x2 + bpi * y2 + d0 * z2 + d1 * w2)%Q; (bi * x3 + bpi * y3 + d0 * z3 + d1 * w3)%Q].
Definition quinP (s : nat) (b bp : list Q) : list (list Q) :=
  map (fun i => qrow (nth i b 0%Q) (nth i bp 0%Q) 0 10 (-15) 6 0 (-4) 7 (-3) (1 # 2) (-3 # 2) (3 # 2) (-1 # 2) 0 (1 # 2) (-1) (1 # 2) (Nat.eqb i 0) (Nat.eqb i s)) (seq 0 (S s)).
Definition quinPp (s : nat) (b bp : list Q) : list (list Q) :=
  map (fun i => qrow (nth i b 0%Q) (nth i bp 0%Q) 0 30 (-60) 30 0 (-12) 28 (-15) 1 (-9 # 2) 6 (-5 # 2) 0 (3 # 2) (-4) (5 # 2) (Nat.eqb i 0) (Nat.eqb i s)) (seq 0 (S s)).
Lemma quin_row s f i j : (i <= s)%nat -> mR QN (map f (seq 0 (S s))) i j = vq (f i) j.
Proof.
  intros Hi. unfold mR. change (@nth (list QN)) with (@nth (list Q)). rewrite (nth_indep _ [] (f 0%nat)) by (rewrite map_length, seq_length; lia). rewrite map_nth, seq_nth by lia. reflexivity.
Qed.
Lemma quin_pw a s f th i : (i <= s)%nat -> (forall i, length (f i) = 4%nat) ->
  pw QN a (qcols (map f (seq 0 (S s)))) (map f (seq 0 (S s))) th i = vq (f i) 0 * th ^ a + vq (f i) 1 * th ^ (1 + a) + vq (f i) 2 * th ^ (2 + a) + vq (f i) 3 * th ^ (3 + a).
Proof.
  intros Hi HL. replace (qcols (map f (seq 0 (S s)))) with 4%nat by (cbn [seq map qcols]; symmetry; apply HL). unfold pw. cbn [rsum]. rewrite !(quin_row s f i) by exact Hi. cbn [Nat.add]. ring.
Qed.
Definition dq (b : bool) : R := if b then 1 else 0.
Lemma Q2R_dq (b : bool) : Q2R (if b then 1%Q else 0%Q) = dq b.
Proof. destruct b; cbn [dq]; unfold Q2R; simpl; field. Qed.
Lemma quinP_w s b bp th i : (i <= s)%nat -> pw QN 2 (qcols (quinP s b bp)) (quinP s b bp) th i =
  vq b i * (10 * th ^ 3 - 15 * th ^ 4 + 6 * th ^ 5) + vq bp i * (- 4 * th ^ 3 + 7 * th ^ 4 - 3 * th ^ 5) +
  dq (Nat.eqb i 0) * (1 / 2 * th ^ 2 - 3 / 2 * th ^ 3 + 3 / 2 * th ^ 4 - 1 / 2 * th ^ 5) + dq (Nat.eqb i s) * (1 / 2 * th ^ 3 - th ^ 4 + 1 / 2 * th ^ 5).
Proof.
  intros Hi. unfold quinP. rewrite quin_pw by (auto; intros; reflexivity). rewrite !vq_nth. unfold qrow. cbn [nth]. repeat rewrite ?Q2R_plus, ?Q2R_mult, ?Q2R_dq.
  set (B := Q2R (nth i b 0%Q)). set (B' := Q2R (nth i bp 0%Q)). set (D := dq (i =? 0)%nat). set (D' := dq (i =? s)%nat).
  unfold Q2R. cbn [Qnum Qden Nat.add]. field.
Qed.
Lemma quinPp_w s b bp th i : (i <= s)%nat -> pw QN 1 (qcols (quinPp s b bp)) (quinPp s b bp) th i =
  vq b i * (30 * th ^ 2 - 60 * th ^ 3 + 30 * th ^ 4) + vq bp i * (- 12 * th ^ 2 + 28 * th ^ 3 - 15 * th ^ 4) +
  dq (Nat.eqb i 0) * (th - 9 / 2 * th ^ 2 + 6 * th ^ 3 - 5 / 2 * th ^ 4) + dq (Nat.eqb i s) * (3 / 2 * th ^ 2 - 4 * th ^ 3 + 5 / 2 * th ^ 4).
Proof.
  intros Hi. unfold quinPp. rewrite quin_pw by (auto; intros; reflexivity). rewrite !vq_nth. unfold qrow. cbn [nth]. repeat rewrite ?Q2R_plus, ?Q2R_mult, ?Q2R_dq.
  set (B := Q2R (nth i b 0%Q)). set (B' := Q2R (nth i bp 0%Q)). set (D := dq (i =? 0)%nat). set (D' := dq (i =? s)%nat).
  unfold Q2R. cbn [Qnum Qden Nat.add]. field.
Qed.
Lemma rsum_pick' n k g : (k < n)%nat -> rsum n (fun i => dq (Nat.eqb i k) * g i) = g k.
Proof.
  intros Hk. rewrite <- (rsum_pick n k g Hk). apply rsum_ext. intros i _. unfold dq. destruct (Nat.eqb i k); ring.
Qed.
Lemma lcomb_quin s (w b bp : nat -> R) (k : nat -> R) x1 x2 x3 x4 : (0 < s)%nat -> (forall i, (i <= s)%nat -> w i = b i * x1 + bp i * x2 + dq (Nat.eqb i 0) * x3 + dq (Nat.eqb i s) * x4) ->
  rsum (S s) (fun i => w i * k i) = x1 * rsum (S s) (fun i => b i * k i) + x2 * rsum (S s) (fun i => bp i * k i) + x3 * k 0%nat + x4 * k s.
Proof.
  intros Hs Hw. rewrite (rsum_ext (S s) (fun i => w i * k i) (fun i => x1 * (b i * k i) + x2 * (bp i * k i) + dq (Nat.eqb i 0) * (x3 * k i) + dq (Nat.eqb i s) * (x4 * k i))) by (intros i Hi; rewrite Hw by lia; ring).
  rewrite !rsum_plus, !rsum_scal. rewrite (rsum_pick' (S s) 0 (fun i => x3 * k i)), (rsum_pick' (S s) s (fun i => x4 * k i)) by lia. reflexivity.
Qed.

Section Quin.
Variables (s : nat) (A Ap : list (list Q)) (b bp c e ep : list Q) (n : nat).
Hypothesis (LA : length A = s) (LAp : length Ap = s) (LB : length b = s) (LBp : length bp = s) (LC : length c = s) (C0 : nth 0 c 0%Q = 0%Q) (Hs : (0 < s)%nat).
Notation RS n G t y h := (nstages n G (mq (extA A b [])) (mq (extA Ap bp [])) (vq (extC c [])) t y h (S s)).

Lemma quintic_value G g m cf v v' t0 y0 t1 th : lifts2 n G g -> length y0 = (n + n)%nat -> uses_tabn m (mk_tabn s A Ap b bp c e ep) n -> made_step m cf v v' -> fn cf = g ->
  t (st v) = Fin t0 -> y (st v) = map Fin y0 -> t (st v') = Fin t1 -> t1 <> t0 ->
  exists D s' r, dense_output (dense_quintic n) cf v' = DenseOk D s' /\ call D (Fin (t0 + th * (t1 - t0))) = map Fin r /\ length r = (n + n)%nat /\
  forall q, (q < n)%nat ->
    nth q r 0 = nth q y0 0 + (th * (t1 - t0) * nth (n + q) y0 0 + (t1 - t0) * ((t1 - t0) * lcomb (S s) (pw QN 2 (qcols (quinP s b bp)) (quinP s b bp) th) (RS n G t0 y0 (t1 - t0)) q)) /\
    nth (n + q) r 0 = nth (n + q) y0 0 + (t1 - t0) * lcomb (S s) (pw QN 1 (qcols (quinPp s b bp)) (quinPp s b bp) th) (RS n G t0 y0 (t1 - t0)) q.
Proof.
  intros HL Hy HU HM Hg E0 Ey E1 Hne.
  assert (Hd : (0 < n + n)%nat) by (apply (y0_pos y0 _ Hy); rewrite <- Ey; apply (made_step_ne m cf v v' HM)).
  destruct (made_step_real_n n G g s A Ap b bp c e ep m cf v v' t0 y0 t1 HL Hy LA LAp LC C0 HU HM Hg E0 Ey E1) as (ks & SF & EY & EK).
  rewrite (dense_enter _ cf v v' _ ks t0 t1 SF E0 E1 Hne) by (rewrite EY, map_length, npoint_length; lia).
  unfold dense_quintic. rewrite (sf_yold _ _ _ _ _ SF), (sf_fold _ _ _ _ _ SF).
  match type of EY with _ = map Fin ?z => set (yn := z) in * end.
  assert (Ln : length yn = (n + n)%nat) by apply npoint_length.
  destruct (HL t0 y0 Hy) as (L0 & G0). destruct (HL t1 yn Ln) as (L1 & G1).
  rewrite (sf_f0 _ _ _ _ _ SF), (sf_f _ _ _ _ _ SF), E0, E1, Ey, EY, Hg, G0, G1.
  set (h := t1 - t0) in *.
  destruct (call_quintic n t0 t1 _ _ _ _ _ _ _ _ (t0 + th * h) Hne (reals_intro _ y0 Hy) (reals_intro _ yn Ln) (reals_intro n (G t0 y0) L0) (reals_intro n (G t1 yn) L1)) as (r & Er & Lr & Nr).
  eexists. eexists. exists r. split; [reflexivity|]. split; [exact Er|]. split; [exact Lr|]. intros q Hq. rewrite (Nr q), (Nr (n + q)%nat) by lia.
  destruct (Nat.ltb_spec q n) as [_|]; [|lia]. destruct (Nat.ltb_spec (n + q) n) as [|_]; [lia|]. replace (n + q - n)%nat with q by lia.
  fold h. assert (Hh : h <> 0) by (unfold h; lra).
  set (rs := RS n G t0 y0 h) in *.
  set (k := fun i => nth q (nth i rs []) 0).
  assert (EXA := ext_all_n n G g A Ap b bp c t0 y0 h s HL LA LAp LC Hy).
  pose (rs0 := nstages n G (mq A) (mq Ap) (vq c) t0 y0 h s). fold rs0 in yn, EXA.
  fold rs in EXA.
  assert (Lr0 : length rs0 = s) by apply nstages_length.
  assert (Ers : rs = rs0 ++ [G t1 yn]) by (replace t1 with (t0 + h) by (unfold h; ring); exact EXA). clearbody rs.
  assert (K0 : k 0%nat = nth q (G t0 y0) 0).
  { unfold k. rewrite Ers. rewrite app_nth1 by lia. unfold rs0. rewrite nstages_nth by exact Hs. do 2 f_equal.
    - rewrite vq_nth, C0. unfold Q2R. simpl. field.
    - apply nth_eq_list; [rewrite npoint_length; lia|]. intros l Hl. rewrite npoint_length in Hl. destruct (Nat.lt_ge_cases l n) as [Hn|Hn].
      + rewrite npoint_x by exact Hn. rewrite vq_nth, C0. unfold lcomb, Q2R. simpl. field.
      + replace l with (n + (l - n))%nat by lia. rewrite npoint_v by lia. unfold lcomb. simpl. ring. }
  assert (Ks : k s = nth q (G t1 yn) 0).
  { unfold k. rewrite Ers. rewrite app_nth2 by lia. rewrite Lr0, Nat.sub_diag. reflexivity. }
  assert (HBB : forall w : list Q, length w = s -> lcomb s (vq w) rs0 q = rsum (S s) (fun i => vq w i * k i)).
  { intros w Lw. cbn [rsum]. rewrite (vq_overflow w s) by lia. rewrite Rmult_0_l, Rplus_0_r. unfold lcomb. apply rsum_ext. intros i Hi. unfold k. rewrite Ers, app_nth1 by lia. reflexivity. }
  assert (Hb := HBB b LB). assert (Hbp := HBB bp LBp).
  assert (X1 : nth q yn 0 = nth q y0 0 + (h * h * rsum (S s) (fun i => vq b i * k i) + h * nth (n + q) y0 0)).
  { unfold yn. rewrite npoint_x by exact Hq. rewrite Hb. ring. }
  assert (V1 : nth (n + q) yn 0 = nth (n + q) y0 0 + h * rsum (S s) (fun i => vq bp i * k i)).
  { unfold yn. rewrite npoint_v by exact Hq. rewrite Hbp. ring. }
  pose proof (lcomb_quin s (pw QN 2 (qcols (quinP s b bp)) (quinP s b bp) th) (vq b) (vq bp) k _ _ _ _ Hs (fun i Hi => quinP_w s b bp th i Hi)) as W1.
  pose proof (lcomb_quin s (pw QN 1 (qcols (quinPp s b bp)) (quinPp s b bp) th) (vq b) (vq bp) k _ _ _ _ Hs (fun i Hi => quinPp_w s b bp th i Hi)) as W2.
  unfold lcomb. unfold k in W1, W2. rewrite W1, W2. fold k. change (nth q (nth 0 rs []) 0) with (k 0%nat). change (nth q (nth s rs []) 0) with (k s).
  rewrite <- K0, <- Ks, X1, V1. unfold quin_x, quin_v. replace ((t0 + th * h - t0) / h) with th by (field; exact Hh).
  unfold k. set (S1 := rsum (S s) _). set (S2 := rsum (S s) _).
  split; field; exact Hh.
Qed.
End Quin.

Theorem quintic_accurate s A Ap b bp c e ep p n : (0 < s)%nat -> interpn_ok true s A Ap b bp c [] [] [] (quinP s b bp) (quinPp s b bp) p = true ->
  dense_accurate_n true (mk_tabn s A Ap b bp c e ep) (dense_quintic n) n p.
Proof.
  intros Hs HOK G t0 y0 Y g HL Hy Hvf HF HY.
  destruct (interpn_real _ _ _ _ _ _ _ _ _ _ _ _ _ HOK n G t0 y0 Y Hy Hvf HF HY) as (C & del & Hdel & H).
  exists C, del. split; auto. intros m cf v v' t1 th HU HM Hg E0 Ey E1 Hne Hh Hth.
  destruct (interpn_spec _ _ _ _ _ _ _ _ _ _ _ _ _ HOK) as (LA & LAp & LB & LBp & LC & Lx & LXp & C0 & Hq & Hqp & Hp & Hl1 & Hl2 & _ & _).
  destruct (quintic_value s A Ap b bp c e ep n LA LAp LB LBp LC C0 Hs G g m cf v v' t0 y0 t1 th HL Hy HU HM Hg E0 Ey E1 Hne) as (D & s' & r & ED & EC & Lr & EV).
  exists D, s', r. split; [exact ED|]. split; [exact EC|]. split; [exact Lr|].
  replace (S s + length (@nil (list Q)))%nat with (S s) in H by (simpl; lia).
  intros q Hqn. destruct (Nat.lt_ge_cases q n) as [Hn|Hn].
  - rewrite (proj1 (EV q Hn)). exact (proj1 (H th _ Hth Hh q Hn)).
  - replace q with (n + (q - n))%nat by lia. rewrite (proj2 (EV (q - n)%nat ltac:(lia))). exact (proj2 (H th _ Hth Hh (q - n)%nat ltac:(lia))).
Qed.
Theorem quintic_near bits s A Ap b bp c e ep p eps n : (0 < s)%nat -> interpn_near_ok bits s A Ap b bp c [] [] [] (quinP s b bp) (quinPp s b bp) p eps = true ->
  dense_nearly_accurate_n (mk_tabn s A Ap b bp c e ep) (dense_quintic n) n p eps.
Proof.
  intros Hs HOK G t0 y0 Y g Ty HL Hy HT HY.
  destruct (interpn_near_real _ _ _ _ _ _ _ _ _ _ _ _ _ _ HOK n G t0 y0 Y Ty Hy HT HY) as (C & del & Hdel & H).
  exists C, del. split; auto. intros m cf v v' t1 th HU HM Hg E0 Ey E1 Hne Hh Hth.
  destruct (interpn_near_spec _ _ _ _ _ _ _ _ _ _ _ _ _ _ HOK) as (LA & LAp & LB & LBp & LC & Lx & LXp & C0 & Hq & Hqp & Hp & Hl1 & Hl2 & _ & _).
  destruct (quintic_value s A Ap b bp c e ep n LA LAp LB LBp LC C0 Hs G g m cf v v' t0 y0 t1 th HL Hy HU HM Hg E0 Ey E1 Hne) as (D & s' & r & ED & EC & Lr & EV).
  exists D, s', r. split; [exact ED|]. split; [exact EC|]. split; [exact Lr|].
  replace (S s + length (@nil (list Q)))%nat with (S s) in H by (simpl; lia).
  intros q Hqn. rewrite (proj1 (EV q Hqn)), (proj2 (EV q Hqn)). exact (H th _ Hth Hh q Hqn).
Qed.
