(** Accuracy of one step of explicit solvers whose coefficients are rounded decimals: the order
    conditions hold up to a small residual, and so does the error expansion. *)
From Coq Require Import Reals Lra QArith Qreals Lia List Arith Bool FunctionalExtensionality.
From Verif Require Import Arith Common RK RX SpecRK Classes Series Trees OrderThm OrderCheck OrderRK OrderRKN OrderModel OrderPair OrderPairN GOrder Balls BallTab.
Import ListNotations.
Open Scope R_scope.

(** ** specification *)
(** the sum of the absolute elementary differentials of order n + 1 of component q: depends on F only *)
Definition diffs1 (y0 : list R) (T : nat -> list nat -> R) (n q : nat) : R :=
  mass false true (S (length y0)) T ell1 pu1 (pv1 y0) n q.
Definition diffs2 (n0 : nat) (y0 : list R) (T : nat -> list nat -> R) (n q : nat) : R :=
  mass true true (S (n0 + n0)) T (ell2 n0 y0) (pu2 n0) (pv2 n0) n q.

(** one step of tableau T from (t0, y0) is within eps (|h| D_0 + ... + |h|^p D_(p-1)) + C |h|^(p+1)
    of the solution and its error estimate within epse (|h| D_0 + ...) + C |h|^(pe+1) of 0;
    D_n are sums of absolute elementary differentials of F *)
Definition rk_nearly_accurate (T : Tab RX) (d p : nat) (eps : Q) (pe : nat) (epse : Q) : Prop :=
  forall F t0 y0 Y g Ty, lifts d F g -> length y0 = d -> taylor_at (S d) d (fo F d) (pt t0 y0) Ty p -> solves F t0 y0 Y ->
  exists C del, 0 < del /\ forall h ks t' y', Rabs h < del ->
    textbook_rk T d g (Fin t0) (map Fin y0) (Fin h) ks t' y' ->
    exists yr er, t' = Fin (t0 + h) /\ y' = map Fin yr /\ tab_error T d g (Fin h) ks t' y' = map Fin er /\
      length yr = d /\ length er = d /\
      forall q, (q < d)%nat ->
        Rabs (nth q yr 0 - nth q (Y (t0 + h)) 0) <= Q2R eps * rsum p (fun n => diffs1 y0 Ty n q * Rabs h ^ S n) + C * Rabs h ^ S p /\
        Rabs (nth q er 0) <= Q2R epse * rsum pe (fun n => diffs1 y0 Ty n q * Rabs h ^ S n) + C * Rabs h ^ S pe.

(** ** proofs *)
Lemma uniform_near {X : Type} (hh : X -> R) d n (bnd : nat -> X -> R) (g : nat -> X -> R) :
  (forall q, (q < d)%nat -> exists C del, 0 < del /\ forall h, Rabs (hh h) < del -> Rabs (g q h) <= bnd q h + C * Rabs (hh h) ^ n) ->
  exists C del, 0 < del /\ forall h, Rabs (hh h) < del -> forall q, (q < d)%nat -> Rabs (g q h) <= bnd q h + C * Rabs (hh h) ^ n.
Proof.
  induction d as [|d IH]; intros H; [exists 0, 1; split; [lra|intros; lia]|].
  destruct IH as (C1 & d1 & Hd1 & H1); [intros; apply H; lia|].
  destruct (H d ltac:(lia)) as (C2 & d2 & Hd2 & H2).
  exists (Rmax C1 C2), (Rmin d1 d2). split; [apply Rmin_case; auto|]. intros h Hh q Hq.
  assert (A1 : Rabs (hh h) < d1) by (eapply Rlt_le_trans; [exact Hh|apply Rmin_l]).
  assert (A2 : Rabs (hh h) < d2) by (eapply Rlt_le_trans; [exact Hh|apply Rmin_r]).
  assert (P : 0 <= Rabs (hh h) ^ n) by (apply pow_le, Rabs_pos).
  destruct (Nat.eq_dec q d) as [->|Hne].
  - eapply Rle_trans; [apply (H2 h A2)|]. apply Rplus_le_compat_l, Rmult_le_compat_r; auto. apply Rmax_r.
  - eapply Rle_trans; [apply (H1 h A1); lia|]. apply Rplus_le_compat_l, Rmult_le_compat_r; auto. apply Rmax_l.
Qed.

Section First.
Variables (F : R -> list R -> list R) (t0 : R) (y0 : list R).
Notation d := (length y0).
Variables (p : nat) (T : nat -> list nat -> R).
Hypothesis HT : taylor_at (S d) d (fo F d) (pt t0 y0) T p.
Variable Y : R -> list R.
Hypothesis HY : solves F t0 y0 Y.
Variables (s : nat) (A : nat -> nat -> R) (c : nat -> R).
Hypothesis HA : forall i l, (i <= l)%nat -> A i l = 0.
Let HF : smooth_at p F t0 y0 := ex_intro _ T HT.

Lemma rk_near_V eps b m q : (q < d)%nat -> (m <= p)%nat -> near_V false true s (fun _ _ => 0) A c eps b m ->
  exists C del, 0 < del /\ forall h, Rabs h < del ->
    Rabs (nth q y0 0 + h * lcomb s b (rstages F A c t0 y0 h s) q - nth q (Y (t0 + h)) 0) <= eps * rsum m (fun n => diffs1 y0 T n q * Rabs h ^ S n) + C * Rabs h ^ S m.
Proof.
  intros Hq Hm HO.
  destruct (g_order_V R (fun h => h) false true (S d) d p T ell1 pu1 (pv1 y0) (pu1_lt y0) (pv1_lt y0) (fo F d) (pt t0 y0) HT s (fun _ _ => 0) A c eps
    (kk F t0 y0 s A c) (HB1 F t0 y0 p HF s A c HA) (Hk1 F t0 y0 s A c HA)
    (K1 F t0 Y) (YV1 t0 Y) (fun _ _ => 0) (HYV1 F t0 y0 Y HY) ltac:(discriminate) (HKb1 F t0 y0 p HF Y HY) (HK1 F t0 y0 Y HY) b m q Hq Hm HO) as (C & del & Hd & H).
  exists C, del. split; [exact Hd|]. intros h Hh. specialize (H h Hh). unfold YV1 in H. destruct HY as (HY0 & _). replace (t0 + 0) with t0 in H by ring. rewrite HY0 in H.
  replace (nth q y0 0 + h * lcomb s b (rstages F A c t0 y0 h s) q - nth q (Y (t0 + h)) 0) with (h * rsum s (fun i => b i * kk F t0 y0 s A c i h q) - (nth q (Y (t0 + h)) 0 - nth q y0 0)) by (unfold lcomb, kk; ring). exact H.
Qed.
Lemma rk_near_Z eps b m q : (q < d)%nat -> (m <= p)%nat -> near_Z false true s (fun _ _ => 0) A c eps b m ->
  exists C del, 0 < del /\ forall h, Rabs h < del ->
    Rabs (h * lcomb s b (rstages F A c t0 y0 h s) q) <= eps * rsum m (fun n => diffs1 y0 T n q * Rabs h ^ S n) + C * Rabs h ^ S m.
Proof.
  intros Hq Hm HO.
  exact (g_order_Z R (fun h => h) false true (S d) d p T ell1 pu1 (pv1 y0) (pu1_lt y0) (pv1_lt y0) (fo F d) (pt t0 y0) HT s (fun _ _ => 0) A c eps
    (kk F t0 y0 s A c) (HB1 F t0 y0 p HF s A c HA) (Hk1 F t0 y0 s A c HA) b m q Hq Hm HO).
Qed.
End First.

Definition near_ok (bits : Z) (s : nat) (A : list (list Q)) (b c e : list Q) (p : nat) (eps : Q) (pe : nat) (epse : Q) : bool :=
  let A' := extA A b [] in let c' := extC c [] in
  Z.leb 0 bits && Nat.eqb (length A) s && Nat.eqb (length b) s && Nat.eqb (length c) s && Nat.leb (length e) (S s) &&
  lower A' && match nth 0 c 0%Q with (0 # 1)%Q => true | _ => false end && Nat.leb 1 p && Nat.leb pe p &&
  let tb := ball_tab bits false c' [] A' (p - 1) in
  bcheck bits tb eps p (bvec_of bits b) (brhsV bits) && bcheck bits tb epse pe (bvec_of bits e) brhsZ.

Lemma near_ok_spec bits s A b c e p eps pe epse : near_ok bits s A b c e p eps pe epse = true ->
  let A' := extA A b [] in let c' := extC c [] in
  length A = s /\ length b = s /\ length c = s /\ (length e <= S s)%nat /\ nth 0 c 0%Q = 0%Q /\ (pe <= p)%nat /\
  (forall i l, (i <= l)%nat -> mq A' i l = 0) /\
  near_V false true (S s) (fun _ _ => 0) (mq A') (vq c') (Q2R eps) (vq b) p /\
  near_Z false true (S s) (fun _ _ => 0) (mq A') (vq c') (Q2R epse) (vq e) pe.
Proof.
  intros H. unfold near_ok in H. cbv zeta in *. repeat rewrite andb_true_iff in H.
  destruct H as (((((((((H0 & HA) & Hb) & Hc) & He) & Hlow) & Hc0) & Hp) & Hpe) & HV & HZ).
  apply Nat.eqb_eq in HA, Hb, Hc. apply Nat.leb_le in He, Hpe, Hp. apply Z.leb_le in H0.
  assert (L1 : length (extC c []) = S s) by (unfold extC; rewrite app_length; simpl; lia).
  assert (L2 : length (extA A b []) = S s) by (unfold extA; rewrite app_length; simpl; lia).
  repeat split; auto.
  - destruct (nth 0 c 0%Q) as [[| |] [| |]]; try discriminate Hc0; reflexivity.
  - apply lower_spec; auto.
  - rewrite <- L1. rewrite <- mR_nil. apply (ball_V_ok bits H0 false (extC c []) [] (extA A b []) ltac:(discriminate) (eq_trans L2 (eq_sym L1)) (p - 1) p eps b ltac:(lia) HV).
  - rewrite <- L1. rewrite <- mR_nil. apply (ball_Z_ok bits H0 false (extC c []) [] (extA A b []) ltac:(discriminate) (eq_trans L2 (eq_sym L1)) (p - 1) pe epse e ltac:(lia) HZ).
Qed.

Theorem near_accurate bits s A b c e p eps pe epse d : near_ok bits s A b c e p eps pe epse = true -> rk_nearly_accurate (mk_tab s A b c e) d p eps pe epse.
Proof.
  intros HP F t0 y0 Y g T HL Hy HT HY. subst d. set (d := length y0) in *.
  destruct (near_ok_spec bits s A b c e p eps pe epse HP) as (LA & LB & LC & LE & C0 & Hpe & Hlow & HV & HZ).
  pose (RS := fun h => rstages F (mq (extA A b [])) (vq (extC c [])) t0 y0 h (S s)).
  destruct (uniform_near (fun h => h) d (S p) (fun q h => Q2R eps * rsum p (fun n => diffs1 y0 T n q * Rabs h ^ S n))
     (fun q h => nth q y0 0 + h * lcomb (S s) (vq b) (RS h) q - nth q (Y (t0 + h)) 0)) as (C1 & d1 & Hd1 & H1).
  { intros q Hq. exact (rk_near_V F t0 y0 p T HT Y HY (S s) _ _ Hlow (Q2R eps) (vq b) p q Hq (le_n p) HV). }
  destruct (uniform_near (fun h => h) d (S pe) (fun q h => Q2R epse * rsum pe (fun n => diffs1 y0 T n q * Rabs h ^ S n))
     (fun q h => h * lcomb (S s) (vq e) (RS h) q)) as (C2 & d2 & Hd2 & H2).
  { intros q Hq. exact (rk_near_Z F t0 y0 p T HT (S s) _ _ Hlow (Q2R epse) (vq e) pe q Hq Hpe HZ). }
  exists (Rmax C1 C2), (Rmin d1 d2). split; [apply Rmin_case; auto|]. intros h ks t' y' Hh HK.
  assert (A1 : Rabs h < d1) by (eapply Rlt_le_trans; [exact Hh|apply Rmin_l]).
  assert (A2 : Rabs h < d2) by (eapply Rlt_le_trans; [exact Hh|apply Rmin_r]).
  destruct (textbook_real d F g s A b c e t0 y0 h ks t' y' HL eq_refl C0 HK) as (-> & -> & ->).
  destruct (tab_error_real d F g s A b c e t0 y0 h HL LA LB LC LE eq_refl) as (er & -> & Le & Ne).
  eexists. exists er. split; [reflexivity|]. split; [reflexivity|]. split; [reflexivity|]. split; [apply rpoint_len|]. split; [exact Le|].
  intros q Hq. assert (P : forall n, 0 <= Rabs h ^ n) by (intros; apply pow_le, Rabs_pos).
  split.
  - rewrite rpoint_nth by auto. specialize (H1 h A1 q Hq).
    rewrite <- (ext_stages F A b c [] [] t0 y0 h s LA LC).
    rewrite (lcomb_ext_zero F (mq (extA A b [])) (vq (extC c [])) t0 y0 h s (S s) (vq b) q) by (try lia; intros; apply vq_overflow; lia).
    eapply Rle_trans; [exact H1|]. apply Rplus_le_compat_l, Rmult_le_compat_r; auto. apply Rmax_l.
  - rewrite Ne by auto. eapply Rle_trans; [apply (H2 h A2 q Hq)|]. apply Rplus_le_compat_l, Rmult_le_compat_r; auto. apply Rmax_r.
Qed.

(** ** Nystrom methods *)
Definition rkn_nearly_accurate (T : TabN RX) (n p : nat) (eps : Q) (pe : nat) (epse : Q) : Prop :=
  forall G t0 y0 Y g Ty, lifts2 n G g -> length y0 = (n + n)%nat -> taylor_at (S (n + n)) n (fo G (n + n)) (pt t0 y0) Ty p -> solves2 n G t0 y0 Y ->
  exists C del, 0 < del /\ forall h ks t' y', Rabs h < del ->
    textbook_rkn T n g (Fin t0) (map Fin y0) (Fin h) ks t' y' ->
    exists yr er, t' = Fin (t0 + h) /\ y' = map Fin yr /\ tabn_error T n g (Fin h) ks t' y' = map Fin er /\
      length yr = (n + n)%nat /\ length er = (n + n)%nat /\
      forall q, (q < n)%nat ->
        Rabs (nth q yr 0 - nth q (Y (t0 + h)) 0) <= Q2R eps * rsum (p - 1) (fun k => diffs2 n y0 Ty k q * Rabs h ^ S (S k)) + C * Rabs h ^ S p /\
        Rabs (nth (n + q) yr 0 - nth (n + q) (Y (t0 + h)) 0) <= Q2R eps * rsum p (fun k => diffs2 n y0 Ty k q * Rabs h ^ S k) + C * Rabs h ^ S p /\
        Rabs (nth q er 0) <= Q2R epse * rsum (pe - 1) (fun k => diffs2 n y0 Ty k q * Rabs h ^ S (S k)) + C * Rabs h ^ S pe /\
        Rabs (nth (n + q) er 0) <= Q2R epse * rsum pe (fun k => diffs2 n y0 Ty k q * Rabs h ^ S k) + C * Rabs h ^ S pe.

Section Second.
Variables (n : nat) (G : R -> list R -> list R) (t0 : R) (y0 : list R).
Hypothesis Hy0 : length y0 = (n + n)%nat.
Variables (p : nat) (T : nat -> list nat -> R).
Hypothesis HT : taylor_at (S (n + n)) n (fo G (n + n)) (pt t0 y0) T p.
Variable Y : R -> list R.
Hypothesis HY : solves2 n G t0 y0 Y.
Variables (s : nat) (A Ap : nat -> nat -> R) (c : nat -> R).
Hypothesis HA : forall i l, (i <= l)%nat -> A i l = 0.
Hypothesis HAp : forall i l, (i <= l)%nat -> Ap i l = 0.
Let HG : smooth_at2 n p G t0 y0 := ex_intro _ T HT.
Let Hvf : true = false -> velocity_free n G. Proof. discriminate. Qed.
Notation NS h := (nstages n G A Ap c t0 y0 h s).

Lemma rkn_near_V eps b m q : (q < n)%nat -> (m <= p)%nat -> near_V true true s A Ap c eps b m ->
  exists C del, 0 < del /\ forall h, Rabs h < del ->
    Rabs (nth (n + q) y0 0 + h * lcomb s b (NS h) q - nth (n + q) (Y (t0 + h)) 0) <= eps * rsum m (fun k => diffs2 n y0 T k q * Rabs h ^ S k) + C * Rabs h ^ S m.
Proof.
  intros Hq Hm HO.
  destruct (g_order_V R (fun h => h) true true (S (n + n)) n p T (ell2 n y0) (pu2 n) (pv2 n) (pu2_lt n) (pv2_lt n y0 Hy0) (fo G (n + n)) (pt t0 y0) HT s A Ap c eps
    (kn n G t0 y0 s A Ap c) (HB2 true n G t0 y0 Hy0 p HG Hvf s A Ap c HA HAp) (Hk2 true n G t0 y0 Hy0 Hvf s A Ap c HA HAp)
    (K2 G t0 Y) (YV2 n t0 Y) (YU2 n t0 y0 Y) (HYV2 n G t0 y0 Y HY) (fun _ => HYU2 n G t0 y0 Y HY) (HKb2 true n G t0 y0 Hy0 p HG Hvf Y HY) (HK2 true n G t0 y0 Hy0 Hvf Y HY) b m q Hq Hm HO) as (C & del & Hd & H).
  exists C, del. split; [exact Hd|]. intros h Hh. specialize (H h Hh). rewrite (YV2_0 n G t0 y0 Y HY) in H. unfold YV2 in H.
  replace (nth (n + q) y0 0 + h * lcomb s b (NS h) q - nth (n + q) (Y (t0 + h)) 0) with (h * rsum s (fun i => b i * kn n G t0 y0 s A Ap c i h q) - (nth (n + q) (Y (t0 + h)) 0 - nth (n + q) y0 0)) by (unfold lcomb, kn; ring). exact H.
Qed.
Lemma rkn_near_U eps b m q : (q < n)%nat -> (m <= p)%nat -> near_U true true s A Ap c eps b m ->
  exists C del, 0 < del /\ forall h, Rabs h < del ->
    Rabs (nth q y0 0 + (h * h * lcomb s b (NS h) q + 1 * h * nth (n + q) y0 0) - nth q (Y (t0 + h)) 0) <= eps * rsum m (fun k => diffs2 n y0 T k q * Rabs h ^ S (S k)) + C * Rabs h ^ S (S m).
Proof.
  intros Hq Hm HO.
  destruct (g_order_U R (fun h => h) true true (S (n + n)) n p T (ell2 n y0) (pu2 n) (pv2 n) (pu2_lt n) (pv2_lt n y0 Hy0) (fo G (n + n)) (pt t0 y0) HT s A Ap c eps
    (kn n G t0 y0 s A Ap c) (HB2 true n G t0 y0 Hy0 p HG Hvf s A Ap c HA HAp) (Hk2 true n G t0 y0 Hy0 Hvf s A Ap c HA HAp)
    (K2 G t0 Y) (YV2 n t0 Y) (YU2 n t0 y0 Y) (HYV2 n G t0 y0 Y HY) (fun _ => HYU2 n G t0 y0 Y HY) (HKb2 true n G t0 y0 Hy0 p HG Hvf Y HY) (HK2 true n G t0 y0 Hy0 Hvf Y HY) b m q eq_refl Hq Hm HO) as (C & del & Hd & H).
  exists C, del. split; [exact Hd|]. intros h Hh. specialize (H h Hh). unfold YU2 in H. replace (t0 + 0) with t0 in H by ring. destruct HY as (HY0 & _). rewrite HY0 in H.
  replace (nth q y0 0 + (h * h * lcomb s b (NS h) q + 1 * h * nth (n + q) y0 0) - nth q (Y (t0 + h)) 0)
    with (h * (h * rsum s (fun i => b i * kn n G t0 y0 s A Ap c i h q)) - (nth q (Y (t0 + h)) 0 - h * nth (n + q) y0 0 - (nth q y0 0 - 0 * nth (n + q) y0 0))) by (unfold lcomb, kn; ring). exact H.
Qed.
Lemma rkn_near_Z eps b m q : (q < n)%nat -> (m <= p)%nat -> near_Z true true s A Ap c eps b m ->
  exists C del, 0 < del /\ forall h, Rabs h < del ->
    Rabs (h * lcomb s b (NS h) q) <= eps * rsum m (fun k => diffs2 n y0 T k q * Rabs h ^ S k) + C * Rabs h ^ S m.
Proof.
  intros Hq Hm HO.
  exact (g_order_Z R (fun h => h) true true (S (n + n)) n p T (ell2 n y0) (pu2 n) (pv2 n) (pu2_lt n) (pv2_lt n y0 Hy0) (fo G (n + n)) (pt t0 y0) HT s A Ap c eps
    (kn n G t0 y0 s A Ap c) (HB2 true n G t0 y0 Hy0 p HG Hvf s A Ap c HA HAp) (Hk2 true n G t0 y0 Hy0 Hvf s A Ap c HA HAp) b m q Hq Hm HO).
Qed.
End Second.

Definition nearn_ok (bits : Z) (s : nat) (A Ap : list (list Q)) (b bp c e ep : list Q) (p : nat) (eps : Q) (pe : nat) (epse : Q) : bool :=
  let A' := extA A b [] in let Ap' := extA Ap bp [] in let c' := extC c [] in
  Z.leb 0 bits && Nat.eqb (length A) s && Nat.eqb (length Ap) s && Nat.eqb (length b) s && Nat.eqb (length bp) s && Nat.eqb (length c) s &&
  Nat.leb (length e) (S s) && Nat.eqb (length ep) (S s) &&
  lower A' && lower Ap' && match nth 0 c 0%Q with (0 # 1)%Q => true | _ => false end && Nat.leb pe p && Nat.leb 1 pe &&
  let tb := ball_tab bits true c' A' Ap' (p - 1) in
  bcheck bits tb eps (p - 1) (bvec_of bits b) (brhsU bits) && bcheck bits tb eps p (bvec_of bits bp) (brhsV bits) &&
  bcheck bits tb epse (pe - 1) (bvec_of bits e) brhsZ && bcheck bits tb epse pe (bvec_of bits ep) brhsZ.

Lemma nearn_ok_spec bits s A Ap b bp c e ep p eps pe epse : nearn_ok bits s A Ap b bp c e ep p eps pe epse = true ->
  let A' := extA A b [] in let Ap' := extA Ap bp [] in let c' := extC c [] in
  length A = s /\ length Ap = s /\ length b = s /\ length bp = s /\ length c = s /\ (length e <= S s)%nat /\ length ep = S s /\
  nth 0 c 0%Q = 0%Q /\ (1 <= pe <= p)%nat /\
  (forall i l, (i <= l)%nat -> mq A' i l = 0) /\ (forall i l, (i <= l)%nat -> mq Ap' i l = 0) /\
  near_U true true (S s) (mq A') (mq Ap') (vq c') (Q2R eps) (vq b) (p - 1) /\
  near_V true true (S s) (mq A') (mq Ap') (vq c') (Q2R eps) (vq bp) p /\
  near_Z true true (S s) (mq A') (mq Ap') (vq c') (Q2R epse) (vq e) (pe - 1) /\
  near_Z true true (S s) (mq A') (mq Ap') (vq c') (Q2R epse) (vq ep) pe.
Proof.
  intros H. unfold nearn_ok in H. cbv zeta in *. repeat rewrite andb_true_iff in H.
  destruct H as (((((((((((((H0 & HA) & HAp) & Hb) & Hbp) & Hc) & He) & Hep) & Hlow) & Hlow2) & Hc0) & Hpe) & Hpe1) & (((HU & HV) & HZ) & HZ2)).
  apply Nat.eqb_eq in HA, HAp, Hb, Hbp, Hc, Hep. apply Nat.leb_le in He, Hpe, Hpe1. apply Z.leb_le in H0.
  assert (L1 : length (extC c []) = S s) by (unfold extC; rewrite app_length; simpl; lia).
  assert (L2 : length (extA A b []) = S s) by (unfold extA; rewrite app_length; simpl; lia).
  assert (L3 : length (extA Ap bp []) = S s) by (unfold extA; rewrite app_length; simpl; lia).
  pose (K2 := fun (_ : true = true) => eq_trans L2 (eq_sym L1)). pose (K3 := eq_trans L3 (eq_sym L1)).
  assert (R1 := ball_U_ok bits H0 true (extC c []) (extA A b []) (extA Ap bp []) K2 K3 (p - 1) (p - 1) eps b ltac:(lia) HU).
  assert (R2 := ball_V_ok bits H0 true (extC c []) (extA A b []) (extA Ap bp []) K2 K3 (p - 1) p eps bp ltac:(lia) HV).
  assert (R3 := ball_Z_ok bits H0 true (extC c []) (extA A b []) (extA Ap bp []) K2 K3 (p - 1) (pe - 1) epse e ltac:(lia) HZ).
  assert (R4 := ball_Z_ok bits H0 true (extC c []) (extA A b []) (extA Ap bp []) K2 K3 (p - 1) pe epse ep ltac:(lia) HZ2).
  rewrite L1 in *.
  split; [auto|]. split; [auto|]. split; [auto|]. split; [auto|]. split; [auto|]. split; [auto|]. split; [auto|].
  split; [destruct (nth 0 c 0%Q) as [[| |] [| |]]; try discriminate Hc0; reflexivity|]. split; [lia|].
  split; [apply lower_spec; auto|]. split; [apply lower_spec; auto|]. auto.
Qed.

Theorem nearn_accurate bits s A Ap b bp c e ep p eps pe epse n : nearn_ok bits s A Ap b bp c e ep p eps pe epse = true ->
  rkn_nearly_accurate (mk_tabn s A Ap b bp c e ep) n p eps pe epse.
Proof.
  intros HP G t0 y0 Y g T HL Hy HT HY.
  destruct (nearn_ok_spec bits s A Ap b bp c e ep p eps pe epse HP) as (LA & LAp & LB & LBp & LC & LE & LEp & C0 & Hpe & Hl1 & Hl2 & HU & HV & HZ & HZp).
  pose (RX_ := fun h => nstages n G (mq (extA A b [])) (mq (extA Ap bp [])) (vq (extC c [])) t0 y0 h (S s)).
  destruct (uniform_near (fun h => h) n (S p) (fun q h => Q2R eps * rsum (p - 1) (fun k => diffs2 n y0 T k q * Rabs h ^ S (S k)))
    (fun q h => nth q y0 0 + (h * h * lcomb (S s) (vq b) (RX_ h) q + 1 * h * nth (n + q) y0 0) - nth q (Y (t0 + h)) 0)) as (C1 & d1 & Hd1 & H1).
  { intros q Hq. replace (S p) with (S (S (p - 1))) by lia.
    exact (rkn_near_U n G t0 y0 Hy p T HT Y HY (S s) _ _ _ Hl1 Hl2 (Q2R eps) (vq b) (p - 1) q Hq ltac:(lia) HU). }
  destruct (uniform_near (fun h => h) n (S p) (fun q h => Q2R eps * rsum p (fun k => diffs2 n y0 T k q * Rabs h ^ S k))
    (fun q h => nth (n + q) y0 0 + h * lcomb (S s) (vq bp) (RX_ h) q - nth (n + q) (Y (t0 + h)) 0)) as (C2 & d2 & Hd2 & H2).
  { intros q Hq. exact (rkn_near_V n G t0 y0 Hy p T HT Y HY (S s) _ _ _ Hl1 Hl2 (Q2R eps) (vq bp) p q Hq (le_n p) HV). }
  destruct (uniform_near (fun h => h) n (S pe) (fun q h => Q2R epse * rsum (pe - 1) (fun k => diffs2 n y0 T k q * Rabs h ^ S (S k)))
    (fun q h => h * h * lcomb (S s) (vq e) (RX_ h) q)) as (C3 & d3 & Hd3 & H3).
  { intros q Hq. destruct (rkn_near_Z n G t0 y0 Hy p T HT (S s) _ _ _ Hl1 Hl2 (Q2R epse) (vq e) (pe - 1) q Hq ltac:(lia) HZ) as (C & del & Hd & H).
    exists C, del. split; [exact Hd|]. intros h Hh. specialize (H h Hh). rewrite Rmult_assoc, Rabs_mult.
    replace (Q2R epse * rsum (pe - 1) (fun k => diffs2 n y0 T k q * Rabs h ^ S (S k)) + C * Rabs h ^ S pe)
      with (Rabs h * (Q2R epse * rsum (pe - 1) (fun k => diffs2 n y0 T k q * Rabs h ^ S k) + C * Rabs h ^ S (pe - 1))).
    - apply Rmult_le_compat_l; [apply Rabs_pos|exact H].
    - rewrite (rsum_ext (pe - 1) (fun k => diffs2 n y0 T k q * Rabs h ^ S (S k)) (fun k => Rabs h * (diffs2 n y0 T k q * Rabs h ^ S k))) by (intros; rewrite <- (tech_pow_Rmult (Rabs h) (S k)); ring).
      rewrite rsum_scal. replace (S (pe - 1)) with pe by lia. rewrite <- (tech_pow_Rmult (Rabs h) pe). ring. }
  destruct (uniform_near (fun h => h) n (S pe) (fun q h => Q2R epse * rsum pe (fun k => diffs2 n y0 T k q * Rabs h ^ S k))
    (fun q h => h * lcomb (S s) (vq ep) (RX_ h) q)) as (C4 & d4 & Hd4 & H4).
  { intros q Hq. exact (rkn_near_Z n G t0 y0 Hy p T HT (S s) _ _ _ Hl1 Hl2 (Q2R epse) (vq ep) pe q Hq ltac:(lia) HZp). }
  exists (Rmax (Rmax C1 C2) (Rmax C3 C4)), (Rmin (Rmin d1 d2) (Rmin d3 d4)).
  split; [repeat apply Rmin_case; auto|]. intros h ks t' y' Hh HK.
  apply Rmin_Rgt_l in Hh. destruct Hh as [Ha Hb2]. apply Rmin_Rgt_l in Ha, Hb2. destruct Ha as [A1 A2]. destruct Hb2 as [A3 A4].
  assert (M1 : C1 <= Rmax (Rmax C1 C2) (Rmax C3 C4)) by (eapply Rle_trans; [|apply Rmax_l]; apply Rmax_l).
  assert (M2 : C2 <= Rmax (Rmax C1 C2) (Rmax C3 C4)) by (eapply Rle_trans; [|apply Rmax_l]; apply Rmax_r).
  assert (M3 : C3 <= Rmax (Rmax C1 C2) (Rmax C3 C4)) by (eapply Rle_trans; [|apply Rmax_r]; apply Rmax_l).
  assert (M4 : C4 <= Rmax (Rmax C1 C2) (Rmax C3 C4)) by (eapply Rle_trans; [|apply Rmax_r]; apply Rmax_r).
  assert (P : forall n, 0 <= Rabs h ^ n) by (intros; apply pow_le, Rabs_pos).
  destruct (textbook_real_n n G g s A Ap b bp c e ep t0 y0 h ks t' y' HL Hy C0 HK) as (-> & -> & ->).
  destruct (tabn_error_real n G g s A Ap b bp c e ep t0 y0 h HL LA LAp LC LE LEp Hy) as (er & -> & Le & Ne).
  eexists. exists er. split; [reflexivity|]. split; [reflexivity|]. split; [reflexivity|]. split; [apply npoint_length|]. split; [exact Le|].
  assert (EX : forall w q, (forall l, (s <= l)%nat -> w l = 0) ->
     lcomb s w (nstages n G (mq A) (mq Ap) (vq c) t0 y0 h s) q = lcomb (S s) w (RX_ h) q).
  { intros w q Hw. unfold RX_. rewrite (ext_all_n n G g A Ap b bp c t0 y0 h s HL LA LAp LC Hy). unfold lcomb. cbn [rsum].
    rewrite (Hw s) by lia. rewrite Rmult_0_l, Rplus_0_r. apply rsum_ext. intros l Hl. rewrite app_nth1; auto. rewrite nstages_length. auto. }
  intros q Hq. destruct (Ne q Hq) as [E1 E2]. rewrite npoint_x, npoint_v by auto. rewrite !EX by (intros; apply vq_overflow; lia). fold (RX_ h) in E1, E2. rewrite E1, E2.
  split; [|split; [|split]].
  - eapply Rle_trans; [exact (H1 h A1 q Hq)|]. apply Rplus_le_compat_l, Rmult_le_compat_r; auto.
  - eapply Rle_trans; [exact (H2 h A2 q Hq)|]. apply Rplus_le_compat_l, Rmult_le_compat_r; auto.
  - eapply Rle_trans; [exact (H3 h A3 q Hq)|]. apply Rplus_le_compat_l, Rmult_le_compat_r; auto.
  - eapply Rle_trans; [exact (H4 h A4 q Hq)|]. apply Rplus_le_compat_l, Rmult_le_compat_r; auto.
Qed.
