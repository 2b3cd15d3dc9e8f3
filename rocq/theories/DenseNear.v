(** Accuracy of the dense outputs of explicit solvers whose coefficients are rounded decimals. *)
From Coq Require Import String Reals Lra QArith Qreals Lia List Arith Bool FunctionalExtensionality.
From Verif Require Import Arith Common RK RKGen RKHist RX SpecRK RKSpecProofs RKTop Classes Tableaux Series Trees OrderThm OrderCheck OrderRK OrderRKN OrderModel GOrder GDense Balls BallTab NearPair OrderPair OrderPairN GDenseCheck Dense DenseReal DenseStep DenseAcc.
Import ListNotations.
Close Scope string_scope.
Open Scope nat_scope.
Open Scope R_scope.

(** [impl] gives, after every successful step of the method with tableau T, a dense output whose
    value at every fraction theta of the step is within eps (|h| D_0 + ... + |h|^p D_(p-1)) +
    C |h|^(p+1) of the solution; D_n are sums of absolute elementary differentials of F *)
Definition dense_nearly_accurate (T : Tab RX) (impl : dimpl RX) (d p : nat) (eps : Q) : Prop :=
  forall F t0 y0 Y g Ty, lifts d F g -> length y0 = d -> taylor_at (S d) d (fo F d) (pt t0 y0) Ty p -> solves F t0 y0 Y ->
  exists C del, 0 < del /\ forall m c v v' t1 th, uses_tab m T d -> made_step m c v v' -> fn c = g ->
    t (st v) = Fin t0 -> y (st v) = map Fin y0 -> t (st v') = Fin t1 -> t1 <> t0 -> Rabs (t1 - t0) < del -> 0 <= th <= 1 ->
    exists D s' r, dense_output impl c v' = DenseOk D s' /\
      call D (Fin (t0 + th * (t1 - t0))) = map Fin r /\ length r = d /\
      forall q, (q < d)%nat -> Rabs (nth q r 0 - nth q (Y (t0 + th * (t1 - t0))) 0) <=
        Q2R eps * rsum p (fun n => diffs1 y0 Ty n q * Rabs (t1 - t0) ^ S n) + C * Rabs (t1 - t0) ^ S p.

Section First.
Variables (F : R -> list R -> list R) (t0 : R) (y0 : list R).
Notation d := (length y0).
Variables (p : nat) (T : nat -> list nat -> R).
Hypothesis HT : taylor_at (S d) d (fo F d) (pt t0 y0) T p.
Variable Y : R -> list R.
Hypothesis HY : solves F t0 y0 Y.
Variables (s : nat) (A : nat -> nat -> R) (c : nat -> R).
Hypothesis HA : forall i l, (i <= l)%nat -> A i l = 0.
Let HF : smooth_at p F t0 y0 := ex_intro _ T HT.
Lemma rk_near_D eps (b : R -> nat -> R) m q : (q < d)%nat -> (m <= p)%nat -> wbounded s b -> dense_V false true s (fun _ _ => 0) A c eps b m ->
  exists C del, 0 < del /\ forall x : R * {th | 0 <= th <= 1}, Rabs (fst x) < del ->
    Rabs (nth q y0 0 + fst x * lcomb s (b (proj1_sig (snd x))) (rstages F A c t0 y0 (fst x) s) q - nth q (Y (t0 + proj1_sig (snd x) * fst x)) 0)
      <= eps * rsum m (fun n => diffs1 y0 T n q * Rabs (fst x) ^ S n) + C * Rabs (fst x) ^ S m.
Proof.
  intros Hq Hm HW HO.
  destruct (g_dense_V R (fun h => h) false true (S d) d p T ell1 pu1 (pv1 y0) (pu1_lt y0) (pv1_lt y0) (fo F d) (pt t0 y0) HT s (fun _ _ => 0) A c eps
    (kk F t0 y0 s A c) (HB1 F t0 y0 p HF s A c HA) (Hk1 F t0 y0 s A c HA)
    (K1 F t0 Y) (YV1 t0 Y) (fun _ _ => 0) (HYV1 F t0 y0 Y HY) ltac:(discriminate) (HKb1 F t0 y0 p HF Y HY) (HK1 F t0 y0 Y HY) b m q Hq Hm HW HO) as (C & del & Hd & H).
  exists C, del. split; [exact Hd|]. intros (h & th & Hth) Hh. cbn [fst snd proj1_sig] in *. specialize (H h th Hh Hth). unfold YV1 in H. destruct HY as (HY0 & _). replace (t0 + 0) with t0 in H by ring. rewrite HY0 in H.
  eapply Rle_trans; [|exact H]. right. f_equal. unfold lcomb, kk. ring.
Qed.
End First.

Definition interp_near_ok (bits : Z) (s : nat) (A : list (list Q)) (b c : list Q) (P : list (list Q)) (p : nat) (e : Q) : bool :=
  Z.leb 0 bits && ext_ok s A b c [] [] && Nat.leb 1 (qcols P) && Nat.leb 1 p &&
  bcheckP bits (ball_tab bits false (extC c []) [] (extA A b []) (p - 1)) (e / inject_Z (Z.of_nat (qcols P))) p (qcols P) P (brhsV bits).

Lemma pw_wV P cols th i : pw QN 1 cols P th i = wV (mR QN P) cols th i.
Proof. unfold pw, wV. apply rsum_ext. intros j _. rewrite Nat.add_1_r. reflexivity. Qed.

Theorem dense_rk_near bits s A b c e P p eps d : interp_near_ok bits s A b c P p eps = true ->
  dense_nearly_accurate (mk_tab s A b c e) (dense_rk d (lm P)) d p eps.
Proof.
  intros HOK F t0 y0 Y g Ty HL Hy HT HY.
  unfold interp_near_ok in HOK. rewrite !andb_true_iff in HOK. destruct HOK as ((((H0 & He) & Hc) & Hp) & HB). apply Nat.leb_le in Hc, Hp. apply Z.leb_le in H0.
  destruct (ext_ok_spec s A b c [] [] He) as (LA & LB & LC & _ & C0 & Hlow & L1 & L2).
  assert (L3 : (S s + length (@nil (list Q)) = S s)%nat) by (simpl; lia). rewrite L3 in L1, L2.
  destruct (bcheckP_V bits H0 false (extC c []) [] (extA A b []) ltac:(discriminate) (eq_trans L2 (eq_sym L1)) (p - 1) _ p (qcols P) P ltac:(lia) HB) as (Hm & Hpos & HN).
  assert (HV := cols_dense_V _ _ _ _ _ _ _ _ _ _ Hpos Hm HN).
  assert (Ee : INR (qcols P) * Q2R (eps / inject_Z (Z.of_nat (qcols P))) = Q2R eps).
  { assert (Hne : ~ (inject_Z (Z.of_nat (qcols P)) == 0)%Q) by (intros E; unfold Qeq in E; simpl in E; lia).
    rewrite Q2R_div by exact Hne. replace (Q2R (inject_Z (Z.of_nat (qcols P)))) with (INR (qcols P)).
    - field. apply not_0_INR. lia.
    - rewrite INR_IZR_INZ. unfold Q2R. simpl. field. }
  rewrite Ee, L1 in HV. 
  assert (HV' : dense_V false true (S s) (fun _ _ => 0) (mq (extA A b [])) (vq (extC c [])) (Q2R eps) (wV (mR QN P) (qcols P)) p) by (rewrite <- mR_nil; exact HV).
  destruct (uniform_near (fun x : R * {th | 0 <= th <= 1} => fst x) d (S p) (fun q x => Q2R eps * rsum p (fun n => diffs1 y0 Ty n q * Rabs (fst x) ^ S n))
     (fun q x => nth q y0 0 + fst x * lcomb (S s) (wV (mR QN P) (qcols P) (proj1_sig (snd x))) (rstages F (mq (extA A b [])) (vq (extC c [])) t0 y0 (fst x) (S s)) q - nth q (Y (t0 + proj1_sig (snd x) * fst x)) 0)) as (C & del & Hdel & H).
  { intros q Hq. subst d. exact (rk_near_D F t0 y0 p Ty HT Y HY (S s) _ _ Hlow (Q2R eps) _ p q Hq (le_n p) (wV_bounded _ _ _) HV'). }
  exists C, del. split; auto. intros m cf v v' t1 th HU HM Hg E0 Ey E1 Hne Hh Hth.
  assert (Hd : (0 < d)%nat) by (apply (y0_pos y0 d Hy); rewrite <- Ey; apply (made_step_ne m cf v v' HM)).
  destruct (made_step_real d F g s A b c e m cf v v' t0 y0 t1 HL Hy Hd LA LB LC C0 HU HM Hg E0 Ey E1) as (ks & SF & EY & EK).
  rewrite (dense_enter _ cf v v' _ ks t0 t1 SF E0 E1 Hne) by (rewrite EY, map_length, rpoint_len; lia).
  unfold dense_rk. rewrite (sf_yold _ _ _ _ _ SF), E1, EK, Ey.
  set (h := t1 - t0) in *.
  pose proof (call_horner d P t0 h th (map Fin y0) _ _ _ ltac:(unfold h; lra) Hc (reals_intro d y0 Hy)
     (realsK_stages d F g (mq (extA A b [])) (vq (extC c [])) t0 y0 h (S s) HL Hy)) as HR.
  replace (t0 + h) with t1 in HR by (unfold h; ring). destruct HR as (r & Er & Lr & Nr).
  eexists. eexists. exists r. split; [reflexivity|]. split; [exact Er|]. split; [exact Lr|].
  intros q Hq. rewrite Nr by auto. rewrite map_length, rstages_length.
  specialize (H (h, exist _ th Hth) Hh q Hq). cbn [fst snd proj1_sig] in H.
  eapply Rle_trans; [|exact H]. right. f_equal. f_equal. f_equal. f_equal. unfold lcomb. apply rsum_ext. intros i _. rewrite <- pw_wV. reflexivity.
Qed.
