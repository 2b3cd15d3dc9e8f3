(** Accuracy of polynomial interpolants of implicit Runge-Kutta methods between the ends of a step. *)
From Coq Require Import String Reals Lra Psatz QArith Qreals Bool Lia List Arith FunctionalExtensionality.
From Verif Require Import Arith Common Stiff RK HStart RKInit RX Tableaux Classes Series Trees OrderThm OrderCheck OrderRK OrderModel GOrder GDense Balls BallTab OrderIRK GDenseCheck
  ESDIRK ESDCls ESDReal ESDLin ESDLin2 ESDLin3 Prop_ESDLin OrderIRKTab ESDDense.
Import ListNotations.
Close Scope string_scope. Open Scope nat_scope. Open Scope R_scope.

Section IRKD.
Variable F : R -> list R -> list R.
Variable t0 : R.
Variable y0 : list R.
Notation d := (length y0).
Variable p : nat.
Variable T : nat -> list nat -> R.
Hypothesis HT : taylor_at (S d) d (fo F d) (pt t0 y0) T p.
Variable Y : R -> list R.
Hypothesis HY : solves F t0 y0 Y.
Variable s : nat.
Variable A : nat -> nat -> R.
Variable c : nat -> R.
Lemma irk_D B eps (b : R -> nat -> R) m q : (q < d)%nat -> (m <= p)%nat -> wbounded s b -> dense_V false true s (fun _ _ => 0) A c eps b m ->
  exists C del, 0 < del /\ forall (x : Sol F t0 y0 s A c B) th, Rabs (sh F t0 y0 s A c B x) < del -> 0 <= th <= 1 ->
    Rabs (nth q y0 0 + sh F t0 y0 s A c B x * rsum s (fun i => b th i * sk F t0 y0 s A c B i x q) - nth q (Y (t0 + th * sh F t0 y0 s A c B x)) 0)
      <= eps * rsum m (fun n => mass false true (S d) T ell1 pu1 (pv1 y0) n q * Rabs (sh F t0 y0 s A c B x) ^ S n) + C * Rabs (sh F t0 y0 s A c B x) ^ S m.
Proof.
  intros Hq Hm HW HO. assert (HF : smooth_at p F t0 y0) by (exists T; exact HT).
  destruct (g_dense_V (Sol F t0 y0 s A c B) (sh F t0 y0 s A c B) false true (S d) d p T ell1 pu1 (pv1 y0) (pu1_lt y0) (pv1_lt y0) (fo F d) (pt t0 y0) HT s (fun _ _ => 0) A c eps
    (sk F t0 y0 s A c B) (sk_bounded F t0 y0 s A c B) (sk_eq F t0 y0 s A c B)
    (K1 F t0 Y) (YV1 t0 Y) (fun _ _ => 0) (HYV1 F t0 y0 Y HY) ltac:(discriminate) (HKb1 F t0 y0 p HF Y HY) (HK1 F t0 y0 Y HY) b m q Hq Hm HW HO) as (C & del & Hd & H).
  exists C, del. split; [exact Hd|]. intros x th Hx Hth. specialize (H x th Hx Hth). unfold YV1 in H. destruct HY as (HY0 & _). replace (t0 + 0) with t0 in H by ring. rewrite HY0 in H.
  eapply Rle_trans; [|exact H]. right. f_equal. ring.
Qed.
Theorem irk_dense eps (b : R -> nat -> R) m : (m <= p)%nat -> wbounded s b -> dense_V false true s (fun _ _ => 0) A c eps b m ->
  exists rho C del, 0 < rho /\ 0 < del /\ forall h ks th, Rabs h < del -> stage_solution F s A c t0 y0 h ks -> slopes_within s d h rho ks -> 0 <= th <= 1 ->
    forall q, (q < d)%nat ->
    Rabs (nth q y0 0 + h * lcomb s (b th) ks q - nth q (Y (t0 + th * h)) 0) <= eps * rsum m (fun n => mass false true (S d) T ell1 pu1 (pv1 y0) n q * Rabs h ^ S n) + C * Rabs h ^ S m.
Proof.
  intros Hm HW HO. destruct (slopes_bounded F t0 y0 p T HT s A c) as (rho & B & dB & Hr & HdB & HB).
  assert (G : forall n, (n <= d)%nat -> exists C del, 0 < del /\ forall (x : Sol F t0 y0 s A c B) th, Rabs (sh F t0 y0 s A c B x) < del -> 0 <= th <= 1 -> forall q, (q < n)%nat ->
    Rabs (nth q y0 0 + sh F t0 y0 s A c B x * rsum s (fun i => b th i * sk F t0 y0 s A c B i x q) - nth q (Y (t0 + th * sh F t0 y0 s A c B x)) 0)
      <= eps * rsum m (fun n => mass false true (S d) T ell1 pu1 (pv1 y0) n q * Rabs (sh F t0 y0 s A c B x) ^ S n) + C * Rabs (sh F t0 y0 s A c B x) ^ S m).
  { induction n as [|n IH]; intros Hn; [exists 0, 1; split; [lra|]; intros; lia|].
    destruct IH as (C0 & d0 & Hd0 & H0); [lia|]. destruct (irk_D B eps b m n ltac:(lia) Hm HW HO) as (C1 & d1 & Hd1 & H1).
    exists (Rabs C0 + Rabs C1), (Rmin d0 d1). split; [repeat apply Rmin_case; assumption|]. intros x th Hx Hth q Hq.
    assert (A0 : Rabs (sh F t0 y0 s A c B x) < d0) by (eapply Rlt_le_trans; [exact Hx|apply Rmin_l]).
    assert (A1 : Rabs (sh F t0 y0 s A c B x) < d1) by (eapply Rlt_le_trans; [exact Hx|apply Rmin_r]).
    assert (P : forall C r, Rabs C <= Rabs C0 + Rabs C1 -> C * Rabs (sh F t0 y0 s A c B x) ^ r <= (Rabs C0 + Rabs C1) * Rabs (sh F t0 y0 s A c B x) ^ r).
    { intros C r HC. apply Rmult_le_compat_r; [apply pow_le, Rabs_pos|]. pose proof (Rle_abs C). lra. }
    pose proof (Rabs_pos C0). pose proof (Rabs_pos C1).
    destruct (Nat.eq_dec q n) as [->|Hne].
    - eapply Rle_trans; [apply H1; assumption|]. apply Rplus_le_compat_l; apply P; lra.
    - eapply Rle_trans; [apply (H0 x th A0 Hth q); lia|]. apply Rplus_le_compat_l; apply P; lra. }
  destruct (G d (le_n _)) as (C & del & Hd & H). exists rho, C, (Rmin del dB). split; [exact Hr|]. split; [apply Rmin_case; assumption|].
  intros h ks th Hh HS HW' Hth q Hq.
  assert (A0 : Rabs h < del) by (eapply Rlt_le_trans; [exact Hh|apply Rmin_l]). assert (A1 : Rabs h < dB) by (eapply Rlt_le_trans; [exact Hh|apply Rmin_r]).
  exact (H (exist _ (h, ks) (conj HS (HB h ks A1 HS HW'))) th A0 Hth q Hq).
Qed.
End IRKD.

(** ** the interpolants of the classes, by computation *)
Definition qd_ok (T : qtab) (P : list (list (Q * Q))) (m : nat) (eps : Q) : bool :=
  let tb := snd (tables Q2N false true (qC T) [] (qA T) (m - 1)) in
  Nat.eqb (length (qC T)) (qs T) && Nat.eqb (length (qA T)) (qs T) && Nat.leb 1 m &&
  ncheckP Q2N ((-1, 0)%Q : Q2N) q2small tb eps m (pcols P) (P : list (list Q2N)) (rhsV Q2N).
Lemma pe_mR P : pe P = mR Q2N (P : list (list Q2N)).
Proof. extensionality i. extensionality j. reflexivity. Qed.
Lemma pwt_wV P : pwt P = wV (mR Q2N (P : list (list Q2N))) (pcols P).
Proof. extensionality th. extensionality i. unfold pwt, wV. rewrite pe_mR. reflexivity. Qed.
Lemma qd_dense m T P k eps : of_qtab m T -> qd_ok T P k eps = true ->
  wbounded (em_stages m) (pwt P) /\ dense_V false true (em_stages m) (fun _ _ => 0) (rA m) (rC m) (INR (pcols P) * Q2R eps) (pwt P) k.
Proof.
  intros HT H. unfold qd_ok in H. cbv zeta in H. rewrite !andb_true_iff in H. destruct H as (((H1 & H2) & H3) & H4).
  apply Nat.eqb_eq in H1, H2. apply Nat.leb_le in H3.
  assert (EA : rA m = mR Q2N (qA T)) by (extensionality i; extensionality l; rewrite (rA_q m T i l HT); reflexivity).
  assert (EC : rC m = vR Q2N (qC T)) by (extensionality l; rewrite (rC_q m T l HT); reflexivity).
  rewrite EA, EC, (proj1 HT), <- H1, pwt_wV. split; [apply wV_bounded|].
  destruct (ncheckP_V Q2N _ q2m1_ok q2small q2small_ok false true (qC T) [] (qA T) ltac:(discriminate) (fun _ => eq_trans H2 (eq_sym H1)) (k - 1) eps k (pcols P) P ltac:(lia) H4) as (X1 & X2 & X3).
  rewrite mR2_nil in X3. apply cols_dense_V; assumption.
Qed.
(** tables of rational numbers, by ball arithmetic *)
Definition qdr_ok (bits : Z) (s : nat) (A : list (list Q)) (C : list Q) (P : list (list Q)) (m cols : nat) (eps : Q) : bool :=
  let tb := ball_tab bits false C [] A (m - 1) in
  Z.leb 0 bits && Nat.eqb (length C) s && Nat.eqb (length A) s && Nat.leb 1 m && Nat.eqb (pcols (map (map up) P)) cols &&
  bcheckP bits tb eps m cols P (brhsV bits).
Lemma qdr_dense bits m s A C B E Az dd P k cols eps : of_qtab m (upt s A C B E Az dd) -> qdr_ok bits s A C P k cols eps = true ->
  wbounded (em_stages m) (pwt (map (map up) P)) /\ dense_V false true (em_stages m) (fun _ _ => 0) (rA m) (rC m) (INR cols * Q2R eps) (pwt (map (map up) P)) k.
Proof.
  intros HT H. unfold qdr_ok in H. cbv zeta in H. rewrite !andb_true_iff in H. destruct H as (((((H0 & H1) & H2) & H3) & H5) & H4).
  apply Z.leb_le in H0. apply Nat.eqb_eq in H1, H2, H5. apply Nat.leb_le in H3.
  assert (EA : rA m = mR QN A).
  { extensionality i; extensionality l. rewrite (rA_q _ _ i l HT). unfold qent, upt. cbn [qA]. change (@nil (Q * Q)) with (map up []). rewrite (map_nth (map up)). apply nth_up. }
  assert (EC : rC m = vR QN C) by (extensionality l; rewrite (rC_q _ _ l HT); apply nth_up).
  assert (EP : pwt (map (map up) P) = wV (mR QN P) cols).
  { extensionality th. extensionality i. unfold pwt, wV. rewrite H5. apply rsum_ext. intros j _. f_equal. unfold pe. change (@nil (Q * Q)) with (map up []). rewrite (map_nth (map up)). apply nth_up. }
  rewrite EA, EC, EP, (proj1 HT). cbn [qs upt]. rewrite <- H1. split; [apply wV_bounded|].
  destruct (bcheckP_V bits H0 false C [] A ltac:(discriminate) (eq_trans H2 (eq_sym H1)) (k - 1) eps k cols P ltac:(lia) H4) as (X1 & X2 & X3).
  rewrite <- mR_nil. apply cols_dense_V; assumption.
Qed.
