(** Order conditions of the ESDIRK tables, by computation. *)
From Coq Require Import String Reals Lra Psatz QArith Qreals Bool Lia List Arith FunctionalExtensionality.
From Verif Require Import Arith Common Stiff RK HStart RKInit RX Tableaux Classes Ode RKReal RKInitReal Series Trees OrderThm OrderCheck OrderRK OrderModel GOrder Balls BallTab OrderIRK RKSpecProofs
  ESDIRK ESDCls ESDGen ESDReal ESDStep ESDInv ESDTop Prop_ESD ESDLin ESDLin2 ESDLin3 ESDLin4 Prop_ESDLin.
Import ListNotations.
Close Scope string_scope. Open Scope nat_scope. Open Scope R_scope.

(** ** from the tables to the order conditions *)
Definition qo_ok (T : qtab) (p : nat) (eps : Q) (pe : nat) (epse : Q) : bool :=
  let tb := snd (tables Q2N false true (qC T) [] (qA T) p) in
  Nat.eqb (length (qC T)) (qs T) && Nat.eqb (length (qA T)) (qs T) && Nat.leb pe p &&
  ncheck Q2N ((-1, 0)%Q : Q2N) q2small tb eps p (qB T) (rhsV Q2N) && ncheck Q2N ((-1, 0)%Q : Q2N) q2small tb epse pe (qE T) (rhsZ Q2N).
Lemma mR2_nil : mR Q2N [] = fun _ _ => 0.
Proof. extensionality i. extensionality l. unfold mR, vR. destruct i, l; apply (cv0 Q2N). Qed.
Lemma qo_near m T p eps pe epse : of_qtab m T -> qo_ok T p eps pe epse = true ->
  near_V false true (em_stages m) (fun _ _ => 0) (rA m) (rC m) (Q2R eps) (rB m) p /\
  near_Z false true (em_stages m) (fun _ _ => 0) (rA m) (rC m) (Q2R epse) (rE m) pe /\ (pe <= p)%nat.
Proof.
  intros HT H. unfold qo_ok in H. cbv zeta in H. rewrite !andb_true_iff in H. destruct H as ((((H1 & H2) & H3) & H4) & H5).
  apply Nat.eqb_eq in H1, H2. apply Nat.leb_le in H3.
  assert (EA : rA m = mR Q2N (qA T)) by (extensionality i; extensionality l; rewrite (rA_q m T i l HT); reflexivity).
  assert (EB : rB m = vR Q2N (qB T)) by (extensionality l; rewrite (rB_q m T l HT); reflexivity).
  assert (EC : rC m = vR Q2N (qC T)) by (extensionality l; rewrite (rC_q m T l HT); reflexivity).
  assert (EE : rE m = vR Q2N (qE T)) by (extensionality l; rewrite (rE_q m T l HT); reflexivity).
  rewrite EA, EB, EC, EE, (proj1 HT), <- H1. split; [|split; [|exact H3]].
  - pose proof (ncheck_V Q2N _ q2m1_ok q2small q2small_ok false true (qC T) [] (qA T) ltac:(discriminate) (fun _ => eq_trans H2 (eq_sym H1)) p eps p (qB T) ltac:(lia) H4) as X. rewrite mR2_nil in X. exact X.
  - pose proof (ncheck_Z Q2N _ q2m1_ok q2small q2small_ok false true (qC T) [] (qA T) ltac:(discriminate) (fun _ => eq_trans H2 (eq_sym H1)) p epse pe (qE T) ltac:(lia) H5) as X. rewrite mR2_nil in X. exact X.
Qed.
(** tables of rational numbers *)
Definition qr_ok (bits : Z) (s : nat) (A : list (list Q)) (C B E : list Q) (p : nat) (eps : Q) (pe : nat) (epse : Q) : bool :=
  let tb := ball_tab bits false C [] A (p - 1) in
  Z.leb 0 bits && Nat.eqb (length C) s && Nat.eqb (length A) s && Nat.leb pe p && Nat.leb 1 p &&
  bcheck bits tb eps p (bvec_of bits B) (brhsV bits) && bcheck bits tb epse pe (bvec_of bits E) brhsZ.
Lemma q2v_up q : q2v (up q) = Q2R q.
Proof. unfold q2v, up. cbn [fst snd]. rewrite Q2R_0'. ring. Qed.
Lemma nth_up (l : list Q) i : q2v (nth i (map up l) p0) = Q2R (nth i l 0%Q).
Proof. change p0 with (up 0%Q). rewrite map_nth. apply q2v_up. Qed.
Lemma qr_near bits m s A C B E Az dd p eps pe epse : of_qtab m (upt s A C B E Az dd) -> qr_ok bits s A C B E p eps pe epse = true ->
  near_V false true (em_stages m) (fun _ _ => 0) (rA m) (rC m) (Q2R eps) (rB m) p /\
  near_Z false true (em_stages m) (fun _ _ => 0) (rA m) (rC m) (Q2R epse) (rE m) pe /\ (pe <= p)%nat.
Proof.
  intros HT H. unfold qr_ok in H. cbv zeta in H. rewrite !andb_true_iff in H. destruct H as ((((((H0 & H1) & H2) & H3) & H6) & H4) & H5).
  apply Z.leb_le in H0. apply Nat.eqb_eq in H1, H2. apply Nat.leb_le in H3, H6.
  assert (EA : rA m = mR QN A).
  { extensionality i; extensionality l. rewrite (rA_q _ _ i l HT). unfold qent, upt. cbn [qA]. change (@nil (Q * Q)) with (map up []). rewrite (map_nth (map up)). apply nth_up. }
  assert (EB : rB m = vR QN B) by (extensionality l; rewrite (rB_q _ _ l HT); apply nth_up).
  assert (EC : rC m = vR QN C) by (extensionality l; rewrite (rC_q _ _ l HT); apply nth_up).
  assert (EE : rE m = vR QN E) by (extensionality l; rewrite (rE_q _ _ l HT); apply nth_up).
  rewrite EA, EB, EC, EE, (proj1 HT). cbn [qs upt]. rewrite <- H1. split; [|split; [|exact H3]].
  - rewrite <- mR_nil. apply (ball_V_ok bits H0 false C [] A ltac:(discriminate) (eq_trans H2 (eq_sym H1)) (p - 1) p eps B ltac:(lia) H4).
  - rewrite <- mR_nil. apply (ball_Z_ok bits H0 false C [] A ltac:(discriminate) (eq_trans H2 (eq_sym H1)) (p - 1) pe epse E ltac:(lia) H5).
Qed.

(** ** the classes *)
Definition e24 : Q := 1 # 1000000000000000000000000.
Definition e15 : Q := 1 # 1000000000000000.
(** class, order of the step and residual of its conditions, order of the error estimate (the
    difference of the two embedded solutions) and residual *)
Definition implicit_orders : list (EMeth RX * nat * Q * nat * Q) :=
  [(TRBDF2_m, 2%nat, 0%Q, 2%nat, 0%Q); (TRX2_m, 2%nat, 0%Q, 2%nat, 0%Q); (KC3I_m, 3%nat, 0%Q, 2%nat, e15); (KC4I_m, 4%nat, 0%Q, 3%nat, e15);
   (KC4Ia_m, 4%nat, e24, 3%nat, e24); (Kv3I_m, 3%nat, 0%Q, 2%nat, 0%Q)].
Lemma KC4Ia_near : qr_ok 110 KC4Ia_n_stages KC4Ia_A KC4Ia_C KC4Ia_B KC4Ia_E 4 e24 3 e24 = true.
Proof. vm_cast_no_check (eq_refl true). Qed.
Lemma classes_near m p eps pe epse : In (m, p, eps, pe, epse) implicit_orders ->
  near_V false true (em_stages m) (fun _ _ => 0) (rA m) (rC m) (Q2R eps) (rB m) p /\
  near_Z false true (em_stages m) (fun _ _ => 0) (rA m) (rC m) (Q2R epse) (rE m) pe /\ (pe <= p)%nat.
Proof.
  intros H.
  destruct H as [E|H]; [injection E as <- <- <- <- <-; apply (qo_near _ _ _ _ _ _ of_TRBDF2); vm_compute; reflexivity|].
  destruct H as [E|H]; [injection E as <- <- <- <- <-; apply (qo_near _ _ _ _ _ _ of_TRX2); vm_compute; reflexivity|].
  destruct H as [E|H]; [injection E as <- <- <- <- <-; apply (qo_near _ _ _ _ _ _ of_KC3I); vm_compute; reflexivity|].
  destruct H as [E|H]; [injection E as <- <- <- <- <-; apply (qo_near _ _ _ _ _ _ of_KC4I); vm_compute; reflexivity|].
  destruct H as [E|H]; [injection E as <- <- <- <- <-; apply (qr_near 110 _ _ _ _ _ _ _ _ _ _ _ _ of_KC4Ia), KC4Ia_near|].
  destruct H as [E|H]; [injection E as <- <- <- <- <-; apply (qo_near _ _ _ _ _ _ of_Kv3I); vm_compute; reflexivity|]. destruct H.
Qed.
