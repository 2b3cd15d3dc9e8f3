(** the six implicit classes as real tableaux *)
From Coq Require Import String Reals Lra QArith Qreals Bool Lia List Arith.
From Verif Require Import Arith Common Stiff RK HStart RKInit RX Tableaux Classes Dense Ode RKReal RKInitReal Series OrderCheck OrderRK OrderModel RKSpecProofs
  ESDIRK ESDCls ESDGen ESDReal ESDInv ESDTop ESDLin ESDLin2.
Import ListNotations.
Close Scope string_scope. Open Scope nat_scope. Open Scope R_scope.

Definition q2v (p : Q * Q) : R := Q2R (fst p) + Q2R (snd p) * sqrt 2.
Lemma l2_RX p : @l2 RX p = Fin (q2v p).
Proof.
  unfold l2, q2v, lit. cbn [nsqrt nadd nmul nofQ RX]. unfold xsqrt. destruct (Rlt_dec (Q2R 2) 0) as [H|H].
  - exfalso. unfold Q2R in H. cbn in H. lra.
  - cbn [xmul xadd]. f_equal. f_equal. f_equal. f_equal. unfold Q2R. cbn. lra.
Qed.
Definition up (q : Q) : Q * Q := (q, 0%Q).
Lemma lit_RX q : @lit RX q = Fin (q2v (up q)).
Proof. unfold lit, q2v, up. cbn [nofQ RX fst snd]. f_equal. unfold Q2R at 3. cbn. lra. Qed.
Lemma lv2_RX l : @lv2 RX l = map Fin (map q2v l).
Proof. unfold lv2. rewrite map_map. apply map_ext. exact l2_RX. Qed.
Lemma lm2_RX l : @lm2 RX l = map (map Fin) (map (map q2v) l).
Proof. unfold lm2. rewrite map_map. apply map_ext. exact lv2_RX. Qed.
Lemma lv_up l : @lv RX l = map Fin (map q2v (map up l)).
Proof. unfold lv. rewrite !map_map. apply map_ext. exact lit_RX. Qed.
Lemma lm_up l : @lm RX l = map (map Fin) (map (map q2v) (map (map up) l)).
Proof. unfold lm. rewrite !map_map. apply map_ext. intros r. rewrite lv_up. reflexivity. Qed.

(** a class is given by its tables over Q(sqrt 2) *)
Record qtab := { qs : nat; qA : list (list (Q * Q)); qC : list (Q * Q); qB : list (Q * Q); qE : list (Q * Q); qAz : list (list (Q * Q)); qd : Q * Q }.
Definition of_qtab (m : EMeth RX) (T : qtab) : Prop :=
  em_stages m = qs T /\ em_A m = map (map Fin) (map (map q2v) (qA T)) /\ em_C m = map Fin (map q2v (qC T)) /\ em_B m = map Fin (map q2v (qB T)) /\
  em_E m = map Fin (map q2v (qE T)) /\ em_Az m = map (map Fin) (map (map q2v) (qAz T)) /\ em_d m = Fin (q2v (qd T)).

Definition p0 : Q * Q := (0, 0)%Q.
Definition peq (a b : Q * Q) : bool := Qeq_bool (fst a) (fst b) && Qeq_bool (snd a) (snd b).
Lemma peq_val a b : peq a b = true -> q2v a = q2v b.
Proof. unfold peq. rewrite andb_true_iff. intros [H1 H2]. apply Qeq_bool_iff, Qeq_eqR in H1, H2. unfold q2v. congruence. Qed.
Definition qent (T : qtab) (i l : nat) : Q * Q := nth l (nth i (qA T) []) p0.
Definition qtab_ok (T : qtab) : bool :=
  Nat.eqb (length (qA T)) (qs T) && forallb (fun r => Nat.eqb (length r) (qs T)) (qA T) &&
  forallb (fun i => peq (qent T i i) (qd T)) (seq 1 (qs T - 1)) &&
  forallb (fun i => forallb (fun l => peq (qent T i l) p0) (seq (S i) (qs T))) (seq 0 (qs T)) &&
  peq (qent T 0 0) p0 && peq (nth 0 (qC T) p0) p0 &&
  forallb (fun l => peq (qent T (qs T - 1) l) (nth l (qB T) p0)) (seq 0 (qs T)) && Nat.eqb (length (qB T)) (qs T) && Nat.eqb (length (qC T)) (qs T) &&
  Nat.leb 2 (qs T) && peq (nth (qs T - 1) (qC T) p0) (1, 0)%Q.

Lemma q2v_0 : q2v p0 = 0.
Proof. unfold q2v, p0. cbn [fst snd]. rewrite Q2R_0'. ring. Qed.
Lemma allfin_Fin l : @allfin (map Fin l).
Proof. apply Forall_forall. intros x Hx. apply in_map_iff in Hx. destruct Hx as (r & <- & _). exists r. reflexivity. Qed.
Lemma nthv (l : list (Q * Q)) i : xval (nth i (map Fin (map q2v l)) (Fin 0)) = q2v (nth i l p0).
Proof. rewrite (map_nth Fin). cbn [xval]. rewrite <- q2v_0. apply map_nth. Qed.
Lemma rA_q m T i l : of_qtab m T -> rA m i l = q2v (qent T i l).
Proof.
  intros (_ & E & _). unfold rA, qent. change (num RX) with xr in *. rewrite E.
  rewrite (map_nth (map Fin) _ [] i : nth i (map (map Fin) (map (map q2v) (qA T))) [] = _). rewrite (map_nth (map q2v) (qA T) [] i : nth i _ [] = _). apply nthv.
Qed.
Lemma rB_q m T l : of_qtab m T -> rB m l = q2v (nth l (qB T) p0).
Proof. intros (_ & _ & _ & E & _). unfold rB. change (num RX) with xr in *. rewrite E. apply nthv. Qed.
Lemma rC_q m T l : of_qtab m T -> rC m l = q2v (nth l (qC T) p0).
Proof. intros (_ & _ & E & _). unfold rC. change (num RX) with xr in *. rewrite E. apply nthv. Qed.
Lemma rE_q m T l : of_qtab m T -> rE m l = q2v (nth l (qE T) p0).
Proof. intros (_ & _ & _ & _ & E & _). unfold rE. change (num RX) with xr in *. rewrite E. apply nthv. Qed.
Lemma rd_q m T : of_qtab m T -> rd m = q2v (qd T).
Proof. intros (_ & _ & _ & _ & _ & _ & E). unfold rd. change (num RX) with xr in *. rewrite E. reflexivity. Qed.
Lemma map_lens {X Y} (f : X -> Y) : map (map f) = fun l : list (list X) => map (map f) l. Proof. reflexivity. Qed.
Lemma qtab_real m T : of_qtab m T -> qtab_ok T = true -> real_tab m.
Proof.
  intros HT H. pose proof HT as (E1 & E2 & E3 & E4 & E5 & E6 & E7). unfold qtab_ok in H. repeat rewrite andb_true_iff in H.
  destruct H as ((((((((((H1 & H2) & H3) & H4) & H5) & H6) & H7) & H8) & H9) & H10) & H11).
  apply Nat.eqb_eq in H1, H8, H9. apply Nat.leb_le in H10. rewrite forallb_forall in H2, H3, H4, H7.
  constructor.
  - change (num RX) with xr in *. rewrite E2. apply Forall_forall. intros r Hr. apply in_map_iff in Hr. destruct Hr as (x & <- & _). apply allfin_Fin.
  - change (num RX) with xr in *. rewrite E3. apply allfin_Fin.
  - change (num RX) with xr in *. rewrite E6. apply Forall_forall. intros r Hr. apply in_map_iff in Hr. destruct Hr as (x & <- & _). apply allfin_Fin.
  - change (num RX) with xr in *. rewrite E5. apply allfin_Fin.
  - unfold rd. change (num RX) with xr in *. rewrite E7. reflexivity.
  - change (num RX) with xr in *. rewrite E2, !map_length, E1. exact H1.
  - change (num RX) with xr in *. rewrite E2, E1. apply Forall_forall. intros r Hr. apply in_map_iff in Hr. destruct Hr as (x & <- & Hx). apply in_map_iff in Hx. destruct Hx as (x0 & <- & Hx).
    rewrite !map_length. apply Nat.eqb_eq, H2, Hx.
  - intros i Hi. rewrite E1 in Hi. rewrite (rA_q m T), (rd_q m T) by exact HT. apply peq_val, H3, in_seq. lia.
  - intros i l Hl. rewrite (rA_q m T) by exact HT. destruct (lt_dec i (qs T)) as [Hi|Hi].
    + destruct (lt_dec l (qs T)) as [Hl2|Hl2].
      * rewrite <- q2v_0. apply peq_val. specialize (H4 i). rewrite in_seq in H4. specialize (H4 ltac:(lia)). rewrite forallb_forall in H4. apply H4, in_seq. lia.
      * unfold qent. rewrite (nth_overflow (nth i (qA T) [])); [apply q2v_0|]. rewrite (proj1 (Nat.eqb_eq _ _) (H2 _ (nth_In (qA T) [] (ltac:(lia) : (i < length (qA T))%nat)))). lia.
    + unfold qent. rewrite (nth_overflow (qA T)) by lia. destruct l; apply q2v_0.
  - rewrite (rA_q m T) by exact HT. rewrite <- q2v_0. apply peq_val. exact H5.
  - rewrite (rC_q m T) by exact HT. rewrite <- q2v_0. apply peq_val. exact H6.
  - rewrite E1, (rC_q m T) by exact HT. rewrite (peq_val _ _ H11). unfold q2v. cbn [fst snd]. rewrite Q2R_0', Q2R_1'. ring.
  - intros l. rewrite E1, (rA_q m T), (rB_q m T) by exact HT. destruct (lt_dec l (qs T)) as [Hl|Hl].
    + apply peq_val, H7, in_seq. lia.
    + rewrite (nth_overflow (qB T)) by lia. unfold qent. rewrite (nth_overflow (nth (qs T - 1) (qA T) [])); [reflexivity|].
      rewrite (proj1 (Nat.eqb_eq _ _) (H2 _ (nth_In (qA T) [] (ltac:(lia) : (qs T - 1 < length (qA T))%nat)))). lia.
Qed.

Definition TRBDF2_q := {| qs := 3; qA := TRBDF2_A; qC := TRBDF2_C; qB := TRBDF2_B; qE := TRBDF2_E; qAz := TRBDF2_Az; qd := TRBDF2_d |}.
Definition KC3I_q := {| qs := KC3I_n_stages; qA := KC3I_A; qC := KC3I_C; qB := KC3I_B; qE := KC3I_E; qAz := KC3I_Az; qd := KC3I_d |}.
Definition KC4I_q := {| qs := KC4I_n_stages; qA := KC4I_A; qC := KC4I_C; qB := KC4I_B; qE := KC4I_E; qAz := KC4I_Az; qd := KC4I_d |}.
Definition upt s A C B E Az d := {| qs := s; qA := map (map up) A; qC := map up C; qB := map up B; qE := map up E; qAz := map (map up) Az; qd := up d |}.
Definition TRX2_q := upt 3 TRX2_A TRX2_C TRX2_B TRX2_E TRX2_Az TRX2_d.
Definition KC4Ia_q := upt KC4Ia_n_stages KC4Ia_A KC4Ia_C KC4Ia_B KC4Ia_E KC4Ia_Az KC4Ia_d.
Definition Kv3I_q := upt Kv3I_n_stages Kv3I_A Kv3I_C Kv3I_B Kv3I_E Kv3I_Az Kv3I_d.
Ltac of2 := split; [reflexivity|]; split; [apply lm2_RX|]; do 3 (split; [apply lv2_RX|]); split; [apply lm2_RX|apply l2_RX].
Ltac of1 := split; [reflexivity|]; split; [apply lm_up|]; do 3 (split; [apply lv_up|]); split; [apply lm_up|apply lit_RX].
Lemma of_TRBDF2 : of_qtab TRBDF2_m TRBDF2_q. Proof. of2. Qed.
Lemma of_KC3I : of_qtab KC3I_m KC3I_q. Proof. of2. Qed.
Lemma of_KC4I : of_qtab KC4I_m KC4I_q. Proof. of2. Qed.
Lemma of_TRX2 : of_qtab TRX2_m TRX2_q. Proof. of1. Qed.
Lemma of_KC4Ia : of_qtab KC4Ia_m KC4Ia_q. Proof. of1. Qed.
Lemma of_Kv3I : of_qtab Kv3I_m Kv3I_q. Proof. of1. Qed.

Lemma esd_all_real m : In m (@esd_all RX) -> real_tab m.
Proof.
  intros [<-|[<-|[<-|[<-|[<-|[<-|[]]]]]]]; [apply (qtab_real _ _ of_TRBDF2)|apply (qtab_real _ _ of_TRX2)|apply (qtab_real _ _ of_KC3I)|apply (qtab_real _ _ of_KC4I)|apply (qtab_real _ _ of_KC4Ia)|apply (qtab_real _ _ of_Kv3I)]; vm_compute; reflexivity.
Qed.
