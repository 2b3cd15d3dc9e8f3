(** From the model's Runge-Kutta step over extended reals (textbook_rk of SpecRK.v)
    to the real stages of OrderRK.v. *)
From Coq Require Import Reals Lra QArith Qreals Lia List Arith Bool FunctionalExtensionality.
From Verif Require Import Arith Common RK RX SpecRK Classes Series Trees OrderThm OrderCheck OrderRK OrderRKN.
Import ListNotations.
Open Scope R_scope.

(** the user's function [g] computes the real function F on d components *)
Definition lifts (d : nat) (F : R -> list R -> list R) (g : num RX -> list (num RX) -> list (num RX)) : Prop :=
  forall t y, length y = d -> length (F t y) = d /\ g (Fin t) (map Fin y) = map Fin (F t y).

Definition vq : list Q -> nat -> R := vR QN.
Definition mq : list (list Q) -> nat -> nat -> R := mR QN.
Lemma vq_nth l i : vq l i = Q2R (nth i l 0%Q).
Proof. reflexivity. Qed.
Lemma lv_fin l : @lv RX l = map Fin (map Q2R l).
Proof. unfold lv. rewrite map_map. reflexivity. Qed.
Lemma nth_Q2R l i : nth i (map Q2R l) 0 = vq l i.
Proof. rewrite vq_nth. rewrite <- Q2R_0' at 1. apply map_nth. Qed.

Lemma map2_fin (op : num RX -> num RX -> num RX) (ro : R -> R -> R) : (forall a b, op (Fin a) (Fin b) = Fin (ro a b)) ->
  forall u v, length u = length v -> exists r, map2 op (map Fin u) (map Fin v) = map Fin r /\ length r = length u /\
    forall q, (q < length u)%nat -> nth q r 0 = ro (nth q u 0) (nth q v 0).
Proof.
  intros Hop. induction u as [|a u IH]; intros [|b v] H; try discriminate; [exists []; repeat split; intros; simpl in *; lia|].
  destruct (IH v) as (r & E & L & N); [simpl in H; lia|]. exists (ro a b :: r). cbn [map map2]. rewrite Hop, E.
  repeat split; [simpl; lia|]. intros [|q] Hq; [reflexivity|]. apply N. simpl in Hq. lia.
Qed.
Lemma vadd_fin u v : length u = length v -> exists r, @vadd RX (map Fin u) (map Fin v) = map Fin r /\ length r = length u /\
    forall q, (q < length u)%nat -> nth q r 0 = nth q u 0 + nth q v 0.
Proof. apply (map2_fin (nadd RX) Rplus). reflexivity. Qed.
Lemma vscale_fin c u : exists r, @vscale RX (Fin c) (map Fin u) = map Fin r /\ length r = length u /\
    forall q, nth q r 0 = c * nth q u 0.
Proof.
  exists (map (Rmult c) u). split; [unfold vscale; rewrite !map_map; reflexivity|]. split; [apply map_length|].
  intros q. rewrite <- (Rmult_0_r c) at 1. apply (map_nth (Rmult c)).
Qed.
Lemma nth_eq_list (u v : list R) : length u = length v -> (forall q, (q < length u)%nat -> nth q u 0 = nth q v 0) -> u = v.
Proof. intros L H. apply (nth_ext _ _ 0 0); auto. Qed.

Lemma wsum_fin d : forall w ks acc, length acc = d -> Forall (fun k => length k = d) ks ->
  exists r, @wsum RX (map Fin acc) (map Fin w) (map (map Fin) ks) = map Fin r /\ length r = d /\
    forall q, (q < d)%nat -> nth q r 0 = nth q acc 0 + rsum (length ks) (fun l => nth l w 0 * nth q (nth l ks []) 0).
Proof.
  induction w as [|a w IH]; intros ks acc HL HK.
  - exists acc. split; [destruct ks; reflexivity|]. split; auto. intros q Hq. rewrite rsum_zero; [ring|]. intros l _. destruct l; simpl; ring.
  - destruct ks as [|k ks]; [exists acc; split; [reflexivity|]; split; auto; intros; simpl; ring|].
    inversion_clear HK. cbn [map wsum].
    destruct (vscale_fin a k) as (r1 & E1 & L1 & N1). rewrite E1.
    destruct (vadd_fin acc r1) as (r2 & E2 & L2 & N2); [congruence|]. rewrite E2.
    destruct (IH ks r2) as (r3 & E3 & L3 & N3); [congruence|auto|]. exists r3. split; [exact E3|]. split; auto.
    intros q Hq. rewrite N3 by auto. rewrite N2 by lia. rewrite N1. cbn [length]. rewrite rsum_split. simpl. ring.
Qed.
Lemma repeat_fin d : @repeat (num RX) n0 d = map Fin (repeat 0 d).
Proof. induction d as [|d IH]; [reflexivity|]. cbn [repeat map]. rewrite IH. f_equal. unfold n0. simpl. rewrite Q2R_0'. reflexivity. Qed.
Lemma nth_repeat0 d q : nth q (repeat 0 d) 0 = 0.
Proof. revert q. induction d as [|d IH]; intros [|q]; simpl; auto. Qed.

(** h * sum w_l k_l *)
Lemma hcomb_fin d w ks h : Forall (fun k => length k = d) ks ->
  exists r, @vscale RX (Fin h) (wsum (repeat n0 d) (map Fin w) (map (map Fin) ks)) = map Fin r /\ length r = d /\
    forall q, (q < d)%nat -> nth q r 0 = h * lcomb (length ks) (fun l => nth l w 0) ks q.
Proof.
  intros HK.
  destruct (wsum_fin d w ks (repeat 0 d)) as (r1 & E1 & L1 & N1); [apply repeat_length|auto|].
  rewrite <- (repeat_fin d) in E1. unfold n0 in *. rewrite E1.
  destruct (vscale_fin h r1) as (r2 & E2 & L2 & N2). exists r2. split; auto. split; [congruence|].
  intros q Hq. rewrite N2, N1 by auto. rewrite nth_repeat0. unfold lcomb. ring.
Qed.
Lemma y_hcomb_fin d y w ks h : length y = d -> Forall (fun k => length k = d) ks ->
  @vadd RX (map Fin y) (vscale (Fin h) (wsum (repeat n0 d) (map Fin w) (map (map Fin) ks)))
  = map Fin (rpoint d y h (lcomb (length ks) (fun l => nth l w 0) ks)).
Proof.
  intros HL HK. destruct (hcomb_fin d w ks h HK) as (r1 & E1 & L1 & N1). rewrite E1.
  destruct (vadd_fin y r1) as (r2 & E2 & L2 & N2); [congruence|]. rewrite E2. f_equal.
  apply nth_eq_list; [unfold rpoint; rewrite map_length, seq_length; congruence|].
  intros q Hq. rewrite N2 by lia. rewrite N1 by lia. unfold rpoint.
  rewrite (nth_map_seq (fun q => nth q y 0 + h * lcomb (length ks) (fun l => nth l w 0) ks q)) by lia. reflexivity.
Qed.

Lemma rstages_Forall d F A c t y h m : (forall t y, length y = d -> length (F t y) = d) -> length y = d ->
  Forall (fun k => length k = d) (rstages F A c t y h m).
Proof.
  intros HF Hy. induction m as [|m IH]; [constructor|]. simpl. apply Forall_app. split; auto. constructor; [|constructor].
  apply HF. unfold rpoint. rewrite map_length, seq_length. auto.
Qed.
Lemma rstages_ext F A c A' c' t y h m : (forall i, (i < m)%nat -> c i = c' i) ->
  (forall i l, (i < m)%nat -> (l < i)%nat -> A i l = A' i l) -> rstages F A c t y h m = rstages F A' c' t y h m.
Proof.
  induction m as [|m IH]; intros Hc HA; [reflexivity|]. simpl. rewrite IH by (intros; try apply Hc; try apply HA; lia).
  f_equal. f_equal. rewrite Hc by lia. f_equal. unfold rpoint. apply map_ext. intros q. f_equal. f_equal.
  unfold lcomb. apply rsum_ext. intros l Hl. rewrite HA by lia. reflexivity.
Qed.

Lemma map_inj_fin u v : map Fin u = map Fin v -> u = v.
Proof. revert v. induction u as [|a u IH]; intros [|b v] H; try discriminate H; [reflexivity|]. injection H as -> H. f_equal. auto. Qed.

Lemma firstn_snoc {X : Type} (d0 : X) : forall ks m, (m < length ks)%nat -> firstn (S m) ks = firstn m ks ++ [nth m ks d0].
Proof.
  induction ks as [|k ks IH]; intros m Hm; [simpl in Hm; lia|].
  destruct m as [|m]; [reflexivity|]. simpl in Hm. change (k :: firstn (S m) ks = k :: (firstn m ks ++ [nth m ks d0])). f_equal. apply IH. lia.
Qed.

Lemma nth_firstn_lt {X : Type} (d0 : X) : forall n l row, (l < n)%nat -> nth l (firstn n row) d0 = nth l row d0.
Proof. 
  induction n as [|n IH]; intros l row Hl; [lia|]. destruct row as [|a row]; [destruct l; reflexivity|].
  destruct l as [|l]; [reflexivity|]. apply (IH l row). lia.
Qed.
(** the model's step is the real step *)
Lemma textbook_real d F g s A b c e t y h ks t' y' : lifts d F g -> length y = d -> nth 0 c 0%Q = 0%Q ->
  textbook_rk (mk_tab s A b c e) d g (Fin t) (map Fin y) (Fin h) ks t' y' ->
  let rs := rstages F (mq A) (vq c) t y h s in
  ks = map (map Fin) rs /\ t' = Fin (t + h) /\ y' = map Fin (rpoint d y h (lcomb s (vq b) rs)).
Proof.
  intros HL Hy Hc (H1 & H2 & H3 & H4 & H5). cbn [mk_tab r_stages r_A r_B r_C] in *. cbv zeta.
  assert (HFl : forall t y, length y = d -> length (F t y) = d) by (intros; apply HL; auto).
  assert (HP : forall m, (m <= s)%nat -> firstn m ks = map (map Fin) (rstages F (mq A) (vq c) t y h m)).
  { induction m as [|m IH]; intros Hm; [reflexivity|].
    assert (E : firstn (S m) ks = firstn m ks ++ [nth m ks []]).
    { apply firstn_snoc. rewrite H1. lia. }
    rewrite E, IH by lia. cbn [rstages]. rewrite map_app. f_equal. cbn [map]. f_equal.
    destruct m as [|m].
    - rewrite H2. replace (t + vq c 0 * h) with t by (rewrite vq_nth, Hc, Q2R_0'; ring).
      replace (rpoint (length y) y h (lcomb 0 (mq A 0) (rstages F (mq A) (vq c) t y h 0))) with y; [apply HL; auto|].
      unfold rpoint, lcomb. simpl. rewrite <- (map_seq_nth d y Hy) at 1. rewrite Hy. apply map_ext. intros; ring.
    - rewrite H3 by lia. rewrite IH by lia.
      replace (nth (S m) (lm A) []) with (map Fin (map Q2R (nth (S m) A []))).
      2:{ rewrite <- lv_fin. unfold lm. symmetry. apply (map_nth (@lv RX) A []). }
      rewrite !firstn_map.
      rewrite (y_hcomb_fin d y _ _ h Hy) by (apply (rstages_Forall d); auto).
      replace (nadd RX (Fin t) (nmul RX (nth (S m) (lv c) n0) (Fin h))) with (Fin (t + vq c (S m) * h)).
      2:{ unfold lv, n0. rewrite (map_nth (@lit RX) c 0%Q). reflexivity. }
      rewrite rstages_length.
      destruct (HL (t + vq c (S m) * h) (rpoint d y h (lcomb (S m) (fun l => nth l (map Q2R (firstn (S m) (nth (S m) A []))) 0) (rstages F (mq A) (vq c) t y h (S m))))) as (_ & ->).
      { unfold rpoint. rewrite map_length, seq_length. reflexivity. }
      rewrite Hy. f_equal. f_equal. unfold rpoint. apply map_ext. intros q. f_equal. f_equal. unfold lcomb. apply rsum_ext.
      intros l Hl. f_equal. rewrite nth_Q2R, vq_nth. unfold mq, mR, vR. cbn [cv QN c_0].
      f_equal. apply nth_firstn_lt. exact Hl. }
  assert (EK : ks = map (map Fin) (rstages F (mq A) (vq c) t y h s)).
  { rewrite <- (HP s (le_n s)). symmetry. apply firstn_all2. lia. }
  split; [exact EK|]. split; [exact H4|]. rewrite H5, EK.
  rewrite lv_fin. rewrite (y_hcomb_fin d y _ _ h Hy) by (apply (rstages_Forall d); auto). rewrite rstages_length.
  f_equal. unfold rpoint. apply map_ext. intros q. f_equal. f_equal. unfold lcomb. apply rsum_ext. intros l Hl. f_equal. apply nth_Q2R.
Qed.

(** strictly lower triangular coefficient matrix *)
Definition lower (A : list (list Q)) : bool :=
  forallb (fun i => forallb (fun l => Qeq_bool (nth l (nth i A []) 0%Q) 0%Q) (seq i (length (nth i A [])))) (seq 0 (length A)).
Lemma lower_spec A : lower A = true -> forall i l, (i <= l)%nat -> mq A i l = 0.
Proof.
  intros H i l Hl. unfold mq, mR, vR. cbn [cv QN c_0].
  destruct (lt_dec i (length A)) as [Hi|Hi]; [|rewrite (nth_overflow A) by lia; destruct l; apply Q2R_0'].
  destruct (lt_dec l (length (nth i A []))) as [Hl2|Hl2]; [|rewrite (nth_overflow (nth i A [])) by lia; apply Q2R_0'].
  unfold lower in H. rewrite forallb_forall in H. specialize (H i). rewrite in_seq in H. specialize (H ltac:(lia)).
  rewrite forallb_forall in H. specialize (H l). rewrite in_seq in H. specialize (H ltac:(lia)).
  rewrite <- Q2R_0'. apply Qeq_eqR, Qeq_bool_iff, H.
Qed.

(** the tableau with the new point as an additional stage *)
Definition extA (A : list (list Q)) (b : list Q) (X : list (list Q)) := A ++ b :: X.
Definition extC (c : list Q) (x : list Q) := c ++ 1%Q :: x.
Lemma ext_stages F A b c X x t y h s : length A = s -> length c = s ->
  rstages F (mq (extA A b X)) (vq (extC c x)) t y h s = rstages F (mq A) (vq c) t y h s.
Proof.
  intros LA LC. apply rstages_ext.
  - intros i Hi. rewrite !vq_nth. unfold extC. rewrite app_nth1 by lia. reflexivity.
  - intros i l Hi _. unfold mq, mR, extA. rewrite app_nth1 by lia. reflexivity.
Qed.
Lemma ext_stage_new d F A b c X x t y h s : length A = s -> length c = s -> length y = d ->
  nth s (rstages F (mq (extA A b X)) (vq (extC c x)) t y h (S s)) []
  = F (t + h) (rpoint d y h (lcomb s (vq b) (rstages F (mq A) (vq c) t y h s))).
Proof.
  intros LA LC Ly. rewrite rstages_nth by lia. rewrite ext_stages, Ly by auto. f_equal.
  - rewrite vq_nth. unfold extC. rewrite app_nth2, LC, Nat.sub_diag by lia. cbn [nth]. rewrite Q2R_1'. ring.
  - unfold rpoint. apply map_ext. intros q. f_equal. f_equal. unfold lcomb. apply rsum_ext. intros l _. f_equal.
    unfold mq, mR, extA. rewrite app_nth2, LA, Nat.sub_diag by lia. reflexivity.
Qed.
Lemma lcomb_ext_zero F A c t y h n m w q : (n <= m)%nat -> (forall l, (n <= l)%nat -> w l = 0) ->
  lcomb n w (rstages F A c t y h n) q = lcomb m w (rstages F A c t y h m) q.
Proof. intros Hn Hw. rewrite (lcomb_prefix F A c t y h m) by auto. apply lcomb_zero_tail; auto. Qed.
Lemma vq_overflow l i : (length l <= i)%nat -> vq l i = 0.
Proof. intros H. rewrite vq_nth, nth_overflow by auto. apply Q2R_0'. Qed.
Lemma weights_bound s (b : nat -> R) : exists B, 0 <= B /\ forall i, (i < s)%nat -> Rabs (b i) <= B.
Proof.
  induction s as [|n (B & HB & H)]; [exists 0; split; [lra|intros; lia]|].
  exists (B + Rabs (b n)). pose proof (Rabs_pos (b n)). split; [lra|]. intros i Hi.
  destruct (Nat.eq_dec i n) as [->|Hne]; [lra|]. specialize (H i ltac:(lia)). lra.
Qed.

(** ** all checks for one pair: order p, error estimate of order pe *)
Definition pair_ok (s : nat) (A : list (list Q)) (b c e : list Q) (p pe : nat) : bool :=
  let A' := extA A b [] in let c' := extC c [] in
  let tb := snd (tables QN false true c' [] A' p) in
  Nat.eqb (length A) s && Nat.eqb (length b) s && Nat.eqb (length c) s && Nat.leb (length e) (S s) &&
  lower A' && Qeq_bool (nth 0 c 0%Q) 0 && match nth 0 c 0%Q with (0 # 1)%Q => true | _ => false end &&
  check QN tb p b (rhsV QN) && check QN tb pe e (rhsZ QN) && Nat.leb pe p.

Lemma mR_nil : mR QN [] = fun _ _ => 0.
Proof. extensionality i. extensionality l. unfold mR, vR. destruct i, l; apply Q2R_0'. Qed.
Lemma pair_ok_spec s A b c e p pe : pair_ok s A b c e p pe = true ->
  let A' := extA A b [] in let c' := extC c [] in
  length A = s /\ length b = s /\ length c = s /\ (length e <= S s)%nat /\ nth 0 c 0%Q = 0%Q /\ (pe <= p)%nat /\
  (forall i l, (i <= l)%nat -> mq A' i l = 0) /\
  order_V false true (S s) (fun _ _ => 0) (mq A') (vq c') (vq b) 1 p /\
  order_Z false true (S s) (fun _ _ => 0) (mq A') (vq c') (vq e) pe.
Proof.
  intros H. unfold pair_ok in H. cbv zeta in *. repeat rewrite andb_true_iff in H.
  destruct H as (((((((((HA & Hb) & Hc) & He) & Hlow) & _) & Hc0) & HV) & HZ) & Hpe).
  apply Nat.eqb_eq in HA, Hb, Hc. apply Nat.leb_le in He, Hpe.
  assert (L1 : length (extC c []) = S s) by (unfold extC; rewrite app_length; simpl; lia).
  assert (L2 : length (extA A b []) = S s) by (unfold extA; rewrite app_length; simpl; lia).
  repeat split; auto.
  - destruct (nth 0 c 0%Q) as [[| |] [| |]]; try discriminate Hc0; reflexivity.
  - apply lower_spec; auto.
  - rewrite <- L1.
    assert (E := check_V QN false true (extC c []) [] (extA A b []) ltac:(discriminate) (fun _ => eq_trans L2 (eq_sym L1)) p p b ltac:(lia) HV).
    rewrite mR_nil in E. exact E.
  - rewrite <- L1.
    assert (E := check_Z QN false true (extC c []) [] (extA A b []) ltac:(discriminate) (fun _ => eq_trans L2 (eq_sym L1)) p pe e ltac:(lia) HZ).
    rewrite mR_nil in E. exact E.
Qed.
