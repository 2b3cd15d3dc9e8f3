(** Accuracy of one step of the modelled Runge-Kutta-Nystrom solvers (x'' = G(t, x, x')). *)
From Coq Require Import Reals Lra QArith Qreals Lia List Arith Bool FunctionalExtensionality.
From Verif Require Import Arith Common RK RX SpecRK Classes Series Trees OrderThm OrderCheck OrderRK OrderRKN OrderModel OrderPair.
Import ListNotations.
Open Scope R_scope.

(** [g] computes the real accelerations G(t, x ++ v) of n coordinates *)
Definition lifts2 (n : nat) (G : R -> list R -> list R) (g : num RX -> list (num RX) -> list (num RX)) : Prop :=
  forall t y, length y = (n + n)%nat -> length (G t y) = n /\ g (Fin t) (map Fin y) = map Fin (G t y).

Lemma nstages_Forall n G A Ap c t y h m : (forall t y, length y = (n + n)%nat -> length (G t y) = n) -> length y = (n + n)%nat ->
  Forall (fun k => length k = n) (nstages n G A Ap c t y h m).
Proof.
  intros HG Hy. induction m as [|m IH]; [constructor|]. simpl. apply Forall_app. split; auto. constructor; [|constructor].
  apply HG. apply npoint_length.
Qed.
Lemma nstages_ext n G A Ap c A' Ap' c' t y h m : (forall i, (i < m)%nat -> c i = c' i) ->
  (forall i l, (i < m)%nat -> (l < i)%nat -> A i l = A' i l) -> (forall i l, (i < m)%nat -> (l < i)%nat -> Ap i l = Ap' i l) ->
  nstages n G A Ap c t y h m = nstages n G A' Ap' c' t y h m.
Proof.
  induction m as [|m IH]; intros Hc HA HAp; [reflexivity|]. simpl. rewrite IH by (intros; try apply Hc; try apply HA; try apply HAp; lia).
  f_equal. f_equal. rewrite Hc by lia. f_equal. unfold npoint. f_equal; apply map_ext; intros q; f_equal; [f_equal; f_equal|f_equal];
  unfold lcomb; apply rsum_ext; intros l Hl; rewrite ?HA, ?HAp by lia; reflexivity.
Qed.
Lemma npoint_ext n y h c gx gx' gv gv' : (forall q, (q < n)%nat -> gx q = gx' q) -> (forall q, (q < n)%nat -> gv q = gv' q) ->
  npoint n y h c gx gv = npoint n y h c gx' gv'.
Proof.
  intros Hx Hv. unfold npoint. f_equal; apply map_ext_in; intros q Hq; apply in_seq in Hq; [rewrite Hx|rewrite Hv]; auto; lia.
Qed.

Lemma nth_skipn {X : Type} (d : X) n : forall l q, nth q (skipn n l) d = nth (n + q) l d.
Proof. induction n as [|n IH]; intros l q; [reflexivity|]. destruct l; [destruct q; reflexivity|]. apply IH. Qed.
(** y + (h^2 sum a k + c h v ++ h sum a' k) *)
Lemma npoint_fin n y w w' ks h c : length y = (n + n)%nat -> Forall (fun k => length k = n) ks ->
  @vadd RX (map Fin y)
    (vadd (vscale (Fin h * Fin h)%num (wsum (repeat n0 n) (map Fin w) (map (map Fin) ks))) (vscale (Fin (c * h)) (skipn n (map Fin y)))
     ++ vscale (Fin h) (wsum (repeat n0 n) (map Fin w') (map (map Fin) ks)))
  = map Fin (npoint n y h c (lcomb (length ks) (fun l => nth l w 0) ks) (lcomb (length ks) (fun l => nth l w' 0) ks)).
Proof.
  intros Hy HK. change (Fin h * Fin h)%num with (Fin (h * h)).
  destruct (hcomb_fin n w ks (h * h) HK) as (r1 & E1 & L1 & N1). rewrite E1.
  destruct (hcomb_fin n w' ks h HK) as (r2 & E2 & L2 & N2). rewrite E2.
  assert (ES : skipn n (map Fin y) = map Fin (skipn n y)) by apply skipn_map.
  assert (LS : length (skipn n y) = n) by (rewrite skipn_length; lia).
  rewrite ES. destruct (vscale_fin (c * h) (skipn n y)) as (r3 & E3 & L3 & N3). rewrite E3.
  destruct (vadd_fin r1 r3) as (r4 & E4 & L4 & N4); [congruence|]. rewrite E4.
  assert (EA : map Fin r4 ++ map Fin r2 = map Fin (r4 ++ r2)) by (symmetry; apply map_app).
  refine (eq_trans (f_equal (@vadd RX (map Fin y)) EA) _). destruct (vadd_fin y (r4 ++ r2)) as (r5 & E5 & L5 & N5); [rewrite app_length; lia|]. rewrite E5. f_equal.
  apply nth_eq_list; [rewrite npoint_length; lia|]. intros q Hq. rewrite N5 by lia.
  destruct (lt_dec q n) as [Hn|Hn].
  - rewrite npoint_x by auto. rewrite app_nth1 by lia. rewrite N4 by lia. rewrite N1, N3 by lia. rewrite nth_skipn. reflexivity.
  - replace q with (n + (q - n))%nat at 3 by lia. rewrite npoint_v by lia. rewrite app_nth2 by lia.
    rewrite L4, L1, N2 by lia. replace (n + (q - n))%nat with q by lia. reflexivity.
Qed.

Lemma row_fin (A : list (list Q)) m : nth m (@lm RX A) [] = map Fin (map Q2R (nth m A [])).
Proof. rewrite <- lv_fin. unfold lm. apply (map_nth (@lv RX) A []). Qed.

Lemma textbook_real_n n G g s A Ap b bp c e ep t y h ks t' y' : lifts2 n G g -> length y = (n + n)%nat -> nth 0 c 0%Q = 0%Q ->
  textbook_rkn (mk_tabn s A Ap b bp c e ep) n g (Fin t) (map Fin y) (Fin h) ks t' y' ->
  let rs := nstages n G (mq A) (mq Ap) (vq c) t y h s in
  ks = map (map Fin) rs /\ t' = Fin (t + h) /\ y' = map Fin (npoint n y h 1 (lcomb s (vq b) rs) (lcomb s (vq bp) rs)).
Proof.
  intros HL Hy Hc (H1 & H2 & H3 & H4 & H5). cbn [mk_tabn n_stages n_A n_Ap n_B n_Bp n_C] in *. cbv zeta.
  assert (HFl : forall t y, length y = (n + n)%nat -> length (G t y) = n) by (intros; apply HL; auto).
  assert (HP : forall m, (m <= s)%nat -> firstn m ks = map (map Fin) (nstages n G (mq A) (mq Ap) (vq c) t y h m)).
  { induction m as [|m IH]; intros Hm; [reflexivity|].
    assert (E : firstn (S m) ks = firstn m ks ++ [nth m ks []]) by (apply firstn_snoc; rewrite H1; lia).
    rewrite E, IH by lia. cbn [nstages]. rewrite map_app. f_equal. cbn [map]. f_equal.
    destruct m as [|m].
    - rewrite H2. replace (t + vq c 0 * h) with t by (rewrite vq_nth, Hc, Q2R_0'; ring).
      replace (npoint n y h (vq c 0) _ _) with y; [apply HL; auto|].
      apply nth_eq_list; [rewrite npoint_length; auto|]. intros q Hq. destruct (lt_dec q n) as [Hn|Hn].
      + rewrite npoint_x by auto. unfold lcomb. simpl. rewrite vq_nth, Hc, Q2R_0'. ring.
      + replace q with (n + (q - n))%nat at 2 by lia. rewrite npoint_v by lia. unfold lcomb. simpl. replace (n + (q - n))%nat with q by lia. ring.
    - rewrite H3 by lia. cbv zeta. rewrite IH by lia. rewrite !row_fin. rewrite !firstn_map.
      replace (nth (S m) (lv c) n0) with (Fin (vq c (S m))) by (symmetry; apply nth_lv_fin).
      change (nmul RX (Fin (vq c (S m))) (Fin h)) with (Fin (vq c (S m) * h)).
      rewrite (npoint_fin n y _ _ _ h (vq c (S m)) Hy) by (apply nstages_Forall; auto).
      rewrite nstages_length. change (nadd RX (Fin t) (Fin (vq c (S m) * h))) with (Fin (t + vq c (S m) * h)).
      match goal with |- g (Fin ?a) (map Fin ?b) = _ => destruct (HL a b) as (_ & ->); [apply npoint_length|] end.
      f_equal. f_equal. apply npoint_ext; intros q Hq; unfold lcomb; apply rsum_ext; intros l Hl; f_equal;
      rewrite nth_Q2R, vq_nth; unfold mq, mR, vR; cbn [cv QN c_0]; f_equal; apply nth_firstn_lt; exact Hl. }
  assert (EK : ks = map (map Fin) (nstages n G (mq A) (mq Ap) (vq c) t y h s)).
  { rewrite <- (HP s (le_n s)). symmetry. apply firstn_all2. lia. }
  split; [exact EK|]. split; [exact H4|]. rewrite H5, EK. rewrite !lv_fin.
  replace (Fin h) with (Fin (1 * h)) at 3 by (rewrite Rmult_1_l; reflexivity).
  rewrite (npoint_fin n y _ _ _ h 1 Hy) by (apply nstages_Forall; auto). rewrite nstages_length.
  f_equal. apply npoint_ext; intros q Hq; unfold lcomb; apply rsum_ext; intros l Hl; f_equal; apply nth_Q2R.
Qed.

Lemma ext_all_n n G g A Ap b bp c t y h s : lifts2 n G g -> length A = s -> length Ap = s -> length c = s -> length y = (n + n)%nat ->
  let rs := nstages n G (mq A) (mq Ap) (vq c) t y h s in
  let yn := npoint n y h 1 (lcomb s (vq b) rs) (lcomb s (vq bp) rs) in
  nstages n G (mq (extA A b [])) (mq (extA Ap bp [])) (vq (extC c [])) t y h (S s) = rs ++ [G (t + h) yn].
Proof.
  intros HL LA LAp LC Ly rs yn. cbn [nstages].
  rewrite (nstages_ext n G _ _ _ (mq A) (mq Ap) (vq c)).
  2:{ intros i Hi. rewrite !vq_nth. unfold extC. rewrite app_nth1 by lia. reflexivity. }
  2,3: intros i l Hi _; unfold mq, mR, extA; rewrite app_nth1 by lia; reflexivity.
  fold rs. f_equal. f_equal.
  replace (vq (extC c []) s) with 1.
  2:{ rewrite vq_nth. unfold extC. rewrite app_nth2, LC, Nat.sub_diag by lia. cbn [nth]. rewrite Q2R_1'. ring. }
  rewrite Rmult_1_l. f_equal. unfold yn. apply npoint_ext; intros q Hq; unfold lcomb; apply rsum_ext; intros l _; f_equal;
  unfold mq, mR, extA; rewrite app_nth2 by lia; rewrite ?LA, ?LAp, Nat.sub_diag; reflexivity.
Qed.

Lemma last_nth {X : Type} (d : X) l : last l d = nth (length l - 1) l d.
Proof. induction l as [|a l IH]; [reflexivity|]. destruct l as [|b l]; [reflexivity|]. change (last (b :: l) d = nth (length (b :: l)) (a :: b :: l) d). rewrite IH. simpl. rewrite Nat.sub_0_r. reflexivity. Qed.

Lemma Fin_eqb_0 x : xeqb (Fin x) (Fin (Q2R 0)) = true -> x = 0.
Proof. rewrite Q2R_0'. apply Reqb_true. Qed.

Lemma tabn_error_real n G g s A Ap b bp c e ep t y h : lifts2 n G g -> length A = s -> length Ap = s -> length c = s ->
  (length e <= S s)%nat -> length ep = S s -> length y = (n + n)%nat ->
  let rs := nstages n G (mq A) (mq Ap) (vq c) t y h s in
  let yn := npoint n y h 1 (lcomb s (vq b) rs) (lcomb s (vq bp) rs) in
  let rx := nstages n G (mq (extA A b [])) (mq (extA Ap bp [])) (vq (extC c [])) t y h (S s) in
  exists er, tabn_error (mk_tabn s A Ap b bp c e ep) n g (Fin h) (map (map Fin) rs) (Fin (t + h)) (map Fin yn) = map Fin er /\
    length er = (n + n)%nat /\ forall q, (q < n)%nat ->
      nth q er 0 = h * h * lcomb (S s) (vq e) rx q /\ nth (n + q) er 0 = h * lcomb (S s) (vq ep) rx q.
Proof.
  intros HL LA LAp LC LE LEp Ly rs yn rx. unfold tabn_error. cbv zeta. cbn [mk_tabn n_stages n_E n_Ep].
  assert (HFl : forall t y, length y = (n + n)%nat -> length (G t y) = n) by (intros; apply HL; auto).
  assert (FR : Forall (fun k => length k = n) rs) by (apply nstages_Forall; auto).
  assert (Ln : length yn = (n + n)%nat) by apply npoint_length.
  unfold rx. rewrite (ext_all_n n G g A Ap b bp c t y h s HL LA LAp LC Ly). fold rs yn. clear rx.
  assert (LR : length rs = s) by apply nstages_length.
  change (nmul RX (Fin h) (Fin h)) with (Fin (h * h)).
  match goal with |- context [if ?b then _ else _] => destruct b eqn:EF end.
  - rewrite !lv_fin. destruct (HL (t + h) yn Ln) as (LF & ->).
    change [map Fin (G (t + h) yn)] with (map (map Fin) [G (t + h) yn]). rewrite <- map_app.
    assert (FR' : Forall (fun k => length k = n) (rs ++ [G (t + h) yn])) by (apply Forall_app; split; auto).
    destruct (hcomb_fin n (map Q2R e) _ (h * h) FR') as (r & E & L & N). 
    destruct (hcomb_fin n (map Q2R ep) _ h FR') as (r' & E' & L' & N').
    exists (r ++ r'). split; [exact (eq_trans (f_equal2 (@app xr) E E') (eq_sym (map_app Fin r r')))|]. split; [rewrite app_length; lia|].
    intros q Hq. rewrite app_nth1 by lia. rewrite app_nth2 by lia. replace (n + q - length r)%nat with q by lia.
    rewrite N, N' by auto. rewrite app_length, LR. cbn [length]. rewrite Nat.add_1_r.
    split; f_equal; unfold lcomb; apply rsum_ext; intros l _; rewrite nth_Q2R; reflexivity.
  - apply orb_false_iff in EF. destruct EF as [E1 E2]. apply negb_false_iff in E1, E2.
    rewrite nth_lv_fin in E1. rewrite last_nth in E2. unfold lv in E2 at 1. rewrite map_length, LEp in E2.
    replace (S s - 1)%nat with s in E2 by lia. rewrite nth_lv_fin in E2.
    apply Fin_eqb_0 in E1, E2. rewrite !lv_fin.
    destruct (hcomb_fin n (map Q2R e) _ (h * h) FR) as (r & E & L & N). 
    destruct (hcomb_fin n (map Q2R ep) _ h FR) as (r' & E' & L' & N').
    exists (r ++ r'). split; [exact (eq_trans (f_equal2 (@app xr) E E') (eq_sym (map_app Fin r r')))|]. split; [rewrite app_length; lia|].
    intros q Hq. rewrite app_nth1 by lia. rewrite app_nth2 by lia. replace (n + q - length r)%nat with q by lia.
    rewrite N, N' by auto. rewrite LR. unfold lcomb. cbn [rsum]. rewrite E1, E2, !Rmult_0_l, !Rplus_0_r.
    split; f_equal; apply rsum_ext; intros l Hl; rewrite nth_Q2R; rewrite app_nth1 by lia; reflexivity.
Qed.

Definition pairn_ok (uV : bool) (s : nat) (A Ap : list (list Q)) (b bp c e ep : list Q) (p pe : nat) : bool :=
  let A' := extA A b [] in let Ap' := extA Ap bp [] in let c' := extC c [] in
  let tb := snd (tables QN true uV c' A' Ap' p) in
  Nat.eqb (length A) s && Nat.eqb (length Ap) s && Nat.eqb (length b) s && Nat.eqb (length bp) s && Nat.eqb (length c) s &&
  Nat.leb (length e) (S s) && Nat.eqb (length ep) (S s) &&
  lower A' && lower Ap' && match nth 0 c 0%Q with (0 # 1)%Q => true | _ => false end &&
  check QN tb (p - 1) b (rhsU QN) && check QN tb p bp (rhsV QN) && check QN tb (pe - 1) e (rhsZ QN) && check QN tb pe ep (rhsZ QN) &&
  Nat.leb pe p && Nat.leb 1 pe.

Lemma pairn_ok_spec uV s A Ap b bp c e ep p pe : pairn_ok uV s A Ap b bp c e ep p pe = true ->
  let A' := extA A b [] in let Ap' := extA Ap bp [] in let c' := extC c [] in
  length A = s /\ length Ap = s /\ length b = s /\ length bp = s /\ length c = s /\ (length e <= S s)%nat /\ length ep = S s /\
  nth 0 c 0%Q = 0%Q /\ (1 <= pe <= p)%nat /\
  (forall i l, (i <= l)%nat -> mq A' i l = 0) /\ (forall i l, (i <= l)%nat -> mq Ap' i l = 0) /\
  order_U true uV (S s) (mq A') (mq Ap') (vq c') (vq b) 1 (p - 1) /\
  order_V true uV (S s) (mq A') (mq Ap') (vq c') (vq bp) 1 p /\
  order_Z true uV (S s) (mq A') (mq Ap') (vq c') (vq e) (pe - 1) /\
  order_Z true uV (S s) (mq A') (mq Ap') (vq c') (vq ep) pe.
Proof.
  intros H. unfold pairn_ok in H. cbv zeta in *. repeat rewrite andb_true_iff in H.
  destruct H as (((((((((((((((HA & HAp) & Hb) & Hbp) & Hc) & He) & Hep) & Hlow) & Hlow2) & Hc0) & HU) & HV) & HZ) & HZ2) & Hpe) & Hpe1).
  apply Nat.eqb_eq in HA, HAp, Hb, Hbp, Hc, Hep. apply Nat.leb_le in He, Hpe, Hpe1.
  assert (L1 : length (extC c []) = S s) by (unfold extC; rewrite app_length; simpl; lia).
  assert (L2 : length (extA A b []) = S s) by (unfold extA; rewrite app_length; simpl; lia).
  assert (L3 : length (extA Ap bp []) = S s) by (unfold extA; rewrite app_length; simpl; lia).
  pose (K2 := fun (_ : true = true) => eq_trans L2 (eq_sym L1)). pose (K3 := fun (_ : uV = true) => eq_trans L3 (eq_sym L1)).
  assert (R1 := check_U QN true uV (extC c []) (extA A b []) (extA Ap bp []) K2 K3 p (p - 1) b ltac:(lia) HU).
  assert (R2 := check_V QN true uV (extC c []) (extA A b []) (extA Ap bp []) K2 K3 p p bp ltac:(lia) HV).
  assert (R3 := check_Z QN true uV (extC c []) (extA A b []) (extA Ap bp []) K2 K3 p (pe - 1) e ltac:(lia) HZ).
  assert (R4 := check_Z QN true uV (extC c []) (extA A b []) (extA Ap bp []) K2 K3 p pe ep ltac:(lia) HZ2).
  change (@length QN (extC c [])) with (length (extC c [])) in *. rewrite L1 in *.
  split; [auto|]. split; [auto|]. split; [auto|]. split; [auto|]. split; [auto|]. split; [auto|]. split; [auto|].
  split; [destruct (nth 0 c 0%Q) as [[| |] [| |]]; try discriminate Hc0; reflexivity|]. split; [lia|].
  split; [apply lower_spec; auto|]. split; [apply lower_spec; auto|]. auto.
Qed.

(** position and velocity after one step have error O(h^(p+1)), the error estimates of both are O(h^(pe+1)) *)
Definition rkn_accurate (vel : bool) (T : TabN RX) (n p pe : nat) : Prop :=
  forall G t0 y0 Y g, lifts2 n G g -> length y0 = (n + n)%nat -> (vel = false -> velocity_free n G) ->
  smooth_at2 n p G t0 y0 -> solves2 n G t0 y0 Y ->
  exists C del, 0 < del /\ forall h ks t' y', Rabs h < del ->
    textbook_rkn T n g (Fin t0) (map Fin y0) (Fin h) ks t' y' ->
    exists yr er, t' = Fin (t0 + h) /\ y' = map Fin yr /\ tabn_error T n g (Fin h) ks t' y' = map Fin er /\
      length yr = (n + n)%nat /\ length er = (n + n)%nat /\
      forall q, (q < n + n)%nat -> Rabs (nth q yr 0 - nth q (Y (t0 + h)) 0) <= C * Rabs h ^ S p /\
                                   Rabs (nth q er 0) <= C * Rabs h ^ S pe.

Lemma lcomb_ext_zero2 n G A Ap c t y h i m w q : (i <= m)%nat -> (forall l, (i <= l)%nat -> w l = 0) ->
  lcomb i w (nstages n G A Ap c t y h i) q = lcomb m w (nstages n G A Ap c t y h m) q.
Proof. intros Hn Hw. rewrite (lcomb_prefix2 n G A Ap c t y h m) by auto. apply lcomb_zero_tail; auto. Qed.

Theorem pairn_accurate uV s A Ap b bp c e ep p pe n : pairn_ok uV s A Ap b bp c e ep p pe = true ->
  rkn_accurate uV (mk_tabn s A Ap b bp c e ep) n p pe.
Proof.
  intros HP G t0 y0 Y g HL Hy Hvf HF HY.
  destruct (pairn_ok_spec uV s A Ap b bp c e ep p pe HP) as (LA & LAp & LB & LBp & LC & LE & LEp & C0 & Hpe & Hl1 & Hl2 & HU & HV & HZ & HZp).
  destruct (weights_bound (S s) (vq b)) as (B & HB & Hb). destruct (weights_bound (S s) (vq bp)) as (B' & HB' & Hb').
  pose (RX_ := fun h => nstages n G (mq (extA A b [])) (mq (extA Ap bp [])) (vq (extC c [])) t0 y0 h (S s)).
  destruct (uniform_q n (S p) (fun th => th = 1) (fun q th h => nth q y0 0 + (th * h * nth (n + q) y0 0 + h * (h * lcomb (S s) (vq b) (RX_ h) q)) - nth q (Y (t0 + th * h)) 0)) as (C1 & d1 & Hd1 & H1).
  { intros q Hq. replace (S p) with (S (S (p - 1))) by lia.
    apply (rkn_order_x uV n G t0 y0 Hy p HF Hvf Y HY (S s) (mq (extA A b [])) (mq (extA Ap bp [])) (vq (extC c [])) Hl1 Hl2 (fun th => th = 1) (fun _ => vq b) B (p - 1) q); try lia; auto.
    intros th ->. split; [rewrite Rabs_R1; lra|]. split; [exact Hb|exact HU]. }
  destruct (uniform_q n (S p) (fun th => th = 1) (fun q th h => nth (n + q) y0 0 + h * lcomb (S s) (vq bp) (RX_ h) q - nth (n + q) (Y (t0 + th * h)) 0)) as (C2 & d2 & Hd2 & H2).
  { intros q Hq. apply (rkn_order_v uV n G t0 y0 Hy p HF Hvf Y HY (S s) (mq (extA A b [])) (mq (extA Ap bp [])) (vq (extC c [])) Hl1 Hl2 (fun th => th = 1) (fun _ => vq bp) B' p q); try lia; auto.
    intros th ->. split; [rewrite Rabs_R1; lra|]. split; [exact Hb'|exact HV]. }
  destruct (uniform_q n (S pe) (fun _ : unit => True) (fun q _ h => h * h * lcomb (S s) (vq e) (RX_ h) q)) as (C3 & d3 & Hd3 & H3).
  { intros q Hq. destruct (rkn_small uV n G t0 y0 Hy p HF Hvf (S s) (mq (extA A b [])) (mq (extA Ap bp [])) (vq (extC c [])) Hl1 Hl2 (vq e) (pe - 1) q) as (C & del & Hd & H); try lia; auto.
    exists C, del. split; auto. intros _ h _ Hh. specialize (H h Hh). fold (RX_ h) in H. rewrite !Rabs_mult.
    replace (S pe) with (2 + (pe - 1))%nat by lia. rewrite pow_add.
    replace (C * (Rabs h ^ 2 * Rabs h ^ (pe - 1))) with (Rabs h * Rabs h * (C * Rabs h ^ (pe - 1))) by ring.
    apply Rmult_le_compat_l; [apply Rmult_le_pos; apply Rabs_pos|exact H]. }
  destruct (uniform_q n (S pe) (fun _ : unit => True) (fun q _ h => h * lcomb (S s) (vq ep) (RX_ h) q)) as (C4 & d4 & Hd4 & H4).
  { intros q Hq. destruct (rkn_small uV n G t0 y0 Hy p HF Hvf (S s) (mq (extA A b [])) (mq (extA Ap bp [])) (vq (extC c [])) Hl1 Hl2 (vq ep) pe q) as (C & del & Hd & H); try lia; auto.
    exists C, del. split; auto. intros _ h _ Hh. specialize (H h Hh). fold (RX_ h) in H. rewrite !Rabs_mult. cbn [pow].
    replace (C * (Rabs h * Rabs h ^ pe)) with (Rabs h * (C * Rabs h ^ pe)) by ring.
    apply Rmult_le_compat_l; [apply Rabs_pos|exact H]. }
  exists (Rmax (Rmax C1 C2) (Rmax C3 C4)), (Rmin (Rmin d1 d2) (Rmin d3 d4)).
  split; [repeat apply Rmin_case; auto|]. intros h ks t' y' Hh HT.
  apply Rmin_Rgt_l in Hh. destruct Hh as [Ha Hb2]. apply Rmin_Rgt_l in Ha, Hb2. destruct Ha as [A1 A2]. destruct Hb2 as [A3 A4].
  assert (M1 : C1 <= Rmax (Rmax C1 C2) (Rmax C3 C4)) by (eapply Rle_trans; [|apply Rmax_l]; apply Rmax_l).
  assert (M2 : C2 <= Rmax (Rmax C1 C2) (Rmax C3 C4)) by (eapply Rle_trans; [|apply Rmax_l]; apply Rmax_r).
  assert (M3 : C3 <= Rmax (Rmax C1 C2) (Rmax C3 C4)) by (eapply Rle_trans; [|apply Rmax_r]; apply Rmax_l).
  assert (M4 : C4 <= Rmax (Rmax C1 C2) (Rmax C3 C4)) by (eapply Rle_trans; [|apply Rmax_r]; apply Rmax_r).
  assert (P : forall n, 0 <= Rabs h ^ n) by (intros; apply pow_le, Rabs_pos).
  destruct (textbook_real_n n G g s A Ap b bp c e ep t0 y0 h ks t' y' HL Hy C0 HT) as (-> & -> & ->).
  destruct (tabn_error_real n G g s A Ap b bp c e ep t0 y0 h HL LA LAp LC LE LEp Hy) as (er & -> & Le & Ne).
  eexists. exists er. split; [reflexivity|]. split; [reflexivity|]. split; [reflexivity|]. split; [apply npoint_length|]. split; [exact Le|].
  assert (EX : forall w q, (forall l, (s <= l)%nat -> w l = 0) ->
     lcomb s w (nstages n G (mq A) (mq Ap) (vq c) t0 y0 h s) q = lcomb (S s) w (RX_ h) q).
  { intros w q Hw. unfold RX_. rewrite (ext_all_n n G g A Ap b bp c t0 y0 h s HL LA LAp LC Hy). unfold lcomb. cbn [rsum].
    rewrite (Hw s) by lia. rewrite Rmult_0_l, Rplus_0_r. apply rsum_ext. intros l Hl. rewrite app_nth1; auto. rewrite nstages_length. auto. }
  intros q Hq. destruct (lt_dec q n) as [Hn|Hn].
  - destruct (Ne q Hn) as [E1 _]. split.
    + rewrite npoint_x by auto. rewrite EX by (intros; apply vq_overflow; lia). specialize (H1 1 h eq_refl A1 q Hn). rewrite Rmult_1_l in *.
      eapply Rle_trans; [|apply Rmult_le_compat_r; [apply P|exact M1]]. eapply Rle_trans; [|exact H1]. right. f_equal. ring.
    + rewrite E1. eapply Rle_trans; [apply (H3 tt h I A3 q Hn)|]. apply Rmult_le_compat_r; auto.
  - destruct (Ne (q - n)%nat ltac:(lia)) as [_ E2]. replace q with (n + (q - n))%nat by lia. rewrite E2.
    rewrite npoint_v by lia. rewrite EX by (intros; apply vq_overflow; lia). split.
    + specialize (H2 1 h eq_refl A2 (q - n)%nat ltac:(lia)). rewrite Rmult_1_l in *.
      eapply Rle_trans; [exact H2|]. apply Rmult_le_compat_r; auto.
    + eapply Rle_trans; [apply (H4 tt h I A4 (q - n)%nat); lia|]. apply Rmult_le_compat_r; auto.
Qed.
