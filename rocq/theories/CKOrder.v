(** CKdisc: the members of orders 5, 3 and 2, which advance the fractions 1, 3/5 and
    1/5 of the trial step (cash.py 191-234). *)
From Coq Require Import String Reals Lra Psatz QArith Qreals Lia List Arith Bool.
From Verif Require Import Arith Common Stiff RK RKGen RX SpecRK RKSpecProofs HStart RKInit Classes Tableaux Series Trees OrderThm OrderCheck
  OrderRK OrderRKN OrderModel OrderPair Dense Ode CK CKGen RKHist RKReal CKReal.
Import ListNotations.
Close Scope string_scope.
Open Scope nat_scope.
Open Scope R_scope.

Record member := { mb_stages : nat; mb_theta : Q; mb_b : list Q; mb_e : list Q; mb_p : nat; mb_pe : nat }.
(** by the attribute order_accepted: 4, 2 or 1 *)
Definition ck_member (ord : nat) : member :=
  match ord with
  | 4%nat => {| mb_stages := 6; mb_theta := 1; mb_b := firstn 6 CKdisc_B; mb_e := firstn 6 CKdisc_E; mb_p := 5; mb_pe := 4 |}
  | 2%nat => {| mb_stages := 4; mb_theta := 3#5; mb_b := firstn 4 (nth 1 CKdisc_B_fallback []);
                mb_e := firstn 4 (nth 1 CKdisc_E_fallback []); mb_p := 3; mb_pe := 2 |}
  | _ => {| mb_stages := 2; mb_theta := 1#5; mb_b := firstn 2 (nth 0 CKdisc_B_fallback []);
                mb_e := firstn 2 (nth 0 CKdisc_E_fallback []); mb_p := 2; mb_pe := 1 |}
  end.
Definition mb_tab (A : Arith) (M : member) : Tab A :=
  mk_tab (mb_stages M) (firstn (mb_stages M) CKdisc_A) (mb_b M) (firstn (mb_stages M) CKdisc_C) (mb_e M).

Fixpoint qpow (q : Q) (n : nat) : Q := match n with O => 1%Q | S k => (q * qpow q k)%Q end.
Lemma Q2R_pow q n : Q2R (qpow q n) = Q2R q ^ n.
Proof. induction n as [|n IH]; [apply Q2R_1'|]. simpl. rewrite Q2R_mult, IH. reflexivity. Qed.
(** order conditions at the point th of the step *)
Definition rhsT (th : Q) (n : nat) (x : QN) : QN := Qred (rhsV QN n x * qpow th (S n))%Q.
Definition member_ok (s : nat) (A : list (list Q)) (b c e : list Q) (th : Q) (p pe : nat) : bool :=
  let A' := extA A b [] in let c' := extC c [] in
  let tb := snd (tables QN false true c' [] A' p) in
  Nat.eqb (length A) s && Nat.eqb (length b) s && Nat.eqb (length c) s && Nat.leb (length e) (S s) &&
  lower A' && match nth 0 c 0%Q with (0 # 1)%Q => true | _ => false end &&
  check QN tb p b (rhsT th) && check QN tb pe e (rhsZ QN) && Nat.leb pe p && Qle_bool 0 th && Qle_bool th 1.

Lemma member_ok_spec s A b c e th p pe : member_ok s A b c e th p pe = true ->
  let A' := extA A b [] in let c' := extC c [] in
  length A = s /\ length b = s /\ length c = s /\ (length e <= S s)%nat /\ nth 0 c 0%Q = 0%Q /\ (pe <= p)%nat /\
  (forall i l, (i <= l)%nat -> mq A' i l = 0) /\ 0 <= Q2R th <= 1 /\
  order_V false true (S s) (fun _ _ => 0) (mq A') (vq c') (vq b) (Q2R th) p /\
  order_Z false true (S s) (fun _ _ => 0) (mq A') (vq c') (vq e) pe.
Proof.
  intros H. unfold member_ok in H. cbv zeta in *. repeat rewrite andb_true_iff in H.
  destruct H as ((((((((((HA & Hb) & Hc) & He) & Hlow) & Hc0) & HV) & HZ) & Hpe) & Ht0) & Ht1).
  apply Nat.eqb_eq in HA, Hb, Hc. apply Nat.leb_le in He, Hpe. apply Qle_bool_iff, Qle_Rle in Ht0, Ht1.
  rewrite Q2R_0' in Ht0. rewrite Q2R_1' in Ht1.
  assert (L1 : length (extC c []) = S s) by (unfold extC; rewrite app_length; simpl; lia).
  assert (L2 : length (extA A b []) = S s) by (unfold extA; rewrite app_length; simpl; lia).
  split; [auto|]. split; [auto|]. split; [auto|]. split; [auto|].
  split; [destruct (nth 0 c 0%Q) as [[| |] [| |]]; try discriminate Hc0; reflexivity|].
  split; [auto|]. split; [apply lower_spec; auto|]. split; [lra|]. split.
  - intros n fs Hn Hfs.
    destruct (check_sound QN false true (extC c []) [] (extA A b []) ltac:(discriminate) (fun _ => eq_trans L2 (eq_sym L1)) p p b (rhsT th) ltac:(lia) HV n fs Hn Hfs) as (x & Hx & E).
    rewrite mR_nil in E. change (@length QN (extC c [])) with (length (extC c [])) in E. rewrite L1 in E.
    unfold vq, mq. rewrite E. unfold rhsT. cbn [cv QN].
    rewrite (Qeq_eqR _ _ (Qred_correct _)), Q2R_mult, Q2R_pow.
    change (Q2R (rhsV QN n x)) with (cv QN (rhsV QN n x)). unfold rhsV. rewrite cvmul, cvinv, Hx by lia. unfold Rdiv. ring.
  - rewrite <- L1.
    assert (E := check_Z QN false true (extC c []) [] (extA A b []) ltac:(discriminate) (fun _ => eq_trans L2 (eq_sym L1)) p pe e ltac:(lia) HZ).
    rewrite mR_nil in E. exact E.
Qed.

(** the member advances the fraction th of the trial step with error O(h^(p+1)) and
    its estimate is O(h^(pe+1)), in the step h = th*H it makes *)
Definition member_accurate (T : Tab RX) (th : R) (d p pe : nat) : Prop :=
  forall F t0 y0 Y g, lifts d F g -> length y0 = d -> smooth_at p F t0 y0 -> solves F t0 y0 Y ->
  exists C del, 0 < del /\ forall h ks tt y', Rabs (th * h) < del ->
    textbook_rk T d g (Fin t0) (map Fin y0) (Fin h) ks tt y' ->
    exists yr er, y' = map Fin yr /\ tab_error T d g (Fin h) ks tt y' = map Fin er /\
      length yr = d /\ length er = d /\
      forall q, (q < d)%nat -> Rabs (nth q yr 0 - nth q (Y (t0 + th * h)) 0) <= C * Rabs (th * h) ^ S p /\
                               Rabs (nth q er 0) <= C * Rabs (th * h) ^ S pe.

Lemma member_ok_accurate s A b c e th p pe d : (0 < th)%Q -> member_ok s A b c e th p pe = true ->
  member_accurate (mk_tab s A b c e) (Q2R th) d p pe.
Proof.
  intros Hth0 HP F t0 y0 Y g HL Hy HF HY. apply Qlt_Rlt in Hth0. rewrite Q2R_0' in Hth0.
  destruct (member_ok_spec s A b c e th p pe HP) as (LA & LB & LC & LE & C0 & Hpe & Hlow & Hth & HV & HZ).
  set (tr := Q2R th) in *.
  destruct (weights_bound (S s) (vq b)) as (B & HB & Hb).
  destruct (uniform_q d (S p) (fun x => x = tr) (fun q x h => nth q y0 0 + h * lcomb (S s) (vq b)
     (rstages F (mq (extA A b [])) (vq (extC c [])) t0 y0 h (S s)) q - nth q (Y (t0 + x * h)) 0)) as (C1 & d1 & Hd1 & H1).
  { intros q Hq. apply (rk_order F t0 y0 p HF Y HY (S s) (mq (extA A b [])) (vq (extC c [])) Hlow (fun x => x = tr) (fun _ => vq b) B p q); try lia; auto.
    intros x ->. split; [rewrite Rabs_pos_eq; lra|]. split; [exact Hb|exact HV]. }
  destruct (uniform_q d (S pe) (fun _ : unit => True) (fun q _ h => h * lcomb (S s) (vq e)
     (rstages F (mq (extA A b [])) (vq (extC c [])) t0 y0 h (S s)) q)) as (C2 & d2 & Hd2 & H2).
  { intros q Hq. destruct (rk_small F t0 y0 p HF (S s) (mq (extA A b [])) (vq (extC c [])) Hlow (vq e) pe q) as (C & del & Hd & H); try lia; auto.
    exists C, del. split; auto. }
  (* constants for the step th*h instead of h *)
  exists (Rmax (C1 * (/ tr) ^ S p) (C2 * (/ tr) ^ S pe)), (tr * Rmin d1 d2). split; [apply Rmult_lt_0_compat; [lra|apply Rmin_case; auto]|].
  intros h ks tt y' Hh HT.
  assert (Hh' : Rabs h < Rmin d1 d2).
  { rewrite Rabs_mult, (Rabs_pos_eq tr) in Hh by lra. apply Rmult_lt_reg_l with tr; lra. }
  assert (A1 : Rabs h < d1) by (eapply Rlt_le_trans; [exact Hh'|apply Rmin_l]).
  assert (A2 : Rabs h < d2) by (eapply Rlt_le_trans; [exact Hh'|apply Rmin_r]).
  assert (Epow : forall n, Rabs h ^ n = (/ tr) ^ n * Rabs (tr * h) ^ n).
  { intros n. rewrite <- Rpow_mult_distr. f_equal. rewrite Rabs_mult, (Rabs_pos_eq tr) by lra. field. lra. }
  assert (HT0 := HT). destruct HT0 as (_ & _ & _ & Ett & _).
  destruct (textbook_real d F g s A b c e t0 y0 h ks tt y' HL Hy C0 HT) as (-> & -> & ->).
  destruct (tab_error_real d F g s A b c e t0 y0 h HL LA LB LC LE Hy) as (er & -> & Le & Ne).
  eexists. exists er. split; [reflexivity|]. split; [reflexivity|]. split; [apply rpoint_len|]. split; [exact Le|].
  intros q Hq. assert (P : forall n, 0 <= Rabs (tr * h) ^ n) by (intros; apply pow_le, Rabs_pos).
  split.
  - rewrite rpoint_nth by auto. specialize (H1 tr h eq_refl A1 q Hq).
    rewrite <- (ext_stages F A b c [] [] t0 y0 h s LA LC).
    rewrite (lcomb_ext_zero F (mq (extA A b [])) (vq (extC c [])) t0 y0 h s (S s) (vq b) q) by (try lia; intros; apply vq_overflow; lia).
    eapply Rle_trans; [exact H1|]. rewrite Epow, <- Rmult_assoc. apply Rmult_le_compat_r; auto. apply Rmax_l.
  - rewrite Ne by auto. eapply Rle_trans; [apply (H2 Datatypes.tt h I A2 q Hq)|]. rewrite Epow, <- Rmult_assoc. apply Rmult_le_compat_r; auto. apply Rmax_r.
Qed.

Theorem ck_member_accurate ord d : In ord [4%nat; 2%nat; 1%nat] ->
  let M := ck_member ord in member_accurate (mb_tab RX M) (Q2R (mb_theta M)) d (mb_p M) (mb_pe M).
Proof.
  intros H. repeat (destruct H as [<-|H]; [apply member_ok_accurate; [reflexivity|vm_compute; reflexivity]|]). destruct H.
Qed.

(** the embedded solutions used for assessment: full step, orders 1 to 5 (B_all) *)
Theorem ck_embedded_accurate p d : (1 <= p <= 5)%nat ->
  member_accurate (mk_tab 6 CKdisc_A (nth p CKdisc_B_all []) CKdisc_C []) 1 d p p.
Proof.
  intros H. assert (E : 1 = Q2R 1) by (rewrite Q2R_1'; reflexivity). rewrite E. 
  assert (Hp : p = 1%nat \/ p = 2%nat \/ p = 3%nat \/ p = 4%nat \/ p = 5%nat) by lia. clear H E.
  repeat (destruct Hp as [->|Hp]; [apply member_ok_accurate; [reflexivity|vm_compute; reflexivity]|]).
  subst p. apply member_ok_accurate; [reflexivity|vm_compute; reflexivity].
Qed.

(** ** the accepted step is the textbook step of the member *)
Lemma xadd_comm a b : xadd a b = xadd b a.
Proof. destruct a, b; simpl; try reflexivity. f_equal. ring. Qed.
Lemma vadd_comm_RX (u v : list (num RX)) : vadd u v = vadd v u.
Proof. unfold vadd. revert v. induction u as [|a u IH]; intros [|b v]; try reflexivity. cbn [map2]. rewrite IH. f_equal. apply xadd_comm. Qed.

Lemma firstn_nth_lt {X} (d0 : X) : forall s i l, (i < s)%nat -> nth i (firstn s l) d0 = nth i l d0.
Proof. induction s as [|s IH]; intros i l H; [lia|]. destruct l as [|a l]; [destruct i; reflexivity|]. destruct i as [|i]; [reflexivity|]. apply (IH i l). lia. Qed.

Lemma ck_textbook (c : Cfg RX) (s0 : St RX) H Ks s b e : f s0 = fn c (t s0) (y s0) -> ck_ok c s0 H Ks -> (1 <= s <= length Ks)%nat ->
  textbook_rk (mk_tab s (firstn s CKdisc_A) (firstn s b) (firstn s CKdisc_C) (firstn s e)) (length (y s0)) (fn c)
    (t s0) (y s0) H (firstn s Ks) (nadd RX (t s0) H) (ck_sol (lv b) s (y s0) H Ks).
Proof.
  intros HF [H0 HE] Hs. unfold textbook_rk. cbn [mk_tab r_stages r_A r_B r_C].
  split; [rewrite firstn_length; lia|]. split; [rewrite firstn_nth_lt by lia; rewrite H0; exact HF|].
  split; [|split; [reflexivity|]].
  - intros i Hi. rewrite firstn_nth_lt by lia. rewrite (HE i) by lia.
    cbn [ck_m CKdisc_meth rk_meth m_point]. unfold rk_point. cbn [fst snd].
    rewrite lincomb_eq. unfold CKdisc_tab. cbn [mk_tab r_A r_C].
    unfold lm, lv. rewrite <- !firstn_map, !(firstn_nth_lt _ s i) by lia.
    rewrite firstn_firstn, Nat.min_l by lia. reflexivity.
  - unfold ck_sol. rewrite vadd_comm_RX, lincomb_eq. unfold lv. rewrite firstn_map. reflexivity.
Qed.
Lemma firstn_wsum {A : Arith} : forall s (acc w : list (num A)) k, wsum acc (firstn s w) k = wsum acc (firstn s w) (firstn s k).
Proof.
  induction s as [|s IH]; intros acc w k; [reflexivity|].
  destruct w as [|a w]; [reflexivity|]. destruct k as [|b k]; [reflexivity|]. cbn [firstn wsum]. apply IH.
Qed.
Lemma ck_error_tab (c : Cfg RX) (s0 : St RX) H Ks s a b cc e tt yn :
  tab_error (mk_tab s a b cc (firstn s e)) (length (y s0)) (fn c) H (firstn s Ks) tt yn
    = ck_err (lv e) s (length (y s0)) H Ks.
Proof.
  unfold tab_error, ck_err. cbn [mk_tab r_stages r_E]. cbv zeta.
  assert (E0 : nth s (@lv RX (firstn s e)) n0 = n0).
  { apply nth_overflow. unfold lv. rewrite map_length, firstn_length. lia. }
  rewrite E0. replace (neqb RX n0 n0) with true.
  2:{ symmetry. rewrite RKReal.n0_RX. cbn [neqb RX xeqb]. destruct (Reqb_spec 0 0); [reflexivity|lra]. }
  cbn [negb]. rewrite lincomb_eq. unfold lv. rewrite firstn_map. reflexivity.
Qed.

(** an accepted trial *)
Lemma ck_accept_member c s ha ms rej s' ord h ha' yn : fresh c (ckb s) -> ck_trial c s ha ms rej = CkAccept s' ord h ha' yn ->
  let M := ck_member ord in let s0 := ckb s in let H := nmul RX ha (direction c) in
  In ord [4%nat; 2%nat; 1%nat] /\ exists ks,
    textbook_rk (mb_tab RX M) (length (y s0)) (fn c) (t s0) (y s0) H ks (nadd RX (t s0) H) yn /\
    nltb RX (scaled_rms (rtol c) (atol c) (y s0) yn (tab_error (mb_tab RX M) (length (y s0)) (fn c) H ks (nadd RX (t s0) H) yn)) n1 = true /\
    h = nmul RX (nmul RX ha (lit (mb_theta M))) (direction c) /\ ks = firstn (mb_stages M) (K (ckb s')) /\ nth 0 (K (ckb s')) [] = fn c (t s0) (y s0).
Proof.
  intros HF HT. pose proof (ck_trial_inv c s ha ms rej) as HI. cbv zeta in HI. rewrite HT in HI. cbv zeta.
  destruct HI as (_ & _ & _ & _ & _ & _ & Ks & EK & HO & HC).
  assert (H0 : nth 0 Ks [] = fn c (t (ckb s)) (y (ckb s))) by (rewrite (proj1 HO); exact HF).
  destruct HC as [HC|[HC|HC]].
  - destruct HC as (-> & HL & Hh & Hy & HE & _). split; [simpl; auto|]. exists (firstn 6 Ks).
    subst yn. split; [apply (ck_textbook c (ckb s) _ Ks 6 CKdisc_B CKdisc_E HF HO); lia|].
    split; [|split; [|split; [rewrite EK; reflexivity|rewrite EK; exact H0]]].
    + unfold mb_tab. cbn [ck_member mb_stages mb_b mb_e]. rewrite (ck_error_tab c (ckb s) _ Ks 6).
      destruct (CKReal.ck_E4_cases c (y (ckb s)) (nmul RX ha (direction c)) Ks) as (_ & HX); [rewrite RKReal.n1_RX in HE; exact HE|].
      rewrite RKReal.n1_RX. exact HX.
    + rewrite Hh. cbn [ck_member mb_theta]. change (nmul RX) with xmul. f_equal. unfold lit. cbn [nofQ RX].
      rewrite Q2R_1'. symmetry. destruct ha as [x| | |]; cbn [xmul]; [f_equal; ring|unfold inf_of_sign; cbn [xsgn]..|reflexivity].
      * repeat (destruct (Rlt_dec _ _); try lra); reflexivity.
      * repeat (destruct (Rlt_dec _ _); try lra); reflexivity.
  - destruct HC as (-> & HL & Hh' & Hh & _ & HCA & HE). split; [simpl; auto|]. exists (firstn 4 Ks).
    unfold ck_cand in HCA. cbv zeta in HCA. assert (HCA1 := f_equal fst HCA). cbn [fst] in HCA1. subst yn.
    split; [apply (ck_textbook c (ckb s) _ Ks 4 (nth 1 CKdisc_B_fallback []) (nth 1 CKdisc_E_fallback []) HF HO); lia|].
    split; [|split; [rewrite Hh, Hh'; reflexivity|split; [rewrite EK; reflexivity|rewrite EK; exact H0]]].
    unfold mb_tab. cbn [ck_member mb_stages mb_b mb_e]. rewrite (ck_error_tab c (ckb s) _ Ks 4). exact HE.
  - destruct HC as (-> & HL & Hh' & Hh & _ & HCA & HE). split; [simpl; auto|]. exists (firstn 2 Ks).
    unfold ck_cand in HCA. cbv zeta in HCA. assert (HCA1 := f_equal fst HCA). cbn [fst] in HCA1. subst yn.
    split; [apply (ck_textbook c (ckb s) _ Ks 2 (nth 0 CKdisc_B_fallback []) (nth 0 CKdisc_E_fallback []) HF HO); lia|].
    split; [|split; [rewrite Hh, Hh'; reflexivity|split; [rewrite EK; reflexivity|rewrite EK; exact H0]]].
    unfold mb_tab. cbn [ck_member mb_stages mb_b mb_e]. rewrite (ck_error_tab c (ckb s) _ Ks 2). exact HE.
Qed.
