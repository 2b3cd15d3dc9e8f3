(** Facts about one successful step that dense output needs, and the real value of
    a dense output call. *)
From Coq Require Import Reals Lra QArith Qreals Lia List Arith Bool FunctionalExtensionality.
From Verif Require Import Arith Common RK RKGen RKHist RX SpecRK RKSpecProofs RKTop Classes Tableaux Series Trees OrderThm OrderCheck OrderRK OrderRKN OrderModel OrderPair OrderPairN Dense DenseReal.
Import ListNotations.
Open Scope R_scope.

(** v' results from v by a successful step() call, v was reached from a freshly
    constructed solver (f = fun(t, y)) by step() calls *)
Definition made_step {A : Arith} (m : Meth A) (c : Cfg A) (v v' : Solver A) : Prop :=
  exists v0 j k, fresh c (st v0) /\ history m c v0 j v /\ ode_step k m c v = StepOk v' /\ ~ is_failed v' /\ proper c v.

Lemma made_step_told {A : Arith} (m : Meth A) c k v v' : ode_step k m c v = StepOk v' -> ~ is_failed v' -> t_old v' = Some (t (st v)).
Proof.
  intros H Hf. unfold ode_step in H. destruct (stat v); try discriminate.
  destruct (_ || _); [injection H as <-; reflexivity|].
  destruct (step_impl k m c (st v)); try discriminate; injection H as <-; [reflexivity|].
  exfalso. apply Hf. eexists. reflexivity.
Qed.

Record step_facts {A : Arith} (c : Cfg A) (v v' : Solver A) (h : num A) (ks : list (list (num A))) : Prop := {
  sf_told : t_old v' = Some (t (st v));
  sf_K : K (st v') = ks ++ [fn c (t (st v')) (y (st v'))];
  sf_yold : y_old (st v') = Some (y (st v));
  sf_fold : f_old (st v') = Some (f (st v));
  sf_h : h_previous (st v') = Some h;
  sf_f : f (st v') = fn c (t (st v')) (y (st v'));
  sf_f0 : f (st v) = fn c (t (st v)) (y (st v));
  sf_t : t (st v') = nadd A (t (st v)) h;
  sf_ne : y (st v) <> []
}.

Lemma made_step_facts {A : Arith} (m : Meth A) T n c v v' : uses_tab m T n -> made_step m c v v' ->
  exists h ks, textbook_rk T n (fn c) (t (st v)) (y (st v)) h ks (t (st v')) (y (st v')) /\ step_facts c v v' h ks.
Proof.
  intros HU (v0 & j & k & HF & HH & HS & Hnf & HP).
  assert (Hmin : min_stages m) by (apply explicit_min; econstructor; eauto).
  destruct (step_accepted m c k v v' Hmin HS Hnf HP) as (Hr & _ & h & Ks & en & HA).
  pose proof (running_fresh m c v0 j v Hmin HF HH Hr) as HFv.
  exists h, Ks. split; [eapply tab_step; eauto|]. pose proof (made_step_told m c k v v' HS Hnf). destruct HA, HP. constructor; auto.
Qed.
Lemma made_step_facts_n {A : Arith} (m : Meth A) T n c v v' : uses_tabn m T n -> made_step m c v v' ->
  exists h ks, textbook_rkn T n (fn c) (t (st v)) (y (st v)) h ks (t (st v')) (y (st v')) /\ step_facts c v v' h ks.
Proof.
  intros HU (v0 & j & k & HF & HH & HS & Hnf & HP).
  assert (Hmin : min_stages m) by (apply explicit_min; eapply ex_tabn; eauto).
  destruct (step_accepted m c k v v' Hmin HS Hnf HP) as (Hr & _ & h & Ks & en & HA).
  pose proof (running_fresh m c v0 j v Hmin HF HH Hr) as HFv.
  exists h, Ks. split; [eapply tabn_step; eauto|]. pose proof (made_step_told m c k v v' HS Hnf). destruct HA, HP. constructor; auto.
Qed.

Lemma Fin_add_inv t0 h t1 : nadd RX (Fin t0) h = Fin t1 -> h = Fin (t1 - t0).
Proof. destruct h; simpl; intros H; try discriminate H. injection H as <-. f_equal. ring. Qed.

(** ** calls *)
Lemma Fin_div x y : y <> 0 -> ndiv RX (Fin x) (Fin y) = Fin (x / y).
Proof. intros H. simpl. unfold xdiv. destruct (Req_EM_T y 0); [contradiction|reflexivity]. Qed.
Lemma scaled_time t0 h th : h <> 0 ->
  ndiv RX (nsub RX (Fin (t0 + th * h)) (Fin t0)) (nsub RX (Fin (t0 + h)) (Fin t0)) = Fin th.
Proof.
  intros H. change (nsub RX (Fin (t0 + th * h)) (Fin t0)) with (Fin (t0 + th * h - t0)).
  change (nsub RX (Fin (t0 + h)) (Fin t0)) with (Fin (t0 + h - t0)). rewrite Fin_div by lra. f_equal. field. lra.
Qed.

Lemma realsK_ext d K k k' : realsK d K k -> (forall i q, (i < length K)%nat -> (q < d)%nat -> k i q = k' i q) -> realsK d K k'.
Proof. intros H E i Hi. eapply reals_ext; [apply (H i Hi)|]. intros q Hq. apply E; auto. Qed.

Lemma horner_value d Q kq th : (0 < length Q)%nat -> realsK d Q kq ->
  reals d (horner Q (Fin th)) (fun q => rsum (length Q) (fun j => kq j q * th ^ S j)).
Proof. intros H HQ. apply horner_reals; auto. intros ->. simpl in H. lia. Qed.

Lemma call_mk_horner d t0 h th yo r0 Q kq : h <> 0 -> (0 < length Q)%nat -> reals d yo r0 -> realsK d Q kq ->
  reals d (call (mk_horner (Fin t0) (Fin (t0 + h)) yo Q) (Fin (t0 + th * h)))
    (fun q => r0 q + h * rsum (length Q) (fun j => kq j q * th ^ S j)).
Proof.
  intros Hh HL Hy HQ. unfold mk_horner. cbn [call]. cbv zeta. rewrite scaled_time by auto.
  assert (E : nsub RX (Fin (t0 + h)) (Fin t0) = Fin h) by (simpl; f_equal; ring). rewrite E.
  eapply reals_ext; [apply reals_add; [apply (horner_value d _ (fun j q => h * kq j q))|exact Hy]|].
  - rewrite map_length. exact HL.
  - apply realsK_scale. exact HQ.
  - intros q Hq. cbn beta. rewrite map_length, <- rsum_scal. rewrite Rplus_comm. f_equal. apply rsum_ext. intros; ring.
Qed.

Lemma call_horner d P t0 h th yo r0 K k : h <> 0 -> (0 < qcols P)%nat -> reals d yo r0 -> realsK d K k ->
  reals d (call (mk_horner (Fin t0) (Fin (t0 + h)) yo (KtP d K (lm P))) (Fin (t0 + th * h)))
    (fun q => r0 q + h * rsum (length K) (fun i => pw QN 1 (qcols P) P th i * k i q)).
Proof.
  intros Hh HP Hy HK. destruct (KtP_reals d P K k HK) as (L & HQ).
  eapply reals_ext; [eapply (call_mk_horner d t0 h th yo r0 _ _ Hh); [rewrite L; exact HP|exact Hy|exact HQ]|].
  intros q Hq. cbn beta. f_equal. f_equal. rewrite L.
  rewrite (rsum_ext (qcols P) _ (fun j => rsum (length K) (fun i => mq P i j * th ^ (j + 1) * k i q))).
  - rewrite rsum_swap. apply rsum_ext. intros i Hi. unfold pw. rewrite (Rmult_comm (rsum _ _)), <- rsum_scal. apply rsum_ext. intros; unfold mq; ring.
  - intros j Hj. rewrite (Rmult_comm (rsum _ _)), <- rsum_scal. apply rsum_ext. intros i Hi. rewrite Nat.add_1_r. ring.
Qed.

Lemma call_nystrom n P Pp t0 h th yo r0 K k : h <> 0 -> (0 < qcols P)%nat -> (0 < qcols Pp)%nat -> reals (n + n) yo r0 -> realsK n K k ->
  reals (n + n) (call (mk_nystrom (Fin t0) (Fin (t0 + h)) n yo (KtP n K (lm P)) (KtP n K (lm Pp))) (Fin (t0 + th * h)))
    (fun q => if Nat.ltb q n
       then r0 q + (th * h * r0 (n + q)%nat + h * (h * rsum (length K) (fun i => pw QN 2 (qcols P) P th i * k i q)))
       else r0 q + h * rsum (length K) (fun i => pw QN 1 (qcols Pp) Pp th i * k i (q - n)%nat)).
Proof.
  intros Hh HP HPp Hy HK. unfold mk_nystrom. cbn [call]. cbv zeta. rewrite scaled_time by auto.
  assert (E : nsub RX (Fin (t0 + h)) (Fin t0) = Fin h) by (simpl; f_equal; ring). rewrite E.
  change (nmul RX (Fin h) (Fin h)) with (Fin (h * h)).
  destruct (KtP_reals n P K k HK) as (L & HQ). destruct (KtP_reals n Pp K k HK) as (Lp & HQp).
  eapply reals_ext.
  - apply reals_app.
    + apply reals_add; [apply reals_mulr, reals_add; [apply horner_value; [|apply realsK_scale, HQ]|apply reals_scale, (reals_skipn n n), Hy]|apply (reals_firstn n n), Hy].
      rewrite map_length, L. exact HP.
    + apply reals_add; [apply horner_value; [|apply realsK_scale, HQp]|apply (reals_skipn n n), Hy].
      rewrite map_length, Lp. exact HPp.
  - intros q Hq. cbn beta. destruct (Nat.ltb_spec q n) as [H1|H1].
    + rewrite Rplus_comm. f_equal. rewrite Rmult_plus_distr_r, Rplus_comm. f_equal; [ring|].
      rewrite map_length, L.
      rewrite (rsum_ext (qcols P) _ (fun j => rsum (length K) (fun i => h * h * (mq P i j * th ^ (j + 1) * k i q)))).
      * rewrite rsum_swap. rewrite <- Rmult_assoc, <- rsum_scal. rewrite (Rmult_comm (rsum _ _) th), <- rsum_scal. apply rsum_ext. intros i Hi. unfold pw.
        rewrite rsum_scal. rewrite (rsum_ext (qcols P) _ (fun j => k i q * (mq P i j * th ^ (j + 1)))) by (intros; ring).
        rewrite rsum_scal. rewrite (rsum_ext (qcols P) (fun j => mR QN P i j * th ^ (j + 2)) (fun j => th * (mq P i j * th ^ (j + 1)))).
        { rewrite rsum_scal. ring. }
        intros j _. replace (j + 2)%nat with (S (j + 1)) by lia. unfold mq. simpl. ring.
      * intros j Hj. rewrite rsum_scal. rewrite (rsum_ext (length K) (fun i => mq P i j * th ^ (j + 1) * k i q) (fun i => th ^ (j + 1) * (mq P i j * k i q))) by (intros; ring).
        rewrite rsum_scal. rewrite Nat.add_1_r. ring.
    + rewrite Rplus_comm. replace (n + (q - n))%nat with q by lia. f_equal. rewrite map_length, Lp.
      rewrite (rsum_ext (qcols Pp) _ (fun j => rsum (length K) (fun i => h * (mq Pp i j * th ^ (j + 1) * k i (q - n)%nat)))).
      * rewrite rsum_swap. rewrite <- rsum_scal. apply rsum_ext. intros i Hi. unfold pw. rewrite rsum_scal.
        rewrite (rsum_ext (qcols Pp) _ (fun j => k i (q - n)%nat * (mq Pp i j * th ^ (j + 1)))) by (intros; ring). rewrite rsum_scal. unfold mq. ring.
      * intros j Hj. rewrite rsum_scal. rewrite (rsum_ext (length K) (fun i => mq Pp i j * th ^ (j + 1) * k i (q - n)%nat) (fun i => th ^ (j + 1) * (mq Pp i j * k i (q - n)%nat))) by (intros; ring).
        rewrite rsum_scal. rewrite Nat.add_1_r. ring.
Qed.

(** ** extra stages *)
Lemma ext_rows_A A b X i : (length A < i)%nat -> nth i (extA A b X) [] = nth (i - S (length A)) X [].
Proof. intros H. unfold extA. rewrite app_nth2 by lia. destruct (i - length A)%nat eqn:E; [lia|]. cbn [nth]. f_equal. lia. Qed.
Lemma ext_rows_C c x i : (length c < i)%nat -> vq (extC c x) i = vq x (i - S (length c)).
Proof. intros H. rewrite !vq_nth. unfold extC. rewrite app_nth2 by lia. destruct (i - length c)%nat eqn:E; [lia|]. cbn [nth]. f_equal. f_equal. lia. Qed.

Lemma reals_eq d v r l : reals d v r -> length l = d -> (forall q, (q < d)%nat -> nth q l 0 = r q) -> v = map Fin l.
Proof. intros (l' & -> & L & N) Ll Hl. f_equal. apply nth_eq_list; [congruence|]. intros q Hq. rewrite N, Hl; auto; congruence. Qed.

Lemma realsK_stages d F g A c t y h m : lifts d F g -> length y = d ->
  realsK d (map (map Fin) (rstages F A c t y h m)) (fun i q => nth q (nth i (rstages F A c t y h m) []) 0).
Proof. intros HL Ly. apply realsK_fin. apply (rstages_Forall d); auto. intros; apply HL; auto. Qed.

Lemma extra_point d F g A b X cx t y h m z r : lifts d F g -> length y = d -> nth m (extA A b X) [] = r ->
  vadd (map Fin y) (map (fun a => nmul RX a (Fin h)) (lincomb d (firstn m (lv r)) (map (map Fin) (rstages F (mq (extA A b X)) cx t y h m))))
  = map Fin (rpoint d y h (lcomb m (mq (extA A b X) m) (rstages F (mq (extA A b X)) cx t y h m))) /\
  nadd RX (Fin t) (nmul RX (lit z) (Fin h)) = Fin (t + Q2R z * h).
Proof.
  intros HL Ly Er. split; [|reflexivity]. rewrite lv_fin, !firstn_map.
  pose proof (lincomb_reals d (map Q2R (firstn m r)) _ _ (realsK_stages d F g (mq (extA A b X)) cx t y h m HL Ly)) as HR.
  apply (reals_mulr d h) in HR. pose proof (reals_add d _ _ _ _ (reals_intro d y Ly) HR) as HR2.
  eapply reals_eq; [exact HR2|apply rpoint_len|]. intros q Hq. rewrite rpoint_nth by auto. cbn beta. f_equal. rewrite Rmult_comm. f_equal.
  rewrite map_length, rstages_length. unfold lcomb. apply rsum_ext. intros l Hl. f_equal.
  rewrite nth_Q2R, vq_nth, nth_firstn_lt by auto. unfold mq, mR, vR. cbn [cv QN c_0]. rewrite <- Er. reflexivity.
Qed.

Lemma extra_stages_real d F g A b c X x t y h : lifts d F g -> length A = length c -> length y = d -> length x = length X ->
  forall X2 X1 x1 x2 cl, X = X1 ++ X2 -> x = x1 ++ x2 -> length X1 = length x1 ->
  exists cl', extra_stages g d (Fin t) (map Fin y) (Fin h) (lm X2) (lv x2)
    (map (map Fin) (rstages F (mq (extA A b X)) (vq (extC c x)) t y h (S (length A) + length X1))) cl
  = (map (map Fin) (rstages F (mq (extA A b X)) (vq (extC c x)) t y h (S (length A) + length X)), cl').
Proof.
  intros HL LC Ly Lx X2.
  induction X2 as [|r X2 IH]; intros X1 x1 x2 cl EX Ex L1.
  - exists cl. rewrite EX, app_nil_r. reflexivity.
  - destruct x2 as [|z x2]; [exfalso; rewrite EX, Ex, !app_length in Lx; simpl in Lx; lia|].
    cbn [lm lv map extra_stages].
    set (m := (S (length A) + length X1)%nat).
    assert (LK : @length (list (num RX)) (map (map Fin) (rstages F (mq (extA A b X)) (vq (extC c x)) t y h m)) = m) by (rewrite map_length, rstages_length; reflexivity).
    assert (Ec : vq (extC c x) m = Q2R z).
    { rewrite ext_rows_C by (unfold m; lia). rewrite vq_nth, Ex. replace (m - S (length c))%nat with (length x1) by (unfold m; lia).
      rewrite app_nth2, Nat.sub_diag by lia. reflexivity. }
    assert (Er : nth m (extA A b X) [] = r).
    { rewrite ext_rows_A by (unfold m; lia). rewrite EX. replace (m - S (length A))%nat with (length X1) by (unfold m; lia).
      rewrite app_nth2, Nat.sub_diag by lia. reflexivity. }
    destruct (extra_point d F g A b X (vq (extC c x)) t y h m z r HL Ly Er) as (E1 & E2).
    destruct (IH (X1 ++ [r]) (x1 ++ [z]) x2 (cl ++ [(Fin (t + Q2R z * h), map Fin (rpoint d y h (lcomb m (mq (extA A b X) m) (rstages F (mq (extA A b X)) (vq (extC c x)) t y h m))))])) as (cl' & HE);
      [rewrite <- app_assoc; auto|rewrite <- app_assoc; auto|rewrite !app_length; simpl; lia|].
    exists cl'. rewrite <- HE.
    replace (S (length A) + length (X1 ++ [r]))%nat with (S m) by (rewrite app_length; simpl; unfold m; lia).
    cbn [rstages]. rewrite map_app. cbn [map].
    assert (EG : g (Fin (t + Q2R z * h)) (map Fin (rpoint d y h (lcomb m (mq (extA A b X) m) (rstages F (mq (extA A b X)) (vq (extC c x)) t y h m))))
      = map Fin (F (t + vq (extC c x) m * h) (rpoint (length y) y h (lcomb m (mq (extA A b X) m) (rstages F (mq (extA A b X)) (vq (extC c x)) t y h m))))).
    { rewrite Ly, Ec. apply HL. apply rpoint_len. }
    rewrite <- EG. fold (lm (A := RX) X2) (lv (A := RX) x2) (lv (A := RX) r). cbn [fst snd]. unfold lm at 1. fold (lm (A := RX) X2).
    rewrite LK. rewrite E2. rewrite E1. reflexivity.
Qed.
