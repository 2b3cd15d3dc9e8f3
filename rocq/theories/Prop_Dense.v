(** C22, C23: dense outputs pass through the ends of the step with the slopes of the
    right-hand side; consecutive pieces join; Hermite outputs reproduce polynomials. *)
From Coq Require Import String Reals Lra Psatz QArith Qreals Lia List Arith Bool.
From Verif Require Import Arith Common RK RKGen RKHist RX SpecRK RKSpecProofs RKTop Classes Tableaux Series Trees OrderThm OrderCheck
  OrderRK OrderRKN OrderModel OrderPair OrderPairN Dense DenseReal DenseStep DenseAcc DenseAccN DenseJoin DenseJoin2.
Import ListNotations.
Close Scope string_scope.
Open Scope nat_scope.
Open Scope R_scope.

(** ** C22 *)
Definition smooth_dense (d : nat) : list (Tab RX * dimpl RX) :=
  [(BS5_tab, dense_bs5 Best d); (BS5_tab, dense_bs5 Low d); (BS5_tab, dense_bs5 Free d); (CK5_tab, dense_rk d (lm CK5_P));
   (Me4_tab, dense_rk d (lm Me4_P)); (Pr7_tab, dense_rk d (lm Pr7_P)); (CFMR7osc_tab, dense_rk d (lm CFMR7osc_P));
   (* the default of a class without interpolant *)
   (BS5_tab, dense_cubic); (CK5_tab, dense_cubic); (Me4_tab, dense_cubic); (Pr7_tab, dense_cubic); (CFMR7osc_tab, dense_cubic);
   (Ts5_tab, dense_cubic); (Pr8_tab, dense_cubic); (Pr9_tab, dense_cubic)].
Theorem C22_joins T impl d : In (T, impl) (smooth_dense d) -> dense_joins T impl d.
Proof.
  intros H.
  destruct H as [E|H]; [apply pair_equal_spec in E; destruct E as [<- <-]; apply bs5_best_joins|].
  destruct H as [E|H]; [apply pair_equal_spec in E; destruct E as [<- <-]; cbn [dense_bs5]; rewrite dense_bs5_low_xrk; apply (horner_joins BS5_n_stages BS5_A BS5_B BS5_C BS5_E (firstn 1 BS5_A_extra) (firstn 1 BS5_C_extra) BS5_Plow d); [vm_compute; reflexivity|exact (horner_impl_xrk d _ _ BS5_Plow)]|].
  destruct H as [E|H]; [apply pair_equal_spec in E; destruct E as [<- <-]; cbn [dense_bs5]; apply (horner_joins BS5_n_stages BS5_A BS5_B BS5_C BS5_E [] [] BS5_P d); [vm_compute; reflexivity|exact (horner_impl_rk d BS5_P)]|].
  destruct H as [E|H]; [apply pair_equal_spec in E; destruct E as [<- <-]; apply (horner_joins CK5_n_stages CK5_A CK5_B CK5_C CK5_E [] [] CK5_P d); [vm_compute; reflexivity|exact (horner_impl_rk d CK5_P)]|].
  destruct H as [E|H]; [apply pair_equal_spec in E; destruct E as [<- <-]; apply (horner_joins Me4_n_stages Me4_A Me4_B Me4_C Me4_E [] [] Me4_P d); [vm_compute; reflexivity|exact (horner_impl_rk d Me4_P)]|].
  destruct H as [E|H]; [apply pair_equal_spec in E; destruct E as [<- <-]; apply (horner_joins Pr7_n_stages Pr7_A Pr7_B Pr7_C Pr7_E [] [] Pr7_P d); [vm_compute; reflexivity|exact (horner_impl_rk d Pr7_P)]|].
  destruct H as [E|H]; [apply pair_equal_spec in E; destruct E as [<- <-]; apply (horner_joins CFMR7osc_n_stages CFMR7osc_A CFMR7osc_B CFMR7osc_C CFMR7osc_E [] [] CFMR7osc_P d); [vm_compute; reflexivity|exact (horner_impl_rk d CFMR7osc_P)]|].
  destruct H as [E|H]; [apply pair_equal_spec in E; destruct E as [<- <-]; apply (cubic_joins BS5_n_stages BS5_A BS5_B BS5_C BS5_E); vm_compute; reflexivity|].
  destruct H as [E|H]; [apply pair_equal_spec in E; destruct E as [<- <-]; apply (cubic_joins CK5_n_stages CK5_A CK5_B CK5_C CK5_E); vm_compute; reflexivity|].
  destruct H as [E|H]; [apply pair_equal_spec in E; destruct E as [<- <-]; apply (cubic_joins Me4_n_stages Me4_A Me4_B Me4_C Me4_E); vm_compute; reflexivity|].
  destruct H as [E|H]; [apply pair_equal_spec in E; destruct E as [<- <-]; apply (cubic_joins Pr7_n_stages Pr7_A Pr7_B Pr7_C Pr7_E); vm_compute; reflexivity|].
  destruct H as [E|H]; [apply pair_equal_spec in E; destruct E as [<- <-]; apply (cubic_joins CFMR7osc_n_stages CFMR7osc_A CFMR7osc_B CFMR7osc_C CFMR7osc_E); vm_compute; reflexivity|].
  destruct H as [E|H]; [apply pair_equal_spec in E; destruct E as [<- <-]; apply (cubic_joins Ts5_n_stages Ts5_A Ts5_B Ts5_C Ts5_E); vm_compute; reflexivity|].
  destruct H as [E|H]; [apply pair_equal_spec in E; destruct E as [<- <-]; apply (cubic_joins Pr8_n_stages Pr8_A Pr8_B Pr8_C Pr8_E); vm_compute; reflexivity|].
  destruct H as [E|H]; [apply pair_equal_spec in E; destruct E as [<- <-]; apply (cubic_joins Pr9_n_stages Pr9_A Pr9_B Pr9_C Pr9_E); vm_compute; reflexivity|].
  destruct H.
Qed.

Definition smooth_dense_nystrom (n : nat) : list (TabN RX * dimpl RX * bool * bool) :=
  [(Fi5N_tab, dense_fi5n 1 n, false, true); (Fi5N_tab, dense_fi5n 2 n, true, false); (MR6NN_tab, dense_rkn n (lm MR6NN_P) (lm MR6NN_Pp), true, true);
   (Fi4N_tab, dense_quintic n, true, true); (Fi5N_tab, dense_fi5n 0 n, true, true); (Mu5Nmb_tab, dense_mu5 true n, true, true); (MR6NN_tab, dense_quintic n, true, true);
   (Mu5Nmb_tab, dense_mu5 false n, true, true)].
Theorem C22_joins_nystrom T impl keeps vd n : In (T, impl, keeps, vd) (smooth_dense_nystrom n) -> dense_joins_n T impl n keeps vd.
Proof.
  intros H.
  destruct H as [E|H]; [apply pair_equal_spec in E; destruct E as [E <-]; apply pair_equal_spec in E; destruct E as [E <-]; apply pair_equal_spec in E; destruct E as [<- <-]; apply (nystrom_joins Fi5N_n_stages Fi5N_A Fi5N_Ap Fi5N_B Fi5N_Bp Fi5N_C Fi5N_E Fi5N_Ep Fi5N_A_extra1 Fi5N_Ap_extra1 Fi5N_C_extra1 Fi5N_P1 Fi5N_Pp1 n _ false true Fi5N_Bi);
    [reflexivity|reflexivity|reflexivity|reflexivity|reflexivity|reflexivity|reflexivity|reflexivity|cbv; lia|vm_compute; reflexivity|exact (nystrom_impl_fi5n 1 n ltac:(lia))|apply nystrom_state_fi5n1]|].
  destruct H as [E|H]; [apply pair_equal_spec in E; destruct E as [E <-]; apply pair_equal_spec in E; destruct E as [E <-]; apply pair_equal_spec in E; destruct E as [<- <-]; apply (nystrom_joins Fi5N_n_stages Fi5N_A Fi5N_Ap Fi5N_B Fi5N_Bp Fi5N_C Fi5N_E Fi5N_Ep Fi5N_A_extra2 Fi5N_Ap_extra2 Fi5N_C_extra2 Fi5N_P2 Fi5N_Pp2 n _ true false []);
    [reflexivity|reflexivity|reflexivity|reflexivity|reflexivity|reflexivity|reflexivity|reflexivity|cbv; lia|vm_compute; reflexivity|exact (nystrom_impl_fi5n 2 n ltac:(lia))|apply nystrom_state_fi5n2]|].
  destruct H as [E|H]; [apply pair_equal_spec in E; destruct E as [E <-]; apply pair_equal_spec in E; destruct E as [E <-]; apply pair_equal_spec in E; destruct E as [<- <-]; apply (nystrom_joins MR6NN_n_stages MR6NN_A MR6NN_Ap MR6NN_B MR6NN_Bp MR6NN_C MR6NN_E MR6NN_Ep [] [] [] MR6NN_P MR6NN_Pp n _ true true []);
    [reflexivity|reflexivity|reflexivity|reflexivity|reflexivity|reflexivity|reflexivity|reflexivity|cbv; lia|vm_compute; reflexivity|exact (nystrom_impl_free n MR6NN_P MR6NN_Pp)|apply nystrom_state_free]|].
  destruct H as [E|H]; [apply pair_equal_spec in E; destruct E as [E <-]; apply pair_equal_spec in E; destruct E as [E <-]; apply pair_equal_spec in E; destruct E as [<- <-]; apply (quintic_joins Fi4N_n_stages Fi4N_A Fi4N_Ap Fi4N_B Fi4N_Bp Fi4N_C Fi4N_E Fi4N_Ep n); reflexivity|].
  destruct H as [E|H]; [apply pair_equal_spec in E; destruct E as [E <-]; apply pair_equal_spec in E; destruct E as [E <-]; apply pair_equal_spec in E; destruct E as [<- <-]; apply (quintic_joins Fi5N_n_stages Fi5N_A Fi5N_Ap Fi5N_B Fi5N_Bp Fi5N_C Fi5N_E Fi5N_Ep n); reflexivity|].
  destruct H as [E|H]; [apply pair_equal_spec in E; destruct E as [E <-]; apply pair_equal_spec in E; destruct E as [E <-]; apply pair_equal_spec in E; destruct E as [<- <-]; apply (quintic_joins Mu5Nmb_n_stages Mu5Nmb_A Mu5Nmb_Ap Mu5Nmb_B Mu5Nmb_Bp Mu5Nmb_C Mu5Nmb_E Mu5Nmb_Ep n); reflexivity|].
  destruct H as [E|H]; [apply pair_equal_spec in E; destruct E as [E <-]; apply pair_equal_spec in E; destruct E as [E <-]; apply pair_equal_spec in E; destruct E as [<- <-]; apply (quintic_joins MR6NN_n_stages MR6NN_A MR6NN_Ap MR6NN_B MR6NN_Bp MR6NN_C MR6NN_E MR6NN_Ep n); reflexivity|].
  destruct H as [E|H]; [apply pair_equal_spec in E; destruct E as [E <-]; apply pair_equal_spec in E; destruct E as [E <-]; apply pair_equal_spec in E; destruct E as [<- <-]; apply (nystrom_joins Mu5Nmb_n_stages Mu5Nmb_A Mu5Nmb_Ap Mu5Nmb_B Mu5Nmb_Bp Mu5Nmb_C Mu5Nmb_E Mu5Nmb_Ep [Mu5Nmb_A_extra] [Mu5Nmb_Ap_extra] [Mu5Nmb_C_extra] Mu5Nmb_P_better Mu5Nmb_Pp_better n _ true true []);
    [reflexivity|reflexivity|reflexivity|reflexivity|reflexivity|reflexivity|reflexivity|reflexivity|apply Nat.leb_le; reflexivity|vm_compute; reflexivity|exact (nystrom_impl_mu5 n)|apply nystrom_state_mu5]|].
  destruct H.
Qed.

(** Two consecutive steps: the dense outputs of both exist; at the common time t1 they
    have the same value, the solution there, and the same slope, fun there. *)
Theorem C22_continuously_differentiable T impl d F g m c v v' v'' t0 y0 t1 t2 : In (T, impl) (smooth_dense d) ->
  lifts d F g -> uses_tab m T d -> fn c = g -> made_step m c v v' -> made_step m c v' v'' ->
  length y0 = d -> t (st v) = Fin t0 -> y (st v) = map Fin y0 -> t (st v') = Fin t1 -> t (st v'') = Fin t2 -> t1 <> t0 -> t2 <> t1 ->
  exists D1 s1 D2 s2 r1 r2 y1, dense_output impl c v' = DenseOk D1 s1 /\ dense_output impl c v'' = DenseOk D2 s2 /\
    (forall x, call D1 (Fin x) = map Fin (r1 x)) /\ (forall x, call D2 (Fin x) = map Fin (r2 x)) /\
    y (st v') = map Fin y1 /\ r1 t1 = y1 /\ r2 t1 = y1 /\
    forall q, (q < d)%nat -> derivable_pt_lim (fun x => nth q (r1 x) 0) t1 (nth q (F t1 y1) 0) /\
                             derivable_pt_lim (fun x => nth q (r2 x) 0) t1 (nth q (F t1 y1) 0).
Proof.
  intros HIn HL HU Hg HM HM2 Hy E0 Ey E1 E2 Hn1 Hn2.
  pose proof (C22_joins T impl d HIn) as HJ.
  destruct (HJ F g m c v v' t0 y0 t1 HL HU HM Hg Hy E0 Ey E1 Hn1) as (D1 & s1 & y1 & A1 & A2 & A3 & r1 & B1 & B2 & B3 & B4).
  assert (L1 : length y1 = d) by (rewrite <- B3; apply B1).
  destruct (HJ F g m c v' v'' t1 y1 t2 HL HU HM2 Hg L1 E1 A2 E2 Hn2) as (D2 & s2 & y2 & A1' & A2' & A3' & r2 & B1' & B2' & B3' & B4').
  exists D1, s1, D2, s2, r1, r2, y1. split; [exact A1|]. split; [exact A1'|]. split; [intros; apply B1|]. split; [intros; apply B1'|].
  split; [exact A2|]. split; [exact B3|]. split; [exact B2'|]. intros q Hq. split; [apply B4|apply B4']; auto.
Qed.

(** ** nearly smooth: the interpolants with decimal coefficients.  The value at t_old and
    the slope there are exact; the value at t and the slope there are off by at most eps
    times the sum of the stages' magnitudes. *)
Definition dense_nearly_joins (T : Tab RX) (impl : dimpl RX) (d : nat) (eps : R) : Prop :=
  forall F g m c v v' t0 y0 t1, lifts d F g -> uses_tab m T d -> made_step m c v v' -> fn c = g ->
    length y0 = d -> t (st v) = Fin t0 -> y (st v) = map Fin y0 -> t (st v') = Fin t1 -> t1 <> t0 ->
    exists D s' y1 ks r, dense_output impl c v' = DenseOk D s' /\ y (st v') = map Fin y1 /\ K (st v') = map (map Fin) ks /\
      (forall x, call D (Fin x) = map Fin (r x) /\ length (r x) = d) /\ r t0 = y0 /\
      forall q, (q < d)%nat -> derivable_pt_lim (fun x => nth q (r x) 0) t0 (nth q (F t0 y0) 0) /\
        Rabs (nth q (r t1) 0 - nth q y1 0) <= Rabs (t1 - t0) * (eps * rsum (length ks) (fun i => Rabs (nth q (nth i ks []) 0))) /\
        exists l, derivable_pt_lim (fun x => nth q (r x) 0) t1 l /\
          Rabs (l - nth q (F t1 y1) 0) <= eps * rsum (length ks) (fun i => Rabs (nth q (nth i ks []) 0)).

Definition Qnear (e a b : Q) : bool := Qle_bool (a - b) e && Qle_bool (b - a) e.
Lemma Qnear_spec e a b : Qnear e a b = true -> Rabs (Q2R a - Q2R b) <= Q2R e.
Proof.
  unfold Qnear. rewrite andb_true_iff. intros [H1 H2]. apply Qle_bool_iff in H1, H2. apply Qle_Rle in H1, H2. rewrite Q2R_minus in H1, H2. apply Rabs_le. lra.
Qed.
Definition near_ok (e : Q) (s : nat) (A : list (list Q)) (b c : list Q) (P : list (list Q)) : bool :=
  ext_ok s A b c [] [] && Nat.leb 1 (qcols P) && forallb (fun r => Nat.eqb (length r) (qcols P)) P && Nat.eqb (length P) (S s) && Nat.leb 1 s &&
  forallb (fun i => Qnear e (qsum (nth i P [])) (nth i b 0%Q) && Qeq_bool (nth 0 (nth i P []) 0%Q) (qdelta 0 i) && Qnear e (qdsum 1 (nth i P [])) (qdelta s i)) (seq 0 (S s)).

Lemma rsum_abs_le N f g : (forall i, (i < N)%nat -> Rabs (f i) <= g i) -> Rabs (rsum N f) <= rsum N g.
Proof.
  induction N as [|N IH]; intros H; cbn [rsum]; [rewrite Rabs_R0; lra|]. eapply Rle_trans; [apply Rabs_triang|].
  apply Rplus_le_compat; [apply IH; intros; apply H; lia|apply H; lia].
Qed.

Theorem nearly_joins e s A b c E P d : near_ok e s A b c P = true -> dense_nearly_joins (mk_tab s A b c E) (dense_rk d (lm P)) d (Q2R e).
Proof.
  intros H F g m cf v v' t0 y0 t1 HL HU HM Hg Hy E0 Ey E1 Hne.
  unfold near_ok in H. rewrite !andb_true_iff in H. destruct H as (((((He & Hc) & HR) & HLn) & Hs) & HC).
  apply Nat.leb_le in Hc, Hs. apply Nat.eqb_eq in HLn. rewrite forallb_forall in HC, HR.
  destruct (ext_ok_spec s A b c [] [] He) as (LA & LB & LC & Lx & C0 & _ & _ & _).
  assert (Hd : (0 < d)%nat) by (apply (y0_pos y0 d Hy); rewrite <- Ey; apply (made_step_ne m cf v v' HM)).
  destruct (made_step_real d F g s A b c E m cf v v' t0 y0 t1 HL Hy Hd LA LB LC C0 HU HM Hg E0 Ey E1) as (ks & SF & EY & EK).
  set (h := t1 - t0) in *. set (yn := rpoint d y0 h (lcomb s (vq b) (rstages F (mq A) (vq c) t0 y0 h s))) in *.
  rewrite (dense_enter _ cf v v' _ ks t0 t1 SF E0 E1 Hne) by (rewrite EY, map_length; unfold yn; rewrite rpoint_len; lia).
  unfold dense_rk. rewrite (sf_yold _ _ _ _ _ SF), EK, E1, Ey.
  set (RSs := rstages F (mq (extA A b [])) (vq (extC c [])) t0 y0 h (S s)) in *.
  assert (LR : length RSs = S s) by apply rstages_length.
  assert (Hh : h <> 0) by (unfold h; lra).
  set (k i q := nth q (nth i RSs []) 0).
  set (val x := wval (S s) (pw QN 1 (qcols P) P) (fun q => nth q y0 0) k t0 h x).
  eexists. eexists. exists yn, RSs, (fun x => ind d (val x)). split; [reflexivity|]. split; [exact EY|]. split; [reflexivity|].
  assert (T1 : (t1 - t0) / h = 1) by (unfold h; field; unfold h in Hh; auto).
  assert (T0 : (t0 - t0) / h = 0) by (field; auto).
  assert (EA : RSs = rstages F (mq A) (vq c) t0 y0 h s ++ [F t1 yn]).
  { unfold RSs. rewrite (ext_all d F g A b c t0 y0 h s HL LA LB LC Hy). fold yn. replace (t0 + h) with t1 by (unfold h; ring). reflexivity. }
  assert (HP : forall i, (i < S s)%nat -> pw QN 1 (qcols P) P 0 i = 0 /\ Rabs (pw QN 1 (qcols P) P 1 i - vq b i) <= Q2R e /\
     dpw 1 (qcols P) P 0 i = delta 0 i /\ Rabs (dpw 1 (qcols P) P 1 i - delta s i) <= Q2R e).
  { intros i Hi. specialize (HC i ltac:(apply in_seq; lia)). rewrite !andb_true_iff in HC. destruct HC as ((C1 & C2) & C3).
    apply Qeq_bool_eq, Qeq_eqR in C2. apply Qnear_spec in C1, C3.
    assert (Lr : length (nth i P []) = qcols P) by (apply Nat.eqb_eq, HR, nth_In; lia).
    assert (EM : forall j, mR QN P i j = Q2R (nth j (nth i P []) 0%Q)) by reflexivity.
    split; [|split; [|split]].
    - unfold pw. apply rsum_zero. intros j _. rewrite pow_ne_zero by lia. ring.
    - unfold pw. rewrite (rsum_ext _ _ (fun j => Q2R (nth j (nth i P []) 0%Q))) by (intros; rewrite pow1, EM, Rmult_1_r; reflexivity).
      rewrite (qsum_rsum _ _ Lr), vq_nth. exact C1.
    - unfold dpw. destruct (qcols P) as [|n] eqn:EQ; [lia|]. rewrite rsum_split. rewrite rsum_zero.
      2:{ intros j _. replace (S j + 1 - 1)%nat with (S j) by lia. rewrite pow_ne_zero by lia. ring. }
      cbn [Nat.add Nat.sub pow]. change (mq P i 0) with (Q2R (nth 0 (nth i P []) 0%Q)). rewrite C2, qdelta_delta. simpl. ring.
    - unfold dpw. rewrite <- qdelta_delta. rewrite (rsum_ext _ _ (fun j => Q2R (nth j (nth i P []) 0%Q) * INR (j + Pos.to_nat 1))).
      + rewrite (qdsum_rsum _ _ 1 Lr). exact C3.
      + intros j _. rewrite pow1. change (mq P i j) with (Q2R (nth j (nth i P []) 0%Q)). rewrite Rmult_1_r. reflexivity. }
  split; [|split].
  - intros z. split; [|apply ind_len]. pose proof (call_horner d P t0 h ((z - t0) / h) (map Fin y0) _ _ _ Hh Hc (reals_intro d y0 Hy)
     (realsK_stages d F g (mq (extA A b [])) (vq (extC c [])) t0 y0 h (S s) HL Hy)) as HQ.
    replace (t0 + h) with t1 in HQ by (unfold h; ring). replace (t0 + (z - t0) / h * h) with z in HQ by (field; auto).
    destruct HQ as (r & Er & Lr & Nr). fold RSs in Er. rewrite Er. f_equal. apply nth_eq_list; [rewrite ind_len; auto|]. intros q Hq. rewrite ind_nth by congruence. rewrite Nr by congruence.
    rewrite map_length. fold RSs. rewrite LR. reflexivity.
  - apply nth_eq_list; [rewrite ind_len; auto|]. intros q Hq. rewrite ind_len in Hq. rewrite ind_nth by auto. unfold val, wval. rewrite T0. rewrite rsum_zero; [ring|].
    intros i Hi. destruct (HP i Hi) as (-> & _). ring.
  - intros q Hq. rewrite LR. split; [|split].
    + apply (derivable_pt_lim_ext (fun x => val x q)); [intros x; symmetry; apply ind_nth; auto|].
      pose proof (wval_lim (S s) (pw QN 1 (qcols P) P) (dpw 1 (qcols P) P 0) (fun q => nth q y0 0) k t0 h 0 q Hh (fun i _ => dlim_pw 1 _ _ i 0 ltac:(lia))) as L. rewrite Rmult_0_l, Rplus_0_r in L.
      rewrite (rsum_ext (S s) _ (fun i => delta 0 i * k i q)) in L by (intros i Hi; destruct (HP i Hi) as (_ & _ & -> & _); reflexivity). rewrite (rsum_delta (S s) 0 (fun i => k i q)) in L by lia.
      unfold k in L at 2. unfold RSs in L at 1. rewrite rstages_nth0 in L; [exact L|lia|].
      rewrite vq_nth. unfold extC. rewrite app_nth1 by lia. rewrite C0. apply Q2R_0'.
    + rewrite ind_nth by auto. unfold val, wval. rewrite T1. unfold yn. rewrite rpoint_nth by auto.
      replace (lcomb s (vq b) (rstages F (mq A) (vq c) t0 y0 h s) q) with (rsum (S s) (fun i => vq b i * k i q)).
      2:{ change (rsum (S s) (fun i => vq b i * k i q)) with (lcomb (S s) (vq b) RSs q). rewrite <- (ext_stages F A b c [] [] t0 y0 h s LA LC). symmetry. apply lcomb_ext_zero; [lia|]. intros l Hl. apply vq_overflow. lia. }
      match goal with |- Rabs ?z <= _ => replace z with (h * rsum (S s) (fun i => (pw QN 1 (qcols P) P 1 i - vq b i) * k i q)) end.
      2:{ rewrite (rsum_ext (S s) (fun i => (pw QN 1 (qcols P) P 1 i - vq b i) * k i q) (fun i => pw QN 1 (qcols P) P 1 i * k i q + - 1 * (vq b i * k i q))) by (intros; ring).
          rewrite rsum_plus, rsum_scal. ring. }
      rewrite Rabs_mult. apply Rmult_le_compat_l; [apply Rabs_pos|]. rewrite <- rsum_scal. apply rsum_abs_le. intros i Hi. rewrite Rabs_mult. apply Rmult_le_compat_r; [apply Rabs_pos|]. apply HP; auto.
    + exists (rsum (S s) (fun i => dpw 1 (qcols P) P 1 i * k i q)). split.
      * apply (derivable_pt_lim_ext (fun x => val x q)); [intros x; symmetry; apply ind_nth; auto|].
        pose proof (wval_lim (S s) (pw QN 1 (qcols P) P) (dpw 1 (qcols P) P 1) (fun q => nth q y0 0) k t0 h 1 q Hh (fun i _ => dlim_pw 1 _ _ i 1 ltac:(lia))) as L.
        replace (t0 + 1 * h) with t1 in L by (unfold h; ring). exact L.
      * replace (nth q (F t1 yn) 0) with (rsum (S s) (fun i => delta s i * k i q)).
        2:{ rewrite (rsum_delta (S s) s (fun i => k i q)) by lia. unfold k. rewrite EA. rewrite app_nth2 by (rewrite rstages_length; lia). rewrite rstages_length, Nat.sub_diag. reflexivity. }
        match goal with |- Rabs ?z <= _ => replace z with (rsum (S s) (fun i => (dpw 1 (qcols P) P 1 i - delta s i) * k i q)) end.
        2:{ rewrite (rsum_ext (S s) (fun i => (dpw 1 (qcols P) P 1 i - delta s i) * k i q) (fun i => dpw 1 (qcols P) P 1 i * k i q + - 1 * (delta s i * k i q))) by (intros; ring).
            rewrite rsum_plus, rsum_scal. ring. }
        rewrite <- rsum_scal. apply rsum_abs_le. intros i Hi. rewrite Rabs_mult. apply Rmult_le_compat_r; [apply Rabs_pos|]. apply HP; auto.
Qed.

Definition decimal_dense (d : nat) : list (Tab RX * dimpl RX * Q) :=
  [(Ts5_tab, dense_rk d (lm Ts5_P), (1 # 10 ^ 13)%Q); (Pr8_tab, dense_rk d (lm Pr8_P), (1 # 10 ^ 24)%Q); (Pr9_tab, dense_rk d (lm Pr9_P), (1 # 10 ^ 24)%Q)].
Theorem C22_nearly_joins T impl e d : In (T, impl, e) (decimal_dense d) -> dense_nearly_joins T impl d (Q2R e).
Proof.
  intros H.
  destruct H as [E|H]; [apply pair_equal_spec in E; destruct E as [E <-]; apply pair_equal_spec in E; destruct E as [<- <-]; apply (nearly_joins (1 # 10 ^ 13)%Q Ts5_n_stages Ts5_A Ts5_B Ts5_C Ts5_E Ts5_P d); vm_compute; reflexivity|].
  destruct H as [E|H]; [apply pair_equal_spec in E; destruct E as [E <-]; apply pair_equal_spec in E; destruct E as [<- <-]; apply (nearly_joins (1 # 10 ^ 24)%Q Pr8_n_stages Pr8_A Pr8_B Pr8_C Pr8_E Pr8_P d); vm_compute; reflexivity|].
  destruct H as [E|H]; [apply pair_equal_spec in E; destruct E as [E <-]; apply pair_equal_spec in E; destruct E as [<- <-]; apply (nearly_joins (1 # 10 ^ 24)%Q Pr9_n_stages Pr9_A Pr9_B Pr9_C Pr9_E Pr9_P d); vm_compute; reflexivity|].
  destruct H.
Qed.

(** ** C23 *)
Theorem C23_cubic (a b c d : R) t0 t1 x : t1 <> t0 ->
  let p z := a + b * z + c * z ^ 2 + d * z ^ 3 in let p' z := b + 2 * c * z + 3 * d * z ^ 2 in
  call (mk_cubic (Fin t0) (Fin t1) [Fin (p t0)] [Fin (p t1)] [Fin (p' t0)] [Fin (p' t1)]) (Fin x) = [Fin (p x)].
Proof. exact (cubic_reproduces a b c d t0 t1 x). Qed.
Theorem C23_quintic (a b c d e f : R) t0 t1 x : t1 <> t0 ->
  let p z := a + b * z + c * z ^ 2 + d * z ^ 3 + e * z ^ 4 + f * z ^ 5 in
  let p' z := b + 2 * c * z + 3 * d * z ^ 2 + 4 * e * z ^ 3 + 5 * f * z ^ 4 in
  let p'' z := 2 * c + 6 * d * z + 12 * e * z ^ 2 + 20 * f * z ^ 3 in
  call (mk_quintic (Fin t0) (Fin t1) 1 [Fin (p t0); Fin (p' t0)] [Fin (p t1); Fin (p' t1)] [Fin (p'' t0)] [Fin (p'' t1)]) (Fin x) = [Fin (p x); Fin (p' x)].
Proof. exact (quintic_reproduces a b c d e f t0 t1 x). Qed.
(** the velocity part is the derivative of the displacement part, for any data *)
Theorem C23_quintic_velocity n t0 t1 yo y fo f : t1 <> t0 -> length yo = (n + n)%nat -> length y = (n + n)%nat -> length fo = n -> length f = n ->
  velocity_is_derivative n (mk_quintic (Fin t0) (Fin t1) n (map Fin yo) (map Fin y) (map Fin fo) (map Fin f)).
Proof. intros Hn H1 H2 H3 H4. exact (proj2 (quintic_facts n _ t0 t1 yo y fo f Hn H1 H2 H3 H4 eq_refl)). Qed.
(** the Horner scheme computes sum_j Q_j x^(j+1), componentwise *)
Theorem C23_horner d (rows : list (list R)) (x : R) : rows <> [] -> Forall (fun r => length r = d) rows ->
  exists v, horner (map (map Fin) rows) (Fin x : num RX) = map Fin v /\ length v = d /\
    forall q, (q < d)%nat -> nth q v 0 = rsum (length rows) (fun j => nth q (nth j rows []) 0 * x ^ S j).
Proof.
  intros Hne HF. destruct (horner_value d (map (map Fin) rows) _ x ltac:(rewrite map_length; destruct rows; [contradiction|simpl; lia]) (realsK_fin d rows HF)) as (v & E & L & N).
  exists v. split; [exact E|]. split; [exact L|]. intros q Hq. rewrite N by auto. rewrite map_length. reflexivity.
Qed.
(** a concrete case: z^3 between 0 and 1, evaluated at 1/2 *)
Example C23_case : call (A := RX) (mk_cubic (Fin 0) (Fin 1) [Fin (0 + 0 * 0 + 0 * 0 ^ 2 + 1 * 0 ^ 3)] [Fin (0 + 0 * 1 + 0 * 1 ^ 2 + 1 * 1 ^ 3)]
  [Fin (0 + 2 * 0 * 0 + 3 * 1 * 0 ^ 2)] [Fin (0 + 2 * 0 * 1 + 3 * 1 * 1 ^ 2)]) (Fin (1 / 2)) = [Fin (1 / 8)].
Proof. refine (eq_trans (C23_cubic 0 0 0 1 0 1 (1 / 2) ltac:(lra)) _). f_equal. f_equal. field. Qed.
