(** C50: a solver whose max_step H is short enough for its tolerances never rejects a step on a smooth
    problem. The limit is C H^(q+1) < atol, q being the order of the error estimate, with C independent of
    the options, of the run and of the direction. This holds for both tests of BS5 and CFMR7osc. *)
From Coq Require Import String Reals Lra Psatz QArith Qreals Lia List Arith Bool.
From Verif Require Import Arith Common RK RKGen RKHist RX SpecRK RKSpecProofs RKReal RKInit RKInitReal RKStep RKBuilt RKMore RKTop Classes Tableaux Series Trees OrderThm OrderCheck
  OrderRK OrderModel OrderPair Dense DenseReal DenseStep DenseAcc NormReal Prop_Tol Smooth Prop_Order GOrder Balls BallTab NearPair Prop_Near UOrder UOrder2 GlobalRK GlobalPoly GlobalRun
  Prop_Global GlobalEst GlobalAccept RKEx.
Import ListNotations.
Close Scope string_scope.
Open Scope nat_scope.
Open Scope R_scope.

(** ** specification *)
(** On every run of class m with option max_step = H and all values of atol at least a0 (any other options,
    either direction, inside [lo, hi]) that starts on the trajectory Y: the next call of step() is
    successful and rejects no trial step (the counter nfs is unchanged). [room]: the minimum step
    is neither above max_step nor above the distance to t_bound. *)
Definition first_try (m : Meth RX) (d : nat) (g : num RX -> list (num RX) -> list (num RX)) (lo hi : R) (Y : R -> list R) (H a0 : R) : Prop :=
  forall k o t0 tb c s0 v n, ordinary k o t0 tb (map Fin (Y t0)) -> o_max_step o = Fin H -> atol_above o a0 ->
    rk_init k o g (Fin t0) (map Fin (Y t0)) (Fin tb) = inl (c, s0) -> lo <= t0 <= hi -> lo <= tb <= hi ->
    (nfev_stiff_detect c = 0%nat \/ (m_stages m <= nfev_stiff_detect c)%nat) ->
    consistent_run m c (new_solver s0) v -> stat v = Running -> room c v ->
    exists v', ode_step (S n) m c v = StepOk v' /\ ~ is_failed v' /\ nfs (st v') = nfs (st v).
(** the classes, their orders p and the orders of their error estimates *)
Definition exact_methods (d : nat) : list (Meth RX * Tab RX * nat * nat) :=
  [(BS5_meth d, BS5_tab, BS5_order, BS5_order_secondary); (CK5_meth d, CK5_tab, CK5_order, CK5_order_secondary); (Me4_meth d, Me4_tab, Me4_order, Me4_order_secondary);
   (Pr7_meth d, Pr7_tab, Pr7_order, Pr7_order_secondary); (CFMR7osc_meth d, CFMR7osc_tab, CFMR7osc_order, CFMR7osc_order_secondary)].
Definition decimal_methods (d : nat) : list (Meth RX * Tab RX * nat * Q * nat * Q) :=
  [(Ts5_meth d, Ts5_tab, Ts5_order, 1 # 500000000000000, Ts5_order_secondary, 1 # 500000000000000);
   (Pr8_meth d, Pr8_tab, Pr8_order, 1 # 500000000000000000000, Pr8_order_secondary, 1 # 500000000000000000000);
   (Pr9_meth d, Pr9_tab, Pr9_order, 1 # 1000000000000000000000, Pr9_order_secondary, 1 # 1000000000000000000000)]%Q.

(** ** proofs *)
Lemma consistent_history m c v0 v : consistent_run m c v0 v -> exists n, history m c v0 n v.
Proof. induction 1 as [|v1 v2 k _ (n & IH) _ HS]; [exists 0%nat; constructor|]. exists (S n). econstructor; eauto. Qed.

Lemma accept_core d F g lo hi Y s A b c e wb we p pe W (M : method (S s) p W) L r epse : (0 < d)%nat -> lifts d F g -> solution_on d F lo hi Y -> smooth_along p d F lo hi Y ->
  lipschitz_near d F lo hi Y L r -> length A = s -> length b = s -> length c = s -> (length e <= S s)%nat -> nth 0 c 0%Q = 0%Q -> (pe <= p)%nat -> (length we <= s - 1)%nat ->
  mA M = mq (extA A b []) -> mc M = vq (extC c []) -> 0 <= epse -> vanishes p (S s) W M (vq e) epse pe -> vanishes p (S s) W M (vq we) epse pe ->
  exists C del, 0 <= C /\ 0 < del /\ forall H a0 eg m, 0 <= H < del -> 0 <= eg <= r / 4 -> C * ((2 * meps M + epse + eg) * H + H ^ S pe) < a0 ->
    uses_tab m (mk_tab s A b c e) d -> pre_is m d wb we -> max_step_tracks (mk_tab s A b c e) d g lo hi Y H eg -> first_try m d g lo hi Y H a0.
Proof.
  intros Hd HF HY HS HL LA LB LC LE C0 Hpe Lw EA EC Hep HV1 HV2.
  destruct (est_near d p (S s) F lo hi Y W HY HS L r M (vq e) epse pe HL Hpe Hep HV1) as (C1 & d1 & HC1 & Hd1 & H1).
  destruct (est_near d p (S s) F lo hi Y W HY HS L r M (vq we) epse pe HL Hpe Hep HV2) as (C2 & d2 & HC2 & Hd2 & H2).
  exists (C1 + C2), (Rmin d1 d2). split; [lra|]. split; [apply Rmin_case; auto|]. intros H a0 eg m HH Heg Hlim HU HP HT.
  intros k o t0 tb cf s0 v n HO HM Hat HI Hlo Hhi Hst HC Hr Hroom.
  assert (HE : explicit m) by (eapply ex_tab; eauto). pose proof (explicit_min m HE) as Hmin.
  assert (HB : built o g t0 tb (map Fin (Y t0)) cf s0) by (left; eauto).
  assert (EM : max_step cf = Fin H) by (destruct (built_good _ _ _ _ _ _ _ HB) as (r' & HX); rewrite <- HM; apply HX).
  destruct (rk_init_start _ _ _ _ _ _ _ _ HI) as (Eg & Et0 & Ey0).
  destruct (HT m k o t0 tb cf s0 v HU HO HM HI Hlo Hhi HC) as (x & yr & Ex & Ey & Ly & Hw & _ & Hcl).
  destruct (consistent_history _ _ _ _ HC) as (j & Hj).
  assert (HA : after m o g t0 tb (map Fin (Y t0)) cf j v) by (exists s0; auto).
  assert (Hfr : fresh cf (st v)).
  { destruct (built_good _ _ _ _ _ _ _ HB) as (r' & HX). assert (HF0 : fresh cf (st (new_solver s0))) by apply HX.
    destruct (history_f m cf _ _ _ Hmin HF0 Hj) as [X|(X & _)]; [exact X|congruence]. }
  assert (Hx : lo <= x <= hi) by (unfold within in Hw; lra).
  apply (step_first H a0 m o g t0 tb (map Fin (Y t0)) cf j v n HE HA EM Hr); auto.
  { rewrite Ey. destruct yr; [simpl in Ly; lia|discriminate]. }
  intros s' ha ms dr Hms Hha Edr Hdr E1 E2 E3.
  assert (Hpos : 0 <= H ^ S pe) by (apply pow_le; lra).
  assert (Hme : 0 <= meps M) by apply m_eps.
  assert (Habs : Rabs (ha * dr) <= H) by (rewrite Rabs_mult, Hdr, Rabs_right; lra).
  assert (Hpw : Rabs (ha * dr) ^ S pe <= H ^ S pe) by (apply pow_incr; split; [apply Rabs_pos|exact Habs]).
  assert (Hin : 0 <= (2 * meps M + epse + eg) * Rabs (ha * dr) + Rabs (ha * dr) ^ S pe <= (2 * meps M + epse + eg) * H + H ^ S pe).
  { split; [apply Rplus_le_le_0_compat; [apply Rmult_le_pos; [lra|apply Rabs_pos]|apply pow_le, Rabs_pos]|]. apply Rplus_le_compat; [|exact Hpw]. apply Rmult_le_compat_l; lra. }
  assert (Ha0 : 0 < a0).
  { eapply Rle_lt_trans; [|exact Hlim]. apply Rmult_le_pos; lra. }
  apply (trial_first d s F g A b c e HF Hd LA LB LC LE C0 m wb we cf s' x yr ha dr ms false a0); auto; try congruence; try lra.
  - pose proof (rk_init_tol k o g (Fin t0) (map Fin (Y t0)) (Fin tb) cf s0 a0 HI Hat) as HX.
    assert (EL : @length (num RX) (map Fin (Y t0)) = d) by (rewrite (map_length (Fin : R -> num RX)); apply (Y_len d F lo hi Y HY); auto).
    rewrite EL in HX. exact HX.
  - intros q Hq. rewrite <- EA, <- EC. eapply Rle_lt_trans; [apply (H1 x yr (ha * dr) eg); auto|].
    { eapply Rle_lt_trans; [exact Habs|eapply Rlt_le_trans; [apply HH|apply Rmin_l]]. }
    eapply Rle_lt_trans; [|exact Hlim]. apply Rmult_le_compat; lra.
  - intros q Hq. rewrite <- EA, <- EC. eapply Rle_lt_trans; [apply (H2 x yr (ha * dr) eg); auto|].
    { eapply Rle_lt_trans; [exact Habs|eapply Rlt_le_trans; [apply HH|apply Rmin_r]]. }
    eapply Rle_lt_trans; [|exact Hlim]. apply Rmult_le_compat; lra.
Qed.

Lemma exact_vanish p s W (M : method (S s) p W) A b c w m : mA M = mq (extA A b []) -> mc M = vq (extC c []) ->
  order_Z false true (S s) (fun _ _ => 0) (mq (extA A b [])) (vq (extC c [])) w m -> vanishes p (S s) W M w 0 m.
Proof. intros EA EC H n fs Hn Hf. rewrite EA, EC, (H n fs Hn Hf), Rabs_R0. lra. Qed.

Lemma pow_le1 H m n : 0 <= H <= 1 -> (m <= n)%nat -> H ^ n <= H ^ m.
Proof.
  intros HH Hmn. replace n with (m + (n - m))%nat by lia. rewrite pow_add. rewrite <- (Rmult_1_r (H ^ m)) at 2.
  apply Rmult_le_compat_l; [apply pow_le; lra|]. rewrite <- (pow1 (n - m)). apply pow_incr. lra.
Qed.

Lemma exact_first d F g lo hi Y s A b c e wb we p pe : (0 < d)%nat -> lifts d F g -> solution_on d F lo hi Y -> smooth_along p d F lo hi Y -> lipschitz_along d F lo hi Y ->
  pair_ok s A b c e p pe = true -> (we = [] \/ pair_ok s A b c we p pe = true) -> (length we <= s - 1)%nat -> (0 < p)%nat ->
  exists C del, 0 <= C /\ 0 < del /\ forall H a0 m, 0 <= H < del -> C * H ^ S pe < a0 -> uses_tab m (mk_tab s A b c e) d -> pre_is m d wb we -> first_try m d g lo hi Y H a0.
Proof.
  intros Hd HF HY HS HL HP HP' Lw Hp.
  destruct (pair_ok_spec s A b c e p pe HP) as (LA & LB & LC & LE & C0 & Hpe & Hlow & HV & HZ).
  assert (HZ' : order_Z false true (S s) (fun _ _ => 0) (mq (extA A b [])) (vq (extC c [])) (vq we) pe).
  { destruct HP' as [->|HP']; [intros n fs Hn Hf; apply rsum_zero; intros l Hl; rewrite vq_overflow by (simpl; lia); ring|].
    apply (pair_ok_spec s A b c we p pe HP'). }
  destruct (the_method_full s A b c p 0 LA LB LC Hlow ltac:(lra) (order_near _ _ _ _ _ HV)) as (W & M & Em & EA & EC & HM).
  destruct (global_error d p F lo hi Y HY (S s) W HS HL Hp) as (Cg & dg & HCg & Hdg & Hg).
  destruct HL as (L & r & HL). assert (Hr : 0 < r) by apply HL.
  destruct (accept_core d F g lo hi Y s A b c e wb we p pe W M L r 0 Hd HF HY HS HL LA LB LC LE C0 Hpe Lw EA EC ltac:(lra)
    (exact_vanish p s W M A b c (vq e) pe EA EC HZ) (exact_vanish p s W M A b c (vq we) pe EA EC HZ')) as (C1 & d1 & HC1 & Hd1 & H1).
  set (d2 := r / 4 / (Cg + 1)). assert (Hd2 : 0 < d2) by (unfold d2; apply Rdiv_lt_0_compat; lra).
  exists (C1 * (Cg + 1)), (Rmin (Rmin dg d1) (Rmin 1 d2)). split; [apply Rmult_le_pos; lra|]. split; [apply Rmin_case; apply Rmin_case; lra|].
  intros H a0 m (HH0 & HH) Hlim HU HPr.
  assert (A1 : H < dg) by (eapply Rlt_le_trans; [exact HH|eapply Rle_trans; [apply Rmin_l|apply Rmin_l]]).
  assert (A2 : H < d1) by (eapply Rlt_le_trans; [exact HH|eapply Rle_trans; [apply Rmin_l|apply Rmin_r]]).
  assert (A3 : H < 1) by (eapply Rlt_le_trans; [exact HH|eapply Rle_trans; [apply Rmin_r|apply Rmin_l]]).
  assert (A4 : H < d2) by (eapply Rlt_le_trans; [exact HH|eapply Rle_trans; [apply Rmin_r|apply Rmin_r]]).
  assert (P1 : H ^ p <= H). { rewrite <- (pow_1 H) at 2. apply pow_le1; [lra|lia]. }
  assert (P0 : 0 <= H ^ p) by (apply pow_le; lra).
  assert (Heg : 0 <= Cg * H ^ p <= r / 4).
  { split; [apply Rmult_le_pos; lra|]. apply Rle_trans with ((Cg + 1) * d2); [|unfold d2; right; field; lra].
    apply Rmult_le_compat; lra. }
  apply (H1 H a0 (Cg * H ^ p) m); auto; try lra.
  - rewrite Em. eapply Rle_lt_trans; [|exact Hlim].
    assert (P2 : H ^ S p <= H ^ S pe) by (apply pow_le1; [lra|lia]). rewrite <- (tech_pow_Rmult H p) in P2.
    replace (C1 * (Cg + 1) * H ^ S pe) with (C1 * (Cg * H ^ S pe + H ^ S pe)) by ring. apply Rmult_le_compat_l; [auto|].
    apply Rplus_le_compat_r. replace ((2 * 0 + 0 + Cg * H ^ p) * H) with (Cg * (H * H ^ p)) by ring. apply Rmult_le_compat_l; auto.
  - apply max_track; [auto|]. apply (track_core d F g lo hi Y s A b c e p W M H); auto.
    intros ta t y Hta HPa. destruct (Hg M H ta t y ltac:(lra) ltac:(lra) Hta HPa) as (_ & _ & H2). rewrite Em, Rplus_0_l in H2. exact H2.
Qed.


(** C50, classes with exact coefficients *)
Theorem C50_first_try m T p pe d F g lo hi Y : In (m, T, p, pe) (exact_methods d) -> (0 < d)%nat -> lifts d F g ->
  solution_on d F lo hi Y -> smooth_along p d F lo hi Y -> lipschitz_along d F lo hi Y ->
  exists C del, 0 <= C /\ 0 < del /\ forall H a0, 0 <= H < del -> C * H ^ S pe < a0 -> first_try m d g lo hi Y H a0.
Proof.
  intros HT Hd HF HY HS HL.
  assert (G : forall s A b c e wb we, pair_ok s A b c e p pe = true -> (we = [] \/ pair_ok s A b c we p pe = true) -> (length we <= s - 1)%nat -> (0 < p)%nat ->
    uses_tab m (mk_tab s A b c e) d -> pre_is m d wb we -> exists C del, 0 <= C /\ 0 < del /\ forall H a0, 0 <= H < del -> C * H ^ S pe < a0 -> first_try m d g lo hi Y H a0).
  { intros s A b c e wb we H1 H2 H3 H4 H5 H6. destruct (exact_first d F g lo hi Y s A b c e wb we p pe Hd HF HY HS HL H1 H2 H3 H4) as (C & del & HC & Hdel & H). exists C, del. eauto. }
  destruct HT as [E|HT]; [|destruct HT as [E|HT]; [|destruct HT as [E|HT]; [|destruct HT as [E|HT]; [|destruct HT as [E|HT]; [|destruct HT]]]]].
  all: apply pair_equal_spec in E; destruct E as (E & <-); apply pair_equal_spec in E; destruct E as (E & <-); apply pair_equal_spec in E; destruct E as (<- & <-).
  - apply (G BS5_n_stages BS5_A BS5_B BS5_C BS5_E BS5_B_scale_pre BS5_E_pre); [vm_compute; reflexivity|right; vm_compute; reflexivity|vm_compute; lia|vm_compute; lia|apply ut_bs5; vm_compute; lia|right; reflexivity].
  - apply (G CK5_n_stages CK5_A CK5_B CK5_C CK5_E [] []); [vm_compute; reflexivity|left; reflexivity|simpl; lia|vm_compute; lia|apply ut_rk; vm_compute; lia|left; reflexivity].
  - apply (G Me4_n_stages Me4_A Me4_B Me4_C Me4_E [] []); [vm_compute; reflexivity|left; reflexivity|simpl; lia|vm_compute; lia|apply ut_rk; vm_compute; lia|left; reflexivity].
  - apply (G Pr7_n_stages Pr7_A Pr7_B Pr7_C Pr7_E [] []); [vm_compute; reflexivity|left; reflexivity|simpl; lia|vm_compute; lia|apply ut_rk; vm_compute; lia|left; reflexivity].
  - apply (G CFMR7osc_n_stages CFMR7osc_A CFMR7osc_B CFMR7osc_C CFMR7osc_E (firstn 8 (nth 8 CFMR7osc_A [])) (firstn 8 CFMR7osc_E));
      [vm_compute; reflexivity|right; vm_compute; reflexivity|vm_compute; lia|vm_compute; lia|apply ut_cfmr; vm_compute; lia|right; reflexivity].
Qed.

(** classes with rounded decimal coefficients: eps and epse are the residuals of the order conditions *)
Theorem C50_first_try_near m T p eps pe epse d F g lo hi Y : In (m, T, p, eps, pe, epse) (decimal_methods d) -> (0 < d)%nat -> lifts d F g ->
  solution_on d F lo hi Y -> smooth_along p d F lo hi Y -> lipschitz_global d F ->
  exists C del, 0 <= C /\ 0 < del /\ forall H a0, 0 <= H < del -> C * ((Q2R eps + Q2R epse) * H + H ^ S pe) < a0 -> first_try m d g lo hi Y H a0.
Proof.
  intros HT Hd HF HY HS HL.
  assert (G : forall s A b c e, near_ok 80 s A b c e p eps pe epse = true -> (1 <= s)%nat -> (0 < p)%nat -> 0 <= Q2R eps -> 0 <= Q2R epse ->
    uses_tab m (mk_tab s A b c e) d -> m_pre m = None -> exists C del, 0 <= C /\ 0 < del /\ forall H a0, 0 <= H < del -> C * ((Q2R eps + Q2R epse) * H + H ^ S pe) < a0 -> first_try m d g lo hi Y H a0).
  { intros s A b c e HP Hs Hp He Hee HU Hpre.
    destruct (near_ok_spec 80 s A b c e p eps pe epse HP) as (LA & LB & LC & LE & C0 & Hpe & Hlow & HV & HZ).
    destruct (the_method_full s A b c p (Q2R eps) LA LB LC Hlow He HV) as (W & M & Em & EA & EC & HM).
    destruct (global_error_lipschitz d p F lo hi Y HY (S s) W HS (Q2R eps) HL Hp) as (Cg & dg & HCg & Hdg & Hg).
    set (ee := Q2R eps) in *. set (ef := Q2R epse) in *.
    set (r := 4 * (Cg * (ee + 1)) + 1). assert (HCe : 0 <= Cg * (ee + 1)) by (apply Rmult_le_pos; lra).
    destruct HL as (L & HL0 & HL). assert (HLr : lipschitz_near d F lo hi Y L r).
    { split; [auto|]. split; [unfold r; lra|]. intros. apply HL; auto. }
    assert (HV1 : vanishes p (S s) W M (vq e) ef pe) by (unfold vanishes; rewrite EA, EC; exact HZ).
    assert (HV2 : vanishes p (S s) W M (vq []) ef pe).
    { intros n fs Hn Hf. rewrite (rsum_zero (S s)), Rabs_R0; [exact Hee|]. intros l Hl. rewrite vq_overflow by (simpl; lia). ring. }
    destruct (accept_core d F g lo hi Y s A b c e [] [] p pe W M L r ef Hd HF HY HS HLr LA LB LC LE C0 Hpe ltac:(simpl; lia) EA EC Hee HV1 HV2) as (C1 & d1 & HC1 & Hd1 & H1).
    exists (C1 * (Cg + 2)), (Rmin (Rmin dg d1) 1). split; [apply Rmult_le_pos; lra|]. split; [apply Rmin_case; [apply Rmin_case|]; lra|].
    intros H a0 (HH0 & HH) Hlim.
    assert (A1 : H < dg) by (eapply Rlt_le_trans; [exact HH|eapply Rle_trans; [apply Rmin_l|apply Rmin_l]]).
    assert (A2 : H < d1) by (eapply Rlt_le_trans; [exact HH|eapply Rle_trans; [apply Rmin_l|apply Rmin_r]]).
    assert (A3 : H < 1) by (eapply Rlt_le_trans; [exact HH|apply Rmin_r]).
    assert (P1 : H ^ p <= 1). { rewrite <- (pow_O H). apply pow_le1; [lra|lia]. }
    assert (P0 : 0 <= H ^ p) by (apply pow_le; lra).
    assert (Heg : 0 <= Cg * (ee + H ^ p) <= r / 4).
    { split; [apply Rmult_le_pos; lra|]. apply Rle_trans with (Cg * (ee + 1)); [apply Rmult_le_compat_l; lra|unfold r; lra]. }
    apply (H1 H a0 (Cg * (ee + H ^ p)) m); auto; try lra.
    - rewrite Em. eapply Rle_lt_trans; [|exact Hlim].
      assert (P2 : H ^ S p <= H ^ S pe) by (apply pow_le1; [lra|lia]). rewrite <- (tech_pow_Rmult H p) in P2.
      rewrite Rmult_assoc. apply Rmult_le_compat_l; [auto|]. set (x := H ^ S pe) in *. set (z := H ^ p) in *.
      assert (0 <= x) by (unfold x; apply pow_le; lra). assert (0 <= ee * H) by (apply Rmult_le_pos; lra). assert (0 <= ef * H) by (apply Rmult_le_pos; lra).
      assert (Cg * (H * z) <= Cg * x) by (apply Rmult_le_compat_l; auto).
      assert (0 <= Cg * (ef * H)) by (apply Rmult_le_pos; lra).
      replace ((2 * ee + ef + Cg * (ee + z)) * H + x) with (2 * (ee * H) + ef * H + Cg * (ee * H) + Cg * (H * z) + x) by ring.
      replace ((Cg + 2) * ((ee + ef) * H + x)) with (Cg * (ee * H) + Cg * (ef * H) + Cg * x + 2 * (ee * H) + 2 * (ef * H) + 2 * x) by ring. lra.
    - left. exact Hpre.
    - apply max_track; [auto|]. apply (track_core d F g lo hi Y s A b c e p W M H); auto.
      intros ta t y Hta HPa. destruct (Hg M H ta t y ltac:(unfold ee in *; lra) ltac:(lra) Hta HPa) as (_ & _ & H2). rewrite Em in H2. exact H2. }
  destruct HT as [E|HT]; [|destruct HT as [E|HT]; [|destruct HT as [E|HT]; [|destruct HT]]].
  all: apply pair_equal_spec in E; destruct E as (E & <-); apply pair_equal_spec in E; destruct E as (E & <-); apply pair_equal_spec in E; destruct E as (E & <-);
    apply pair_equal_spec in E; destruct E as (E & <-); apply pair_equal_spec in E; destruct E as (<- & <-).
  - apply (G _ _ _ _ _ near_Ts5); [vm_compute; lia|vm_compute; lia|unfold Q2R; simpl; lra|unfold Q2R; simpl; lra|apply ut_rk; vm_compute; lia|reflexivity].
  - apply (G _ _ _ _ _ near_Pr8); [vm_compute; lia|vm_compute; lia|unfold Q2R; simpl; lra|unfold Q2R; simpl; lra|apply ut_rk; vm_compute; lia|reflexivity].
  - apply (G _ _ _ _ _ near_Pr9); [vm_compute; lia|vm_compute; lia|unfold Q2R; simpl; lra|unfold Q2R; simpl; lra|apply ut_rk; vm_compute; lia|reflexivity].
Qed.

(** ** whole runs *)
(** every run of class m as in [first_try] whose running states all have room: it ends, and every state it
    passes through, up to and including the last one (status 'finished', t = t_bound), has no
    rejected steps and is within [bound] of Y *)
Definition completes (m : Meth RX) (d : nat) (g : num RX -> list (num RX) -> list (num RX)) (lo hi : R) (Y : R -> list R) (H a0 bound : R) : Prop :=
  forall k o t0 tb c s0, ordinary k o t0 tb (map Fin (Y t0)) -> o_max_step o = Fin H -> atol_above o a0 ->
    rk_init k o g (Fin t0) (map Fin (Y t0)) (Fin tb) = inl (c, s0) -> lo <= t0 <= hi -> lo <= tb <= hi ->
    (nfev_stiff_detect c = 0%nat \/ (m_stages m <= nfev_stiff_detect c)%nat) ->
    (forall n v, history m c (new_solver s0) n v -> stat v = Running -> room c v) ->
    (forall n v, history m c (new_solver s0) n v -> nfs (st v) = 0%nat /\ ~ is_failed v /\ tracked d Y t0 tb v bound) /\
    exists n v, history m c (new_solver s0) n v /\ stat v = Finished.

Lemma rk_init_nfs k o g t0 y0 tb (c : Cfg RX) s : rk_init k o g t0 y0 tb = inl (c, s) -> nfs s = 0%nat.
Proof.
  unfold rk_init. intros H.
  destruct (nleb RX (o_max_step o) n0); [discriminate|].
  destruct (validate_tol (o_rtol_is_float o) (o_rtol o) (o_atol o) y0) as [[rt at_]|]; [|discriminate].
  destruct (init_stiff (k_stab k) (o_stiff o)) as [nsd|]; [|discriminate].
  destruct (sc_coefs (sc_or (o_sc o) (k_sc k))) as [[[[kb1 kb2] al] gg]|]; [|discriminate].
  cbv zeta in H.
  match type of H with match ?x with inl _ => _ | inr _ => _ end = _ => destruct x as [[? ?]|]; [|discriminate] end.
  apply inl_pair_inj in H. destruct H as [_ <-]. reflexivity.
Qed.

Lemma completes_core m T d g lo hi Y H a0 bound : (0 < d)%nat -> uses_tab m T d -> first_try m d g lo hi Y H a0 -> max_step_tracks T d g lo hi Y H bound ->
  completes m d g lo hi Y H a0 bound.
Proof.
  intros Hd HU HFT HMT k o t0 tb c s0 HO HM Hat HI Hlo Hhi Hst Hroom.
  assert (HE : explicit m) by (eapply ex_tab; eauto). pose proof (explicit_min m HE) as Hmin.
  assert (HB : built o g t0 tb (map Fin (Y t0)) c s0) by (left; eauto).
  assert (G : forall n v, history m c (new_solver s0) n v -> nfs (st v) = 0%nat /\ ~ is_failed v /\ consistent_run m c (new_solver s0) v).
  { intros n v HH. remember (new_solver s0) as v0 eqn:E0. induction HH as [v0|v0 n v1 v2 k1 HH IH HS]; subst v0.
    - split; [exact (rk_init_nfs _ _ _ _ _ _ _ _ HI)|]. split; [intros (msg & X); discriminate X|constructor].
    - destruct (IH eq_refl Hroom) as (I1 & I2 & I3). assert (Hr : stat v1 = Running) by (destruct (ode_step_ok m c k1 v1 v2 Hmin HS); auto).
      destruct (Hroom n v1 HH Hr) as (R1 & R2).
      assert (K1 : exists k2, ode_step (S k2) m c v1 = StepOk v2).
      { destruct k1 as [|k1]; [exists 0%nat|eauto]. unfold ode_step in *. rewrite Hr in *. destruct (_ || _); [exact HS|].
        unfold step_impl in HS. destruct (reassess_stepsize _ _) as [[? ?] ?] in HS. discriminate HS. }
      destruct K1 as (k2 & K1). destruct (HFT k o t0 tb c s0 v1 k2 HO HM Hat HI Hlo Hhi Hst I3 Hr (conj R1 R2)) as (v' & E1 & E2 & E3).
      rewrite K1 in E1. injection E1 as <-. split; [congruence|]. split; [auto|]. econstructor; [exact I3|exact R1|exact HS]. }
  split.
  - intros n v HH. destruct (G n v HH) as (G1 & G2 & G3). split; [auto|]. split; [auto|]. apply (HMT m k o t0 tb c s0 v); auto.
  - destruct (run_ends m o g t0 tb (map Fin (Y t0)) c s0 HE HB Hst) as (n & v & HH & [Hs|Hs]); [eauto|]. destruct (G n v HH) as (_ & G2 & _). contradiction.
Qed.

Lemma exact_uses m T p pe d : In (m, T, p, pe) (exact_methods d) -> uses_tab m T d /\ In (T, p, pe) exact_pairs.
Proof.
  intros HT. unfold exact_methods in HT. destruct HT as [E|HT]; [|destruct HT as [E|HT]; [|destruct HT as [E|HT]; [|destruct HT as [E|HT]; [|destruct HT as [E|HT]; [|destruct HT]]]]].
  all: apply pair_equal_spec in E; destruct E as (E & <-); apply pair_equal_spec in E; destruct E as (E & <-); apply pair_equal_spec in E; destruct E as (<- & <-); split.
  - apply ut_bs5; vm_compute; lia.
  - left. reflexivity.
  - apply ut_rk; vm_compute; lia.
  - right; left. reflexivity.
  - apply ut_rk; vm_compute; lia.
  - right; right; left. reflexivity.
  - apply ut_rk; vm_compute; lia.
  - right; right; right; left. reflexivity.
  - apply ut_cfmr; vm_compute; lia.
  - right; right; right; right; left. reflexivity.
Qed.
Theorem C50_completes m T p pe d F g lo hi Y : In (m, T, p, pe) (exact_methods d) -> (0 < d)%nat -> lifts d F g ->
  solution_on d F lo hi Y -> smooth_along p d F lo hi Y -> lipschitz_along d F lo hi Y ->
  exists C del, 0 <= C /\ 0 < del /\ forall H a0, 0 <= H < del -> C * H ^ S pe < a0 -> completes m d g lo hi Y H a0 (C * H ^ p).
Proof.
  intros HT Hd HF HY HS HL. destruct (exact_uses m T p pe d HT) as (HU & HT').
  destruct (C50_first_try m T p pe d F g lo hi Y HT Hd HF HY HS HL) as (C1 & d1 & HC1 & Hd1 & H1).
  destruct (C49_max_step T p pe d F g lo hi Y HT' Hd HF HY HS HL) as (C2 & d2 & HC2 & Hd2 & H2).
  exists (C1 + C2), (Rmin d1 d2). split; [lra|]. split; [apply Rmin_case; auto|]. intros H a0 (HH & HH') Hlim.
  assert (A1 : H < d1) by (eapply Rlt_le_trans; [exact HH'|apply Rmin_l]).
  assert (A2 : H < d2) by (eapply Rlt_le_trans; [exact HH'|apply Rmin_r]).
  assert (P1 : 0 <= H ^ S pe) by (apply pow_le; auto). assert (P2 : 0 <= H ^ p) by (apply pow_le; auto).
  apply (completes_core m T); auto.
  - apply H1; [lra|]. eapply Rle_lt_trans; [|exact Hlim]. apply Rmult_le_compat_r; lra.
  - intros m' k o t0 tb c s0 v HU' HO HM HI Hlo Hhi HC. destruct (H2 H ltac:(lra) m' k o t0 tb c s0 v HU' HO HM HI Hlo Hhi HC) as (x & yr & Q1 & Q2 & Q3 & Q4 & Q5 & Q6).
    exists x, yr. split; [exact Q1|]. split; [exact Q2|]. split; [exact Q3|]. split; [exact Q4|]. split; [exact Q5|].
    apply (close_le _ _ _ _ _ Q6). apply Rmult_le_compat_r; lra.
Qed.
(** polynomial right-hand sides *)
Theorem C50_polynomial m T p pe d F g lo hi Y : In (m, T, p, pe) (exact_methods d) -> (0 < d)%nat -> lifts d F g -> polynomial d F ->
  solution_on d F lo hi Y ->
  exists C del, 0 <= C /\ 0 < del /\ forall H a0, 0 <= H < del -> C * H ^ S pe < a0 -> first_try m d g lo hi Y H a0 /\ completes m d g lo hi Y H a0 (C * H ^ p).
Proof.
  intros HT Hd HF HP HY. pose proof (polynomial_smooth_along _ _ _ _ _ _ HP HY : smooth_along p d F lo hi Y) as HS. pose proof (polynomial_lipschitz_along _ _ _ _ _ HP HY) as HL.
  destruct (C50_first_try m T p pe d F g lo hi Y HT Hd HF HY HS HL) as (C1 & d1 & HC1 & Hd1 & H1).
  destruct (C50_completes m T p pe d F g lo hi Y HT Hd HF HY HS HL) as (C2 & d2 & HC2 & Hd2 & H2).
  exists (C1 + C2), (Rmin d1 d2). split; [lra|]. split; [apply Rmin_case; auto|]. intros H a0 (HH & HH') Hlim.
  assert (A1 : H < d1) by (eapply Rlt_le_trans; [exact HH'|apply Rmin_l]).
  assert (A2 : H < d2) by (eapply Rlt_le_trans; [exact HH'|apply Rmin_r]).
  assert (P1 : 0 <= H ^ S pe) by (apply pow_le; auto). assert (P2 : 0 <= H ^ p) by (apply pow_le; auto).
  split.
  - apply H1; [lra|]. eapply Rle_lt_trans; [|exact Hlim]. apply Rmult_le_compat_r; lra.
  - assert (HC : completes m d g lo hi Y H a0 (C2 * H ^ p)) by (apply H2; [lra|]; eapply Rle_lt_trans; [|exact Hlim]; apply Rmult_le_compat_r; lra).
    intros k o t0 tb c s0 HO HM Hat HI Hlo Hhi Hst Hroom. destruct (HC k o t0 tb c s0 HO HM Hat HI Hlo Hhi Hst Hroom) as (E1 & E2). split; [|exact E2].
    intros n v Hn. destruct (E1 n v Hn) as (F1 & F2 & (x & yr & Q1 & Q2 & Q3 & Q4 & Q5 & Q6)). split; [auto|]. split; [auto|].
    exists x, yr. split; [exact Q1|]. split; [exact Q2|]. split; [exact Q3|]. split; [exact Q4|]. split; [exact Q5|].
    apply (close_le _ _ _ _ _ Q6). apply Rmult_le_compat_r; lra.
Qed.

(** the hypotheses are met: y' = y^2 from 1 at t = 0 to t_bound = H with Me4, first_step = max_step = H, the default
    tolerances and any H between the smallest possible minimum step and 1/2: the constructor succeeds and
    its state has room. (C49_case: this problem is smooth.) *)
Example C50_case H : sqrt (/ 2 ^ 1022) <= H <= 1/2 -> exists c s,
  ordinary Me4_cls (opts (Some (Fin H)) (Fin H) 0) 0 H (map Fin [/ (1 - 0)]) /\ atol_above (opts (Some (Fin H)) (Fin H) 0) (1/1000000) /\
  rk_init Me4_cls (opts (Some (Fin H)) (Fin H) 0) riccati_x (Fin 0) (map Fin [/ (1 - 0)]) (Fin H) = inl (c, s) /\
  nfev_stiff_detect c = 0%nat /\ stat (new_solver s) = Running /\ room c (new_solver s).
Proof.
  intros HH. pose proof sqrt_tiny_pos as Hpos.
  assert (HO : ordinary Me4_cls (opts (Some (Fin H)) (Fin H) 0) 0 H (map Fin [/ (1 - 0)])).
  { constructor; try discriminate; try lra.
    - apply RKEx.lv_fin.
    - unfold sc_or; cbn [o_sc opts sc_truthy]. apply sc_names_ok. simpl. auto. }
  assert (HI : exists c s, rk_init Me4_cls (opts (Some (Fin H)) (Fin H) 0) riccati_x (Fin 0) (map Fin [/ (1 - 0)]) (Fin H) = inl (c, s)
     /\ h_abs s = Fin H /\ nfev_stiff_detect c = 0%nat /\ h_min_a c = h_min_a0 (lv Me4_C)).
  { unfold rk_init. cbn [o_max_step opts o_rtol o_rtol_is_float o_atol o_first_step o_stiff o_sc].
    rewrite n0_RX. cbn [nleb RX xleb]. unfold Rleb at 1. destruct (Rle_dec H 0); [lra|].
    assert (HV : exists p, validate_tol true (Fin (1/1000)) (Scalar (Fin (1/1000000))) (map Fin [/ (1 - 0)]) = inl p).
    { unfold validate_tol. rewrite n0_RX. cbn [negb nltb RX xltb]. unfold Rltb.
      destruct (Rlt_dec (1/1000000) 0); [lra|]. destruct (Rlt_dec (1/1000) 0); [lra|]. eauto. }
    destruct HV as ((rt, at_) & ->).
    change (init_stiff (k_stab Me4_cls) 0) with (@inl nat exn 0%nat). cbv iota.
    assert (HC : exists a b c d, sc_coefs (sc_or ScNone (k_sc (@Me4_cls RX))) = inl (a, b, c, d)) by (simpl; do 4 eexists; reflexivity).
    destruct HC as (a & b & cc & d & ->). cbv zeta.
    change (nsub RX) with xsub. change (nabs RX) with xabs. unfold xsub. cbn [xopp xadd xabs nltb RX xltb].
    unfold Rleb. destruct (Rle_dec H 0); [lra|].
    replace (Rabs (H + - 0)) with H by (rewrite Rabs_right; lra).
    unfold Rltb. destruct (Rlt_dec H H); [lra|].
    do 2 eexists. split; [reflexivity|]. auto. }
  destruct HI as (c & s & HI & Hh & Hn & Ha2). exists c, s. split; [exact HO|]. split.
  { split; [discriminate|]. intros x [<-|[]]. eexists. split; [reflexivity|]. lra. }
  split; [exact HI|]. split; [exact Hn|]. split; [reflexivity|].
  assert (HB : built (opts (Some (Fin H)) (Fin H) 0) riccati_x 0 H (map Fin [/ (1 - 0)]) c s) by (left; eauto).
  destruct (built_good _ _ _ _ _ _ _ HB) as (r & HG & HS & E1 & E2 & Hd & Hb & Hte & Ht & Hy & Hf & Hms & Hhp & Hsc & _).
  pose proof (good_live r s HS) as HL.
  pose proof (code_min_step_val c r s HG HL) as Hcm.
  assert (Hmin1 : min_step_at r s <= H).
  { unfold min_step_at, min_step_of, tval, hval. rewrite Ht, Hh, Rabs_R0.
    destruct HG as ((_&_&Ha&_) & _).
    rewrite Ha in Ha2. unfold h_min_a0 in Ha2.
    destruct (cdiff_ok (lv Me4_C) (RKEx.lv_fin _)) as (d & Hdd & Hd1). rewrite Hdd, lit_RX in Ha2.
    change (nmul RX) with xmul in Ha2. change (ndiv RX) with xdiv in Ha2. cbn [n_epsneg RX xmul xdiv] in Ha2.
    destruct (Req_EM_T d 0); [lra|]. injection Ha2 as Ha2.
    assert (Hp : 0 < / 2 ^ 53 <= / 10 ^ 15).
    { split; [apply Rinv_0_lt_compat, pow_lt; lra|]. apply Rinv_le_contravar; [apply pow_lt; lra|]. simpl; lra. }
    apply Rmax_lub; [|rewrite Hb; lra].
    rewrite Ha2. replace (Q2R 10) with 10 by (unfold Q2R; simpl; lra).
    assert (/ d <= 1000). { replace 1000 with (/ (1/1000)) by field. apply Rinv_le_contravar; lra. }
    assert (0 < / d) by (apply Rinv_0_lt_compat; lra).
    assert (/ 10 ^ 15 <= / 1000000) by (apply Rinv_le_contravar; [lra|simpl; lra]).
    unfold Rdiv. rewrite Rplus_0_l. assert (10 * / 2 ^ 53 * / d <= 1) by nra. nra. }
  assert (Htb : t_bound c = Fin H) by (destruct HG as ((HH1 & _) & _); rewrite HH1, E1; reflexivity).
  assert (Hmx : max_step c = Fin H) by exact Hms.
  split; [unfold limits_consistent|]; cbn [st new_solver]; rewrite Hcm.
  - rewrite Hmx. cbn [xleb]. destruct (Rleb_spec (min_step_at r s) H); [reflexivity|lra].
  - rewrite Htb, Ht. change (nsub RX) with xsub. change (nabs RX) with xabs. unfold xsub. cbn [xopp xadd xabs xleb].
    replace (Rabs (H + - 0)) with H by (rewrite Rabs_right; lra). destruct (Rleb_spec (min_step_at r s) H); [reflexivity|lra].
Qed.
