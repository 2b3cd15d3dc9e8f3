(** C01 and C15 for a finite max_step: as long as max_step is not below the smallest step the
    code computes for the solvers the run passes through, the run stays between t0 and
    t_bound and so do all its evaluations of fun. *)
From Coq Require Import String ZArith Reals Lra Psatz QArith Qreals Bool Lia List.
From Verif Require Import Arith Common Stiff RK RKGen RKHist RX RKReal HStart RKInit RKInitReal RKMore RKCalls RKStep RKBuilt RKTimes
  SpecRK RKMirror RKTop Tableaux Classes RKEx Prop_RK.
Import ListNotations.
Open Scope R_scope.

Section Limits.
Variables (m : Meth RX) (c : Cfg RX).
(** every solver the history passes through before its last step has consistent limits *)
Definition limits_along (v0 : Solver RX) (n : nat) : Prop :=
  forall j w, (j < n)%nat -> history m c v0 j w -> limits_consistent c w.
Lemma limits_along_S v0 n : limits_along v0 (S n) -> limits_along v0 n.
Proof. intros H j w Hj. apply H. lia. Qed.

Lemma history_within_lim r v0 n v : min_stages m -> good_cfg c r -> inv c r v0 -> stat v0 = Running ->
  history m c v0 n v -> limits_along v0 n ->
  0 <= dir r * (RKReal.tb r - tval (st v)) /\ 0 <= dir r * (tval (st v) - tval (st v0)) /\
    (stat v = Finished -> tval (st v) = RKReal.tb r).
Proof.
  intros Hmin HG HI HR0 H. induction H as [v|v0 n v1 v2 k H IH HS]; intros HLim.
  - destruct HI as [_ HI]. rewrite HR0 in *. split; [lra|]. split; [|discriminate].
    replace (tval (st v) - tval (st v)) with 0 by ring. lra.
  - specialize (IH HI HR0 (limits_along_S _ _ HLim)). destruct IH as (I1 & I2 & _).
    pose proof (history_inv m c r _ _ _ Hmin HG HI H) as [HL HI1].
    destruct (ode_step_ok m c k v1 v2 Hmin HS) as [Hr [Hc|[Hc|Hc]]].
    + destruct Hc as (_ & _ & _ & Ht & _). destruct HG as ((Htb & _) & HR & _).
      assert (Hv : tval (st v2) = RKReal.tb r) by (unfold tval; rewrite Ht, Htb; auto).
      rewrite Hv. split; [replace (RKReal.tb r - RKReal.tb r) with 0 by ring; lra|].
      split; [|auto]. lra.
    + destruct Hc as (_ & Hst & Hdone). rewrite Hr in HI1.
      assert (HP : max_above_min c r (st v1)).
      { apply max_above_min_code; auto. apply (HLim n v1); [lia|exact H]. }
      destruct (step_monotone m c r k (st v1) (st v2) Hmin HG HL HI1) as (M1 & M2 & _); auto.
      split; [exact M2|]. split; [lra|].
      intros HF. unfold ode_step in HS. rewrite Hr in HS.
      destruct (Nat.eqb (length (y (st v1))) 0 || neqb RX (t (st v1)) (t_bound c)) eqn:E0.
      * inversion HS; subst v2. unfold tval. cbn [st t]. destruct HG as ((Htb & _) & _). rewrite Htb. auto.
      * rewrite Hdone in HS. inversion HS as [[HE]]. rewrite <- HE in HF. cbn [stat st] in HF.
        destruct (step_basic m c r k (st v1) (st v2) Hmin HG HL) as (_ & _ & _ & _ & _ & _ & _ & HL2 & _); auto; [lra|].
        destruct HL2 as (((tt & Ht) & _) & _). destruct HG as ((Htb & Hdir & _) & HR & _).
        rewrite Ht, Htb, Hdir in HF. change (nsub RX) with xsub in HF. change (nmul RX) with xmul in HF.
        unfold xsub in HF. cbn [xopp xadd xmul] in HF. cbn in HF.
        replace (Q2R 0) with 0 in HF by (unfold Q2R; simpl; lra).
        destruct (Rleb_spec 0 (dir r * (tt + - RKReal.tb r))); [|discriminate].
        rewrite <- HE. unfold tval in *. cbn [st]. rewrite Ht in *.
        destruct HR as ([E|E]&_); rewrite E in *; lra.
    + destruct Hc as (msg & Es & (C1 & _) & _).
      unfold tval in *. rewrite C1. split; [exact I1|]. split; [exact I2|]. congruence.
Qed.

Lemma history_times_lim r C v0 n v : min_stages m -> has_nodes m C -> nodes01 C -> good_cfg c r ->
  inv c r v0 -> stat v0 = Running -> history m c v0 n v -> limits_along v0 n ->
  exists l, calls (st v) = (calls (st v0) ++ l)%list /\
    Forall (fun p => exists x, fst p = Fin x /\ 0 <= dir r * (x - tval (st v0)) /\ 0 <= dir r * (RKReal.tb r - x)) l.
Proof.
  intros Hmin HN HC HG HI HR0 H. induction H as [v|v0 n v1 v2 k H IH HS]; intros HLim.
  - exists []. rewrite app_nil_r. auto.
  - destruct (IH HI HR0 (limits_along_S _ _ HLim)) as (l & E & F).
    pose proof (history_inv m c r _ _ _ Hmin HG HI H) as [HL HI1].
    destruct (history_within_lim r _ _ _ Hmin HG HI HR0 H (limits_along_S _ _ HLim)) as (W1 & W2 & _).
    assert (HR1 : stat v1 = Running) by (unfold ode_step in HS; destruct (stat v1); auto; discriminate).
    rewrite HR1 in HI1.
    destruct (ode_step_st m c k v1 v2 HS) as [E1|E1]; [exists l; rewrite E1; auto|].
    assert (Hne : dir r * (RKReal.tb r - tval (st v1)) <> 0) by lra.
    destruct (step_times m c r C k _ _ Hmin HN HC HG HL Hne E1) as (l2 & E2 & F2).
    exists (l ++ l2)%list. rewrite E2, E, app_assoc. split; [auto|].
    apply Forall_app; split; [exact F|]. eapply Forall_impl; [|exact F2].
    intros p (x & Hx & Hx1 & Hx2). exists x. split; [exact Hx|].
    assert (HP : max_above_min c r (st v1)).
    { apply max_above_min_code; auto. apply (HLim n v1); [lia|exact H]. }
    destruct (trial0_le c r (st v1) HG HL HP) as [T1 _].
    assert (Hdist : dist r (st v1) = dir r * (RKReal.tb r - tval (st v1))).
    { unfold dist. destruct HG as (_ & ([Ed|Ed]&_) & _); rewrite Ed in *.
      - rewrite Rabs_pos_eq by lra. lra.
      - rewrite Rabs_left by lra. lra. }
    lra.
Qed.
End Limits.

Theorem C01_within_interval_max_step m o fun_ t0 tb y0 c n s v : explicit m ->
  built o fun_ t0 tb y0 c s -> history m c (new_solver s) n v ->
  (forall j w, (j < n)%nat -> history m c (new_solver s) j w -> xleb (code_min_step c (st w)) (max_step c) = true) ->
  exists x, t (st v) = Fin x /\ within t0 tb x /\ (stat v = Finished -> x = tb).
Proof.
  intros HE HB HH HLim. pose proof (explicit_min m HE) as Hmin.
  destruct (built_inv _ _ _ _ _ _ _ HB) as (r & HG & HI & E1 & Et & Hd & _).
  pose proof (history_inv m c r _ _ _ Hmin HG HI HH) as [HLv _].
  destruct (history_within_lim m c r _ _ _ Hmin HG HI eq_refl HH HLim) as (W1 & W2 & W3).
  destruct HLv as (((tt & Htt) & _) & _). exists tt. split; [exact Htt|].
  cbn [st new_solver] in *. unfold tval at 1 in W1. unfold tval at 1 in W2. unfold tval in W3. rewrite Htt in *. rewrite Et, E1 in *.
  split; [|exact W3].
  assert (HRO : rc_ok r) by (destruct HG as (_ & HR & _); exact HR).
  destruct (dir_cases r t0 tb HRO Hd) as [[Ed Ho]|[Ed Ho]]; rewrite Ed in *; [left|right]; lra.
Qed.

Theorem C15_evaluation_times_max_step m o fun_ t0 tb y0 c n s v C : nodes_of m C -> nodes01 C ->
  built o fun_ t0 tb y0 c s -> history m c (new_solver s) n v ->
  (forall j w, (j < n)%nat -> history m c (new_solver s) j w -> xleb (code_min_step c (st w)) (max_step c) = true) ->
  exists l, calls (st v) = (calls s ++ l)%list /\
    Forall (fun p => exists x, fst p = Fin x /\ within t0 tb x) l.
Proof.
  intros HN HC HB HH HLim.
  pose proof (explicit_min m (nodes_explicit m C HN)) as Hmin.
  destruct (built_inv _ _ _ _ _ _ _ HB) as (r & HG & HI & E1 & Et & Hd & _).
  destruct (history_times_lim m c r C (new_solver s) n v Hmin (nodes_has m C HN) HC HG HI eq_refl HH HLim) as (l & E & F).
  exists l. split; [exact E|]. eapply Forall_impl; [|exact F].
  intros p (x & Hx & X1 & X2). exists x. split; [exact Hx|]. cbn [st new_solver] in *. rewrite Et in X1. rewrite E1 in X2.
  assert (HRO : rc_ok r) by (destruct HG as (_ & HR & _); exact HR).
  destruct (dir_cases r t0 tb HRO Hd) as [[Ed Ho]|[Ed Ho]]; rewrite Ed in *; [left|right]; lra.
Qed.

Lemma zero_run1 : exists c s v,
  built (opts (Some (Fin 1)) (Fin 1) 0) zero_rhs 0 1 [Fin 1] c s /\
  ode_step 1 (Me4_meth 1) c (new_solver s) = StepOk v /\ stat v = Finished /\ y (st v) = [Fin 1] /\
  nfs (st v) = nfs s /\ xleb (code_min_step c s) (max_step c) = true /\
  xleb (code_min_step c s) (Fin 1) = true /\ h_abs s = Fin 1.
Proof.
  assert (HI : exists c s, rk_init Me4_cls (opts (Some (Fin 1)) (Fin 1) 0) zero_rhs (Fin 0) [Fin 1] (Fin 1) = inl (c, s)
     /\ h_abs s = Fin 1 /\ nfev_stiff_detect c = 0%nat /\ fn c = zero_rhs).
  { unfold rk_init. cbn [o_max_step opts o_rtol o_rtol_is_float o_atol o_first_step o_stiff o_sc].
    rewrite n0_RX. cbn [nleb RX xleb].
    assert (HV : exists p, validate_tol true (Fin (1/1000)) (Scalar (Fin (1/1000000))) [Fin 1] = inl p).
    { unfold validate_tol. rewrite n0_RX. cbn [negb nltb RX xltb]. unfold Rltb.
      destruct (Rlt_dec (1/1000000) 0); [lra|]. destruct (Rlt_dec (1/1000) 0); [lra|]. eauto. }
    destruct HV as ((rt, at_) & ->).
    change (init_stiff (k_stab Me4_cls) 0) with (@inl nat exn 0%nat). cbv iota.
    assert (HC : exists a b c d, sc_coefs (sc_or ScNone (k_sc (@Me4_cls RX))) = inl (a, b, c, d)) by (simpl; do 4 eexists; reflexivity).
    destruct HC as (a & b & cc & d & ->). cbv zeta.
    change (nsub RX) with xsub. change (nabs RX) with xabs. unfold xsub. cbn [xopp xadd xabs nltb RX xltb].
    unfold Rleb. destruct (Rle_dec 1 0); [lra|].
    replace (Rabs (1 + - 0)) with 1 by (rewrite Rabs_right; lra).
    unfold Rltb. destruct (Rlt_dec 1 1); [lra|].
    do 2 eexists. split; [reflexivity|]. auto. }
  destruct HI as (c & s & HI & Hh & Hn & Hfn).
  assert (HB : built (opts (Some (Fin 1)) (Fin 1) 0) zero_rhs 0 1 [Fin 1] c s).
  { left. exists Me4_cls. split; [|exact HI]. constructor; try discriminate; try lra.
    - apply lv_fin.
    - unfold sc_or; cbn [o_sc opts sc_truthy]. apply sc_names_ok. auto. }
  destruct (built_good _ _ _ _ _ _ _ HB) as (r & HG & HS & E1 & E2 & Hd & Hb & Hte & Ht & Hy & Hf & Hms & Hhp & Hsc & _).
  destruct (built_inv _ _ _ _ _ _ _ HB) as (r2 & HG2 & _ & _).
  pose proof (good_live r s HS) as HL.
  pose proof (code_min_step_val c r s HG HL) as Hcm.
  assert (Hmin1 : min_step_at r s <= 1).
  { unfold min_step_at, min_step_of, tval, hval. rewrite Ht, Hh, Rabs_R0.
    destruct HG as ((_&_&Ha&_) & _).
    assert (Ha2 : h_min_a c = h_min_a0 (lv Me4_C)).
    { clear - HI. unfold rk_init in HI.
      destruct (nleb RX _ n0); [discriminate|]. destruct (validate_tol _ _ _ _) as [[? ?]|]; [|discriminate].
      destruct (init_stiff _ _); [|discriminate].
      destruct (sc_coefs _) as [[[[? ?] ?] ?]|]; [|discriminate]. cbv zeta in HI.
      match type of HI with match ?x with inl _ => _ | inr _ => _ end = _ => destruct x as [[? ?]|]; [|discriminate] end.
      apply inl_pair_inj in HI. destruct HI as [<- _]. reflexivity. }
    rewrite Ha in Ha2. unfold h_min_a0 in Ha2.
    destruct (cdiff_ok (lv Me4_C) (lv_fin _)) as (d & Hdd & Hd1). rewrite Hdd, lit_RX in Ha2.
    change (nmul RX) with xmul in Ha2. change (ndiv RX) with xdiv in Ha2. cbn [n_epsneg RX xmul xdiv] in Ha2.
    destruct (Req_EM_T d 0); [lra|]. injection Ha2 as Ha2.
    assert (Hp : 0 < / 2 ^ 53 <= / 10 ^ 15).
    { split; [apply Rinv_0_lt_compat, pow_lt; lra|]. apply Rinv_le_contravar; [apply pow_lt; lra|]. simpl; lra. }
    apply Rmax_lub.
    - rewrite Ha2. replace (Q2R 10) with 10 by (unfold Q2R; simpl; lra).
      assert (/ d <= 1000). { replace 1000 with (/ (1/1000)) by field. apply Rinv_le_contravar; lra. }
      assert (0 < / d) by (apply Rinv_0_lt_compat; lra).
      assert (/ 10 ^ 15 <= / 1000000) by (apply Rinv_le_contravar; [lra|simpl; lra]).
      unfold Rdiv. rewrite Rplus_0_l. nra.
    - rewrite Hb. rewrite <- sqrt_1. apply sqrt_le_1_alt. rewrite <- Rinv_1.
      apply Rinv_le_contravar; [lra|]. apply pow_R1_Rle. lra. }
  assert (Hmx : max_step c = (Fin 1)) by exact Hms.
  exists c, s.
  assert (Htb : t_bound c = Fin 1) by (destruct HG as ((HH1 & _) & _); rewrite HH1, E1; reflexivity).
  assert (HTr : trial0 c r s = 1).
  { unfold trial0, dist, clip. unfold tval, hval in *. rewrite Ht, Hh, E1, Hmx. cbn [xltb].
    replace (Rabs (1 - 0)) with 1 by (rewrite Rabs_right; lra).
    destruct (Rltb_spec 1 (min_step_at r s)); [lra|]. cbn [orb]. destruct (Rltb_spec 1 1); [lra|].
    destruct (Rlt_dec 1 (2 * 1)); [|lra]. destruct (Rlt_dec 1 1); [lra|reflexivity]. }
  destruct (step_unfold (Me4_meth 1) c r 1 s HG HL) as (sc & Hsc1 & Hmp & _ & HU). rewrite HTr in HU.
  assert (Hdir : direction c = Fin 1).
  { destruct HG as ((_ & Hdir & _) & HR & _). rewrite Hdir. f_equal.
    destruct HR as ([E|E]&_); rewrite E in Hd; [exact E|lra]. }
  assert (Hstep : exists s', step_impl 1 (Me4_meth 1) c s = Done s' /\ y s' = [Fin 1] /\ t s' = Fin 1 /\ nfs s' = nfs s).
  { rewrite HU. cbn [rk_loop]. unfold trial_step. cbn [nltb RX xltb].
    destruct (Rltb_spec 1 (min_step_at r s)); [lra|].
    cbn [Me4_meth rk_meth m_stages m_pre m_fsal m_point m_sol m_err m_nan_first].
    rewrite Hdir. change (nmul RX) with xmul. cbn [xmul].
    cbn [with_trial t y f calls]. rewrite Hfn.
    assert (Hf0 : f s = [Fin 0]) by (unfold fresh in Hf; rewrite Hf, Hfn; reflexivity).
    rewrite Hf0, Hy, Ht.
    destruct (stages_zero (rk_meth Me4_tab 1 Me4_stab) (Fin 0) [Fin 1] (Fin (1 * 1)) (r_stages (@Me4_tab RX) - 1) [[Fin 0]] (calls s)) as (cl & E).
    cbn [rk_meth] in E. unfold Me4_meth, rk_meth. 
    match goal with |- context [stages ?a ?b ?c0 ?d ?e ?f0 ?g ?h] =>
      replace (stages a b c0 d e f0 g h) with ([[Fin 0]] ++ repeat [Fin 0] (r_stages (@Me4_tab RX) - 1), cl) by (symmetry; exact E) end.
    unfold comp_sol_err. cbn [m_fsal m_sol m_err].
    assert (EF : negb (neqb RX (nth (r_stages (@Me4_tab RX)) (r_E (@Me4_tab RX)) n0) n0) = false).
    { cbn. unfold Reqb. destruct (Req_EM_T _ _) as [_|Hx]; [reflexivity|]. exfalso. apply Hx. unfold Q2R; simpl; lra. }
    rewrite EF.
    change ([[Fin 0]] ++ repeat [Fin 0] (r_stages (@Me4_tab RX) - 1)) with (repeat [Fin 0] 5).
    unfold rk_sol, rk_err. change (r_B (@Me4_tab RX)) with (@lv RX Me4_B). change (r_E (@Me4_tab RX)) with (@lv RX Me4_E).
    rewrite !lincomb_zero.
    assert (Ev : vscale (Fin (1 * 1)) [Fin 0] = ([Fin 0] : list (num RX))).
    { unfold vscale. cbn [map]. change (nmul RX) with xmul. cbn [xmul]. do 2 f_equal. ring. }
    rewrite Ev.
    assert (Ey : vadd [Fin 1] [Fin 0] = [Fin 1]).
    { unfold vadd. cbn [map2]. change (nadd RX) with xadd. cbn [xadd]. do 2 f_equal. ring. }
    rewrite Ey.
    assert (Een : exists e, err_norm c [Fin 1] [Fin 1] [Fin 0] = Fin e /\ 0 <= e < 1).
    { unfold err_norm. rewrite norm_sq_sum.
      assert (Hsc2 : exists q, calculate_scale (atol c) (rtol c) [Fin 1] [Fin 1] = [Fin q] /\ q <> 0).
      { clear - HI. unfold rk_init in HI. cbn [o_max_step opts o_rtol o_rtol_is_float o_atol o_first_step o_stiff o_sc] in HI.
        destruct (nleb RX _ n0); [discriminate|].
        unfold validate_tol in HI. rewrite !n0_RX in HI. cbn [negb nltb RX xltb] in HI. unfold Rltb in HI.
        destruct (Rlt_dec (1/1000000) 0); [lra|]. destruct (Rlt_dec (1/1000) 0); [lra|].
        destruct (init_stiff _ _); [|discriminate].
        destruct (sc_coefs _) as [[[[? ?] ?] ?]|]; [|discriminate]. cbv zeta in HI.
        match type of HI with match ?x with inl _ => _ | inr _ => _ end = _ => destruct x as [[? ?]|]; [|discriminate] end.
        apply inl_pair_inj in HI. destruct HI as [<- _]. cbn [atol rtol].
        assert (HT : exists lo, nsqrt RX (n_tiny RX) = Fin lo /\ 0 < lo < 1).
        { destruct hminb_RX as (b & Hb & Hb1). exists b. split; [exact Hb|exact Hb1]. }
        destruct HT as (lo & -> & Hlo). rewrite !lit_RX. cbn [n_epsneg RX]. change (nmul RX) with xmul. cbn [xmul].
        destruct (npmax_ex (1/1000000) lo) as (a & -> & _ & Ha).
        assert (Hp : 0 < Q2R 10 * / 2 ^ 53).
        { apply Rmult_lt_0_compat; [unfold Q2R; simpl; lra|apply Rinv_0_lt_compat, pow_lt; lra]. }
        destruct (npmax_ex (1/1000) (Q2R 10 * / 2 ^ 53)) as (b & -> & _ & Hb).
        destruct (npmin_ex b (Q2R (1#10))) as (d & -> & Hd).
        assert (Hd0 : 0 < d) by (destruct Hd as [->| ->]; [lra|unfold Q2R; simpl; lra]).
        unfold calculate_scale, bcast, vadd. cbn [length repeat map map2].
        change (nabs RX) with xabs. cbn [xabs].
        rewrite Rabs_R1. destruct (npmax_ex 1 1) as (o & -> & Ho & _).
        change (nmul RX) with xmul; change (nadd RX) with xadd; cbn [xmul xadd].
        eexists; (split; [reflexivity|]). nra. }
      destruct Hsc2 as (q & -> & Hq). unfold vdiv. cbn [map2]. change (ndiv RX) with xdiv. cbn [xdiv].
      destruct (Req_EM_T q 0); [contradiction|].
      cbn [map2 fold_left xmul xadd length xdiv]. simpl INR.
      destruct (Req_EM_T 1 0); [lra|]. cbn [xsqrt].
      assert (EZ : (0 + 0 / q * (0 / q)) / 1 = 0) by (field; lra). rewrite EZ.
      destruct (Rlt_dec 0 0); [lra|]. rewrite sqrt_0. exists 0. split; [reflexivity|lra]. }
    destruct Een as (e & Een & He). rewrite Een.
    rewrite n1_RX. cbn [nltb RX xltb]. destruct (Rltb_spec e 1); [|lra].
    assert (Hfac : exists fac sc2, accept_factor c (with_trial s sc (max_factor s) (jflstp s) (nfs s) (K s) (calls s)) sc (Fin (1*1)) (Fin e) = Factor fac sc2).
    { destruct sc; [|rewrite (Hsc1 eq_refl) in Hsc; discriminate].
      unfold accept_factor. destruct (nltb RX (Fin e) (tiny_err c)); eauto. }
    destruct Hfac as (fac & sc2 & Hfac).
    cbn [standard_sc with_trial].
    match goal with |- context [accept_factor c ?s0 ?b ?hh ?ee] =>
      replace (accept_factor c s0 b hh ee) with (@Factor RX fac sc2) by (symmetry; exact Hfac) end.
    unfold finish. cbn [m_fsal]. 
    rewrite RKMirror.diagnose_off by exact Hn.
    eexists. split; [reflexivity|]. cbn. split; [reflexivity|]. split; [f_equal; lra|reflexivity]. }
  destruct Hstep as (s' & HD & Hy' & Ht' & Hnf).
  exists {| st := s'; stat := Finished; t_old := Some (Fin 0) |}.
  split; [exact HB|]. split.
  { unfold ode_step. cbn [new_solver stat st]. rewrite Hy, Ht, Htb. cbn [length Nat.eqb orb neqb RX xeqb].
    unfold Reqb. destruct (Req_EM_T 0 1); [lra|]. rewrite HD. rewrite Ht', Hdir.
    change (nsub RX) with xsub. change (nmul RX) with xmul. unfold xsub. cbn [xopp xadd xmul].
    match goal with |- context [if ?b then Finished else Running] => assert (HB1 : b = true) end.
    { rewrite n0_RX. cbn [nleb RX xleb]. apply Rleb_true. lra. }
    rewrite HB1. reflexivity. }
  cbn [stat st]. split; [reflexivity|]. split; [exact Hy'|]. split; [exact Hnf|].
  rewrite Hcm, Hmx. split; [apply Rleb_true; exact Hmin1|]. split; [apply Rleb_true; exact Hmin1|exact Hh].
Qed.

(** y' = 0 on [0,1] with max_step = 1: a finished one-step run meets the hypotheses *)
Example C01_max_step_case : exists c s v,
  built (opts (Some (Fin 1)) (Fin 1) 0) zero_rhs 0 1 [Fin 1] c s /\
  history (Me4_meth 1) c (new_solver s) 1 v /\ stat v = Finished /\ max_step c = Fin 1 /\
  (forall j w, (j < 1)%nat -> history (Me4_meth 1) c (new_solver s) j w -> xleb (code_min_step c (st w)) (max_step c) = true).
Proof.
  destruct zero_run1 as (c & s & v & HB & HS & HF & _ & _ & HL & _ & _). exists c, s, v.
  destruct (built_inv _ _ _ _ _ _ _ HB) as (r & _ & _ & _ & _ & _ & _ & _ & EM).
  split; [exact HB|]. split; [econstructor; [constructor|exact HS]|]. split; [exact HF|]. split; [exact EM|].
  intros j w Hj HH. assert (j = 0%nat) by lia. subst j. inversion HH; subst. exact HL.
Qed.
