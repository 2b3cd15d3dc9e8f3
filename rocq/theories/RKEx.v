(** Concrete instances showing that the hypotheses of the theorems of Prop_RK.v
    can be met: every explicit class constructs with the default options, and a
    complete run on a simple problem in exact arithmetic. *)
From Coq Require Import String ZArith Reals Lra Psatz QArith Qreals Bool Lia List.
From Verif Require Import Arith Common Stiff RK RKGen RKHist RX RKReal HStart RKInit RKInitReal RKStep RKBuilt
  SpecRK RKMore RKTop RKTimes Tableaux Classes.
Import ListNotations.
Open Scope R_scope.

Lemma lv_fin l : allfin (lv l).
Proof. unfold allfin, lv. apply Forall_forall. intros x H. apply in_map_iff in H. destruct H as (q & <- & _). eexists; reflexivity. Qed.

(** options: rtol = 1e-3, atol = 1e-6, the given first_step/max_step, everything else default *)
Definition opts (fs : option (num RX)) (mx : num RX) (stiff : Z) : Opts RX :=
  {| o_max_step := mx; o_rtol := Fin (1/1000); o_rtol_is_float := true; o_atol := Scalar (Fin (1/1000000));
     o_first_step := fs; o_stiff := stiff; o_sc := ScNone |}.

Definition classes : list (Cls RX) :=
  [BS5_cls; CFMR7osc_cls; CK5_cls; Me4_cls; Ts5_cls; Pr7_cls; Pr8_cls; Pr9_cls; Fi4N_cls; Fi5N_cls; Mu5Nmb_cls; MR6NN_cls].

Lemma classes_ordinary k t0 tb y0 : In k classes -> t0 <> tb -> y0 <> [] ->
  ordinary k (opts None PInf 5000) t0 tb y0.
Proof.
  intros Hk Hne Hy. constructor; auto; try discriminate.
  - repeat (destruct Hk as [<-|Hk]; [apply lv_fin|]). destruct Hk.
  - assert (G : forall n, In n ["G"; "S"; "standard"]%string -> sc_ok (sc_or (@ScNone RX) (ScName n))).
    { intros n Hn. unfold sc_or. cbn [sc_truthy]. apply sc_names_ok. cbn in Hn. intuition. }
    repeat (destruct Hk as [<-|Hk]; [apply G; simpl; auto|]). destruct Hk.
Qed.

Lemma init_ok k o fun_ t0 tb y0 : o = opts None PInf 5000 -> In k classes -> t0 <> tb ->
  exists c s, rk_init k o fun_ (Fin t0) y0 (Fin tb) = inl (c, s).
Proof.
  intros -> Hk Hne. unfold rk_init.
  cbn [o_max_step opts o_rtol o_rtol_is_float o_atol o_first_step o_stiff o_sc].
  rewrite n0_RX. cbn [nleb RX xleb].
  assert (HV : exists p, validate_tol true (Fin (1/1000)) (Scalar (Fin (1/1000000))) y0 = inl p).
  { unfold validate_tol. rewrite n0_RX. cbn [negb nltb RX xltb]. unfold Rltb.
    destruct (Rlt_dec (1/1000000) 0); [lra|]. destruct (Rlt_dec (1/1000) 0); [lra|]. eauto. }
  destruct HV as ((rt, at_) & ->).
  assert (HS : exists a, init_stiff (k_stab k) 5000 = inl a).
  { unfold init_stiff. simpl. eauto. }
  destruct HS as (nsd & ->).
  assert (HC : exists a b c d, sc_coefs (sc_or ScNone (k_sc k)) = inl (a, b, c, d)).
  { repeat (destruct Hk as [<-|Hk]; [simpl; do 4 eexists; reflexivity|]). destruct Hk. }
  destruct HC as (a & b & cc & d & ->).
  destruct (h_start _ _ _ _ _ _ _ _ _ _) as [h cl]. eauto.
Qed.

(** every first-order class can be constructed for every problem, and its run ends *)
Theorem every_class_builds k fun_ t0 tb y0 : In k classes -> t0 <> tb -> y0 <> [] ->
  exists c s, built (opts None PInf 5000) fun_ t0 tb y0 c s.
Proof.
  intros Hk Hne Hy. destruct (init_ok k _ fun_ t0 tb y0 eq_refl Hk Hne) as (c & s & H).
  exists c, s. left. exists k. split; [apply classes_ordinary; auto|exact H].
Qed.

Theorem every_class_runs k m fun_ t0 tb y0 : In k classes -> explicit m -> t0 <> tb -> y0 <> [] -> (m_stages m <= 5000)%nat ->
  exists c n v, after m (opts None PInf 5000) fun_ t0 tb y0 c n v /\ (stat v = Finished \/ is_failed v).
Proof.
  intros Hk Hm Hne Hy Hst. destruct (init_ok k _ fun_ t0 tb y0 eq_refl Hk Hne) as (c & s & H).
  assert (HB : built (opts None PInf 5000) fun_ t0 tb y0 c s) by (left; exists k; split; [apply classes_ordinary; auto|exact H]).
  destruct (run_ends m _ _ _ _ _ c s Hm HB) as (n & v & H1 & H2).
  - assert (Hc : nfev_stiff_detect c = 0%nat \/ nfev_stiff_detect c = 5000%nat).
    { clear - H. unfold rk_init in H. cbn [o_stiff opts] in H.
      destruct (nleb RX _ n0); [discriminate|]. destruct (validate_tol _ _ _ _) as [[? ?]|]; [|discriminate].
      unfold init_stiff in H. change (5000 <? 0)%Z with false in H. cbv iota in H.
      destruct (sc_coefs _) as [[[[? ?] ?] ?]|]; [|discriminate]. cbv zeta in H.
      match type of H with match ?x with inl _ => _ | inr _ => _ end = _ => destruct x as [[? ?]|]; [|discriminate] end.
      apply inl_pair_inj in H. destruct H as [<- _]. cbn [nfev_stiff_detect].
      destruct (hasStab _); [right; reflexivity|left; reflexivity]. }
    destruct Hc as [->| ->]; auto.
  - exists c, n, v. split; [exists s; auto|exact H2].
Qed.

(** ** y' = 0 on [0, 1] with Me4, first_step = 1: one accepted step, then finished *)
Definition zero_rhs : num RX -> list (num RX) -> list (num RX) := fun _ _ => [Fin 0].

Lemma stages_zero (m : Meth RX) tt yy h k : forall K cl, exists cl',
  stages m zero_rhs tt yy h k K cl = (K ++ repeat ([Fin 0] : list (num RX)) k, cl').
Proof.
  induction k as [|k IH]; intros K cl; [exists cl; simpl; now rewrite app_nil_r|].
  cbn [stages]. destruct (IH (K ++ [zero_rhs tt yy]) (cl ++ [m_point m tt yy h K (length K)])) as (cl' & E).
  exists cl'. refine (eq_trans E _). rewrite <- app_assoc. reflexivity.
Qed.

Lemma lincomb_zero l k : @lincomb RX 1 (lv l) (repeat [Fin 0] k) = [Fin 0].
Proof.
  unfold lincomb. rewrite n0_RX. cbn [repeat].
  revert k. induction l as [|q l IH]; intros [|k]; try reflexivity.
  cbn [lv map combine repeat fold_left]. unfold lv in IH.
  assert (E : vadd [Fin 0] (vscale (fst (@lit RX q, [Fin 0])) (snd (@lit RX q, [Fin 0]))) = [Fin 0]).
  { cbn [fst snd]. unfold vadd, vscale. rewrite lit_RX. cbn [map map2].
    change (nmul RX) with xmul. change (nadd RX) with xadd. cbn [xmul xadd].
    f_equal. f_equal. ring. }
  refine (eq_trans _ (IH k)). cbn [fst snd] in *.
  refine (f_equal (fold_left _ _) E).
Qed.

Lemma npmax_ex a b : exists m, @npmax RX (Fin a) (Fin b) = Fin m /\ a <= m /\ b <= m.
Proof. unfold npmax. cbn. destruct (Rleb_spec b a); eexists; (split; [reflexivity|lra]). Qed.
Lemma npmin_ex a b : exists m, @npmin RX (Fin a) (Fin b) = Fin m /\ (m = a \/ m = b).
Proof. unfold npmin. cbn. destruct (Rleb_spec a b); eexists; (split; [reflexivity|auto]). Qed.

Theorem zero_run : exists c s v,
  built (opts (Some (Fin 1)) PInf 0) zero_rhs 0 1 [Fin 1] c s /\
  ode_step 1 (Me4_meth 1) c (new_solver s) = StepOk v /\ stat v = Finished /\ y (st v) = [Fin 1] /\
  nfs (st v) = nfs s /\ xleb (code_min_step c s) (max_step c) = true /\
  xleb (code_min_step c s) (Fin 1) = true /\ h_abs s = Fin 1.
Proof.
  assert (HI : exists c s, rk_init Me4_cls (opts (Some (Fin 1)) PInf 0) zero_rhs (Fin 0) [Fin 1] (Fin 1) = inl (c, s)
     /\ h_abs s = Fin 1 /\ nfev_stiff_detect c = 0%nat /\ fn c = zero_rhs).
  { unfold rk_init. cbn [o_max_step opts o_rtol o_rtol_is_float o_atol o_first_step o_stiff o_sc].
    rewrite n0_RX. cbn [nleb RX xleb].
    assert (HV : exists p, validate_tol true (Fin (1/1000)) (Scalar (Fin (1/1000000))) [Fin 1] = inl p).
    { unfold validate_tol. rewrite n0_RX. cbn [negb nltb RX xltb]. unfold Rltb.
      destruct (Rlt_dec (1/1000000) 0); [lra|]. destruct (Rlt_dec (1/1000) 0); [lra|]. eauto. }
    destruct HV as ((rt, at_) & ->).
    change (init_stiff (k_stab Me4_cls) 0) with (@inl nat exn 0%nat). cbv iota.
    assert (HC : exists a b c d, sc_coefs (sc_or ScNone (k_sc (@Me4_cls RX))) = inl (a, b, c, d)) by (simpl; do 4 eexists; reflexivity).
    destruct HC as (a & b & cc & d & ->). cbv zeta.
    change (nsub RX) with xsub. change (nabs RX) with xabs. unfold xsub. cbn [xopp xadd xabs nltb RX xltb].
    unfold Rleb. destruct (Rle_dec 1 0); [lra|].
    replace (Rabs (1 + - 0)) with 1 by (rewrite Rabs_right; lra).
    unfold Rltb. destruct (Rlt_dec 1 1); [lra|].
    do 2 eexists. split; [reflexivity|]. auto. }
  destruct HI as (c & s & HI & Hh & Hn & Hfn).
  assert (HB : built (opts (Some (Fin 1)) PInf 0) zero_rhs 0 1 [Fin 1] c s).
  { left. exists Me4_cls. split; [|exact HI]. constructor; try discriminate; try lra.
    - apply lv_fin.
    - unfold sc_or; cbn [o_sc opts sc_truthy]. apply sc_names_ok. auto. }
  destruct (built_good _ _ _ _ _ _ _ HB) as (r & HG & HS & E1 & E2 & Hd & Hb & Hte & Ht & Hy & Hf & Hms & Hhp & Hsc & _).
  destruct (built_inv _ _ _ _ _ _ _ HB) as (r2 & HG2 & _ & _).
  pose proof (good_live r s HS) as HL.
  pose proof (code_min_step_val c r s HG HL) as Hcm.
  assert (Hmin1 : min_step_at r s <= 1).
  { unfold min_step_at, min_step_of, tval, hval. rewrite Ht, Hh, Rabs_R0.
    destruct HG as ((_&_&Ha&_) & _).
    assert (Ha2 : h_min_a c = h_min_a0 (lv Me4_C)).
    { clear - HI. unfold rk_init in HI.
      destruct (nleb RX _ n0); [discriminate|]. destruct (validate_tol _ _ _ _) as [[? ?]|]; [|discriminate].
      destruct (init_stiff _ _); [|discriminate].
      destruct (sc_coefs _) as [[[[? ?] ?] ?]|]; [|discriminate]. cbv zeta in HI.
      match type of HI with match ?x with inl _ => _ | inr _ => _ end = _ => destruct x as [[? ?]|]; [|discriminate] end.
      apply inl_pair_inj in HI. destruct HI as [<- _]. reflexivity. }
    rewrite Ha in Ha2. unfold h_min_a0 in Ha2.
    destruct (cdiff_ok (lv Me4_C) (lv_fin _)) as (d & Hdd & Hd1). rewrite Hdd, lit_RX in Ha2.
    change (nmul RX) with xmul in Ha2. change (ndiv RX) with xdiv in Ha2. cbn [n_epsneg RX xmul xdiv] in Ha2.
    destruct (Req_EM_T d 0); [lra|]. injection Ha2 as Ha2.
    assert (Hp : 0 < / 2 ^ 53 <= / 10 ^ 15).
    { split; [apply Rinv_0_lt_compat, pow_lt; lra|]. apply Rinv_le_contravar; [apply pow_lt; lra|]. simpl; lra. }
    apply Rmax_lub.
    - rewrite Ha2. replace (Q2R 10) with 10 by (unfold Q2R; simpl; lra).
      assert (/ d <= 1000). { replace 1000 with (/ (1/1000)) by field. apply Rinv_le_contravar; lra. }
      assert (0 < / d) by (apply Rinv_0_lt_compat; lra).
      assert (/ 10 ^ 15 <= / 1000000) by (apply Rinv_le_contravar; [lra|simpl; lra]).
      unfold Rdiv. rewrite Rplus_0_l. nra.
    - rewrite Hb. rewrite <- sqrt_1. apply sqrt_le_1_alt. rewrite <- Rinv_1.
      apply Rinv_le_contravar; [lra|]. apply pow_R1_Rle. lra. }
  assert (Hmx : max_step c = PInf) by exact Hms.
  exists c, s.
  assert (Htb : t_bound c = Fin 1) by (destruct HG as ((HH1 & _) & _); rewrite HH1, E1; reflexivity).
  assert (HTr : trial0 c r s = 1).
  { unfold trial0, dist, clip. unfold tval, hval in *. rewrite Ht, Hh, E1, Hmx. cbn [xltb].
    replace (Rabs (1 - 0)) with 1 by (rewrite Rabs_right; lra).
    destruct (Rltb_spec 1 (min_step_at r s)); [lra|]. cbn [orb].
    destruct (Rlt_dec 1 (2 * 1)); [|lra]. destruct (Rlt_dec 1 1); [lra|reflexivity]. }
  destruct (step_unfold (Me4_meth 1) c r 1 s HG HL) as (sc & Hsc1 & Hmp & _ & HU). rewrite HTr in HU.
  assert (Hdir : direction c = Fin 1).
  { destruct HG as ((_ & Hdir & _) & HR & _). rewrite Hdir. f_equal.
    destruct HR as ([E|E]&_); rewrite E in Hd; [exact E|lra]. }
  assert (Hstep : exists s', step_impl 1 (Me4_meth 1) c s = Done s' /\ y s' = [Fin 1] /\ t s' = Fin 1 /\ nfs s' = nfs s).
  { rewrite HU. cbn [rk_loop]. unfold trial_step. cbn [nltb RX xltb].
    destruct (Rltb_spec 1 (min_step_at r s)); [lra|].
    cbn [Me4_meth rk_meth m_stages m_pre m_fsal m_point m_sol m_err m_nan_first].
    rewrite Hdir. change (nmul RX) with xmul. cbn [xmul].
    cbn [with_trial t y f calls]. rewrite Hfn.
    assert (Hf0 : f s = [Fin 0]) by (unfold fresh in Hf; rewrite Hf, Hfn; reflexivity).
    rewrite Hf0, Hy, Ht.
    destruct (stages_zero (rk_meth Me4_tab 1 Me4_stab) (Fin 0) [Fin 1] (Fin (1 * 1)) (r_stages (@Me4_tab RX) - 1) [[Fin 0]] (calls s)) as (cl & E).
    cbn [rk_meth] in E. unfold Me4_meth, rk_meth. 
    match goal with |- context [stages ?a ?b ?c0 ?d ?e ?f0 ?g ?h] =>
      replace (stages a b c0 d e f0 g h) with ([[Fin 0]] ++ repeat [Fin 0] (r_stages (@Me4_tab RX) - 1), cl) by (symmetry; exact E) end.
    unfold comp_sol_err. cbn [m_fsal m_sol m_err].
    assert (EF : negb (neqb RX (nth (r_stages (@Me4_tab RX)) (r_E (@Me4_tab RX)) n0) n0) = false).
    { cbn. unfold Reqb. destruct (Req_EM_T _ _) as [_|Hx]; [reflexivity|]. exfalso. apply Hx. unfold Q2R; simpl; lra. }
    rewrite EF.
    change ([[Fin 0]] ++ repeat [Fin 0] (r_stages (@Me4_tab RX) - 1)) with (repeat [Fin 0] 5).
    unfold rk_sol, rk_err. change (r_B (@Me4_tab RX)) with (@lv RX Me4_B). change (r_E (@Me4_tab RX)) with (@lv RX Me4_E).
    rewrite !lincomb_zero.
    assert (Ev : vscale (Fin (1 * 1)) [Fin 0] = ([Fin 0] : list (num RX))).
    { unfold vscale. cbn [map]. change (nmul RX) with xmul. cbn [xmul]. do 2 f_equal. ring. }
    rewrite Ev.
    assert (Ey : vadd [Fin 1] [Fin 0] = [Fin 1]).
    { unfold vadd. cbn [map2]. change (nadd RX) with xadd. cbn [xadd]. do 2 f_equal. ring. }
    rewrite Ey.
    assert (Een : exists e, err_norm c [Fin 1] [Fin 1] [Fin 0] = Fin e /\ 0 <= e < 1).
    { unfold err_norm. rewrite norm_sq_sum.
      assert (Hsc2 : exists q, calculate_scale (atol c) (rtol c) [Fin 1] [Fin 1] = [Fin q] /\ q <> 0).
      { clear - HI. unfold rk_init in HI. cbn [o_max_step opts o_rtol o_rtol_is_float o_atol o_first_step o_stiff o_sc] in HI.
        destruct (nleb RX _ n0); [discriminate|].
        unfold validate_tol in HI. rewrite !n0_RX in HI. cbn [negb nltb RX xltb] in HI. unfold Rltb in HI.
        destruct (Rlt_dec (1/1000000) 0); [lra|]. destruct (Rlt_dec (1/1000) 0); [lra|].
        destruct (init_stiff _ _); [|discriminate].
        destruct (sc_coefs _) as [[[[? ?] ?] ?]|]; [|discriminate]. cbv zeta in HI.
        match type of HI with match ?x with inl _ => _ | inr _ => _ end = _ => destruct x as [[? ?]|]; [|discriminate] end.
        apply inl_pair_inj in HI. destruct HI as [<- _]. cbn [atol rtol].
        assert (HT : exists lo, nsqrt RX (n_tiny RX) = Fin lo /\ 0 < lo < 1).
        { destruct hminb_RX as (b & Hb & Hb1). exists b. split; [exact Hb|exact Hb1]. }
        destruct HT as (lo & -> & Hlo). rewrite !lit_RX. cbn [n_epsneg RX]. change (nmul RX) with xmul. cbn [xmul].
        destruct (npmax_ex (1/1000000) lo) as (a & -> & _ & Ha).
        assert (Hp : 0 < Q2R 10 * / 2 ^ 53).
        { apply Rmult_lt_0_compat; [unfold Q2R; simpl; lra|apply Rinv_0_lt_compat, pow_lt; lra]. }
        destruct (npmax_ex (1/1000) (Q2R 10 * / 2 ^ 53)) as (b & -> & _ & Hb).
        destruct (npmin_ex b (Q2R (1#10))) as (d & -> & Hd).
        assert (Hd0 : 0 < d) by (destruct Hd as [->| ->]; [lra|unfold Q2R; simpl; lra]).
        unfold calculate_scale, bcast, vadd. cbn [length repeat map map2].
        change (nabs RX) with xabs. cbn [xabs].
        rewrite Rabs_R1. destruct (npmax_ex 1 1) as (o & -> & Ho & _).
        change (nmul RX) with xmul; change (nadd RX) with xadd; cbn [xmul xadd].
        eexists; (split; [reflexivity|]). nra. }
      destruct Hsc2 as (q & -> & Hq). unfold vdiv. cbn [map2]. change (ndiv RX) with xdiv. cbn [xdiv].
      destruct (Req_EM_T q 0); [contradiction|].
      cbn [map2 fold_left xmul xadd length xdiv]. simpl INR.
      destruct (Req_EM_T 1 0); [lra|]. cbn [xsqrt].
      assert (EZ : (0 + 0 / q * (0 / q)) / 1 = 0) by (field; lra). rewrite EZ.
      destruct (Rlt_dec 0 0); [lra|]. rewrite sqrt_0. exists 0. split; [reflexivity|lra]. }
    destruct Een as (e & Een & He). rewrite Een.
    rewrite n1_RX. cbn [nltb RX xltb]. destruct (Rltb_spec e 1); [|lra].
    assert (Hfac : exists fac sc2, accept_factor c (with_trial s sc (max_factor s) (jflstp s) (nfs s) (K s) (calls s)) sc (Fin (1*1)) (Fin e) = Factor fac sc2).
    { destruct sc; [|rewrite (Hsc1 eq_refl) in Hsc; discriminate].
      unfold accept_factor. destruct (nltb RX (Fin e) (tiny_err c)); eauto. }
    destruct Hfac as (fac & sc2 & Hfac).
    cbn [standard_sc with_trial].
    match goal with |- context [accept_factor c ?s0 ?b ?hh ?ee] =>
      replace (accept_factor c s0 b hh ee) with (@Factor RX fac sc2) by (symmetry; exact Hfac) end.
    unfold finish. cbn [m_fsal]. 
    rewrite RKMirror.diagnose_off by exact Hn.
    eexists. split; [reflexivity|]. cbn. split; [reflexivity|]. split; [f_equal; lra|reflexivity]. }
  destruct Hstep as (s' & HD & Hy' & Ht' & Hnf).
  exists {| st := s'; stat := Finished; t_old := Some (Fin 0) |}.
  split; [exact HB|]. split.
  { unfold ode_step. cbn [new_solver stat st]. rewrite Hy, Ht, Htb. cbn [length Nat.eqb orb neqb RX xeqb].
    unfold Reqb. destruct (Req_EM_T 0 1); [lra|]. rewrite HD. rewrite Ht', Hdir.
    change (nsub RX) with xsub. change (nmul RX) with xmul. unfold xsub. cbn [xopp xadd xmul].
    match goal with |- context [if ?b then Finished else Running] => assert (HB1 : b = true) end.
    { rewrite n0_RX. cbn [nleb RX xleb]. apply Rleb_true. lra. }
    rewrite HB1. reflexivity. }
  cbn [stat st]. split; [reflexivity|]. split; [exact Hy'|]. split; [exact Hnf|].
  rewrite Hcm, Hmx. split; [reflexivity|]. split; [apply Rleb_true; exact Hmin1|exact Hh].
Qed.
