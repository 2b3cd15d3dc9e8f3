(** ESDIRK: constructed solvers and their histories, over the extended reals. *)
From Coq Require Import String ZArith Reals Lra Psatz QArith Qreals Bool Lia List.
From Verif Require Import Arith Common Stiff RK HStart RKInit Tableaux Classes Dense Ode RX RKReal RKStep HStartReal RKInitReal NormReal ESDIRK ESDCls ESDGen ESDReal ESDStep.
Import ListNotations.
Close Scope string_scope. Open Scope nat_scope. Open Scope R_scope.

Definition esc_ok (a : sc_arg RX) : Prop :=
  match @esd_coefs RX a with
  | inl (kb1, kb2, al, g) => fin kb1 /\ fin kb2 /\ fin al /\ exists gg, g = Fin gg /\ 0 < gg < 1
  | inr _ => False
  end.
Lemma esc_names n : n = "G"%string \/ n = "S"%string \/ n = "standard"%string -> esc_ok (ScName n).
Proof.
  intros [-> | [-> | ->]]; unfold esc_ok; simpl;
  (split; [eexists; reflexivity|]); (split; [eexists; reflexivity|]); (split; [eexists; reflexivity|]);
  eexists; (split; [reflexivity|]); unfold Q2R; simpl; lra.
Qed.

Lemma lv2_fin l : allfin (@lv2 RX l).
Proof.
  unfold allfin, lv2. apply Forall_forall. intros x Hx. apply in_map_iff in Hx. destruct Hx as (p & <- & _).
  unfold l2. rewrite !lit_RX. cbn [nadd nmul nsqrt RX xmul xadd xsqrt]. destruct (Rlt_dec (Q2R 2) 0) as [H|H]; [|eexists; reflexivity].
  exfalso. revert H. unfold Q2R; simpl; lra.
Qed.
Lemma lv_fin1 l : allfin (@lv RX l).
Proof. unfold allfin, lv. apply Forall_forall. intros x Hx. apply in_map_iff in Hx. destruct Hx as (p & <- & _). eexists; reflexivity. Qed.
Lemma esd_all_C m : In m (@esd_all RX) -> allfin (em_C m) /\ (2 <= em_stages m)%nat /\ em_sc m = ScName "G".
Proof.
  intros [<-|[<-|[<-|[<-|[<-|[<-|[]]]]]]]; (split; [first [apply lv2_fin|apply lv_fin1]|]); (split; [|reflexivity]); apply Nat.leb_le; reflexivity.
Qed.

Lemma esd_init_good m o luok solve f jac M t0 tb (y0 : list xr) c s : In m esd_all ->
  esd_init m o luok solve f jac M (Fin t0) y0 (Fin tb) = inl (c, s) ->
  t0 <> tb -> y0 <> [] -> esc_ok (sc_or (p_sc o) (em_sc m)) -> p_max_step o <> NaN -> p_first_step o <> Some NaN ->
  exists r h yp0 J0 jc, egood c r /\ ctb r = tb /\ 0 < cd r * (tb - t0) /\ cmb r = sqrt (/ 2 ^ 1022) /\
    x_fun c = f /\ x_jac c = (match jac with JacConst _ => None | JacFun j => Some j end) /\ x_jac_each c = p_jac_each o /\
    x_n c = length y0 /\ x_M c = M /\ x_dae c = None /\ x_luok c = luok /\ x_solve c = solve /\ x_max_step c = p_max_step o /\
    x_f0 c = f (Fin t0) y0 /\ solve (mat_of (length y0) M) (f (Fin t0) y0) = Some yp0 /\ 0 < h /\
    (forall h', p_first_step o = Some h' -> Fin h = h') /\
    (match jac with JacConst J => J0 = J /\ jc = [] | JacFun j => J0 = j 0%nat (Fin t0) y0 /\ jc = [(Fin t0, y0)] end) /\
    s = mkES (Fin t0) y0 yp0 (Fin h) None None None None [] (mkW J0 true None None None NInf 0 true (Fin 10) 0 0 0 0 [(Fin t0, y0)] jc).
Proof.
  intros Hm H Hne Hy Hsc Hms Hfs. destruct (esd_all_C m Hm) as (HC & _ & _). unfold esd_init in H.
  destruct (nleb RX (p_max_step o) n0) eqn:Emax; [discriminate|].
  destruct (validate_tol (p_rtol_is_float o) (p_rtol o) (p_atol o) y0) as [[rt at_]|]; [|discriminate].
  unfold esc_ok in Hsc. cbv zeta in H.
  destruct (esd_coefs (sc_or (p_sc o) (em_sc m))) as [[[[kb1 kb2] al] gg]|]; [|discriminate].
  destruct Hsc as ([k1 ->] & [k2 ->] & [al1 ->] & (g1 & -> & Hg)).
  destruct (negb (esd_class_ok m)); [discriminate|].
  match type of H with (match ?x with (_, _) => _ end) = _ => destruct x as [[J0 jc] xj] eqn:EJ end.
  match type of H with (if ?b then _ else _) = _ => destruct b; [discriminate H|] end.
  match type of H with (match ?b with Some _ => _ | None => _ end) = _ => destruct b as [yp0|] eqn:ES; [|discriminate H] end.
  destruct (direction0_RX t0 tb Hne) as (d & Hd & Hd1 & Hd2). rewrite Hd in H.
  assert (HMS : p_max_step o = PInf \/ exists M, p_max_step o = Fin M /\ 0 < M).
  { rewrite n0_RX in Emax. cbn [nleb RX] in Emax. destruct (p_max_step o) as [Mx| | |]; simpl in Emax; try discriminate; auto.
    - apply Rleb_false in Emax. eauto. - congruence. }
  match type of H with (match ?X with inl _ => _ | inr _ => _ end = _) =>
    assert (HF : (exists h, X = inl (Fin h) /\ 0 < h /\ forall h', p_first_step o = Some h' -> Fin h = h') \/ exists e, X = inr e) end.
  { unfold esd_first. destruct (p_first_step o) as [h0|].
    - rewrite n0_RX. cbn [nabs nsub nleb nltb RX]. unfold xsub. cbn [xopp xadd xabs].
      destruct h0 as [h0| | |]; [| | |exfalso; apply Hfs; reflexivity]; simpl.
      + destruct (Rleb_spec h0 0); [right; eauto|]. destruct (Rltb_spec (Rabs (tb + - t0)) h0); [right; eauto|].
        left. exists h0. split; [reflexivity|]. split; [lra|]. intros h' E. injection E as <-. reflexivity.
      + right; eauto. + right; eauto.
    - left. assert (Hb : exists b, nadd RX (Fin t0) (nmul RX (Fin d) (pymin (nabs RX (nsub RX (Fin tb) (Fin t0))) (p_max_step o))) = Fin b /\ t0 <> b).
      { cbn [nabs nsub RX]. unfold xsub. cbn [xopp xadd xabs]. assert (0 < Rabs (tb + - t0)) by (apply Rabs_pos_lt; lra).
        destruct HMS as [-> | (Mx & -> & HM)].
        - unfold pymin. cbn [nltb RX xltb nadd nmul xmul xadd]. eexists; split; [reflexivity|]. destruct Hd1; subst d; lra.
        - rewrite pymin_fin. cbn [nadd nmul RX xmul xadd]. eexists; split; [reflexivity|].
          assert (0 < Rmin (Rabs (tb + - t0)) Mx) by (apply Rmin_case; lra). destruct Hd1; subst d; lra. }
      destruct Hb as (b & -> & Hb). cbv zeta.
      match goal with |- context [h_start ?fx _ _ _ _ ?oo _ _ _ _] => destruct (h_start_spec fx t0 b y0 yp0 oo rt at_ None None Hb Hy) as (h & cl & -> & Hh & _) end.
      exists (Rabs h). split; [reflexivity|]. split; [apply Rabs_pos_lt; intros ->; lra|discriminate]. }
  destruct HF as [(h & HF1 & Hh & Hh')|[e HF1]]; rewrite HF1 in H; [|discriminate]. clear HF1.
  apply inl_pair_inj in H. destruct H as [Hc Hs].
  destruct (hmina_RX (em_C m) HC) as (a & Ha & Ha0).
  assert (Hb : @h_min_b0 RX = Fin (sqrt (/ 2 ^ 1022))).
  { unfold h_min_b0. cbn [nsqrt n_tiny RX xsqrt]. destruct (Rlt_dec (/ 2 ^ 1022) 0) as [Hx|Hx]; [|reflexivity]. exfalso. assert (0 < / 2 ^ 1022) by (apply Rinv_0_lt_compat, pow_lt; lra). lra. }
  set (ord := S (Nat.min (em_order2 m) (em_order m))) in *.
  assert (Hord : 0 < INR ord) by (apply lt_0_INR; unfold ord; lia).
  assert (Hee : ndiv RX (nopp RX n1) (nofnat ord) = Fin (- 1 / INR ord)).
  { rewrite n1_RX, nofnat_RX. cbn [nopp ndiv RX xopp xdiv]. destruct (Req_EM_T (INR ord) 0); [lra|]. reflexivity. }
  assert (HT : exists te, nmul RX (nsqrt RX (nofnat (length y0))) (npow RX (n_eps RX) (lit (8#10))) = Fin te /\ 0 < te).
  { rewrite nofnat_RX, lit_RX. cbn [nsqrt RX xsqrt npow n_eps].
    assert (HL : 0 < INR (length y0)) by (apply lt_0_INR; destruct y0; [congruence|cbn [length]; lia]).
    destruct (Rlt_dec (INR (length y0)) 0) as [Hx|Hx]; [lra|].
    destruct (xpow_fin (/ 2 ^ 52) (Q2R (8#10))) as (p & -> & Hp); [apply Rinv_0_lt_compat, pow_lt; lra|].
    change (nmul RX) with xmul. cbn [xmul]. eexists. split; [reflexivity|]. apply Rmult_lt_0_compat; [apply sqrt_lt_R0; exact HL|exact Hp]. }
  destruct HT as (te & HT & Hte).
  assert (Hmfl : @MIN_FACTOR RX = Fin (1/5)) by (unfold MIN_FACTOR; litR).
  exists {| ctb := tb; cd := d; cma := a; cmb := sqrt (/ 2 ^ 1022); cte := te; cg := g1; ce := - 1 / INR ord |}, h, yp0, J0, jc.
  subst c s. cbn [ctb cd cmb x_fun x_jac x_jac_each x_n x_M x_dae x_luok x_solve x_max_step x_f0].
  split. { unfold egood. cbn [ctb cd cma cmb cte cg ce x_tb x_dir x_hmina x_hminb x_tiny x_safety x_ee x_minf x_max_step].
    split; [reflexivity|]. split; [reflexivity|]. split; [exact Hd1|]. split; [exact Ha|]. split; [exact Ha0|]. split; [exact Hb|]. split; [apply sqrt_tiny_pos|].
    split; [exact HT|]. split; [exact Hte|]. split; [reflexivity|]. split; [exact Hg|]. split; [exact Hee|]. split; [|split; [exact Hmfl|exact HMS]].
    replace (-1 / INR ord) with (- (1 / INR ord)) by (field; lra). apply Ropp_lt_gt_0_contravar. apply Rdiv_lt_0_compat; lra. }
  split; [reflexivity|]. split; [exact Hd2|]. split; [reflexivity|]. split; [reflexivity|].
  split; [destruct jac; injection EJ as <- <- <-; reflexivity|]. do 6 (split; [reflexivity|]). split; [reflexivity|]. split; [reflexivity|].
  split; [first [exact ES|reflexivity]|]. split; [exact Hh|]. split; [exact Hh'|]. split; [destruct jac; injection EJ as <- <- _; auto|].
  rewrite MAXF0_RX. reflexivity.
Qed.

(** ** what the environment has to provide *)
(** shapes, and scipy's check_finite: lu_factor and lu_solve raise ValueError on inf or nan *)
Definition env_ok (n : nat) (f : xr -> list xr -> list xr) (jac : jac_arg RX) (luok : list (list xr) -> bool) (solve : list (list xr) -> list xr -> option (list xr)) : Prop :=
  (forall t y, length (f t y) = n) /\
  (match jac with JacConst J => mshape n J | JacFun j => forall k t y, mshape n (j k t y) end) /\
  (forall X, luok X = true -> mfin X) /\
  (forall L b x, solve L b = Some x -> allfin b /\ length x = n).

Inductive esd_built (m : EMeth RX) (o : EOpts RX) (f : xr -> list xr -> list xr) (t0 tb : R) (y0 : list xr) : ECfg RX -> ES RX -> Prop :=
| EB_ode luok solve jac M c s :
    esd_init m o luok solve f jac M (Fin t0) y0 (Fin tb) = inl (c, s) -> env_ok (length y0) f jac luok solve ->
    (forall M', M = Some M' -> mshape (length y0) M') -> esd_built m o f t0 tb y0 c s
| EB_dae luok solve jac M U nAE y1 yp1 J1 h1 c s :
    esd_init_dae m o luok solve f jac M U nAE (Fin t0) y0 (Fin tb) (y1, yp1, J1, Fin h1) = inl (c, s) -> env_ok (length y0) f jac luok solve ->
    mshape (length y0) M -> mshape (length y0) U -> length y1 = length y0 -> length yp1 = length y0 -> mshape (length y0) J1 -> h1 <> 0 ->
    esd_built m o f t0 tb y0 c s.

(** the arguments we consider: one of the six classes, a proper interval, a non-empty state,
    max_step and first_step not nan, controller parameters finite with 0 < g < 1 *)
Definition esd_args (m : EMeth RX) (o : EOpts RX) (t0 tb : R) (y0 : list xr) : Prop :=
  In m esd_all /\ t0 <> tb /\ y0 <> [] /\ esc_ok (sc_or (p_sc o) (em_sc m)) /\ p_max_step o <> NaN /\ p_first_step o <> Some NaN.

Theorem esd_built_good m o f t0 tb y0 c s : esd_args m o t0 tb y0 -> esd_built m o f t0 tb y0 c s ->
  exists r, egood c r /\ ctb r = tb /\ 0 < cd r * (tb - t0) /\ cmb r = sqrt (/ 2 ^ 1022) /\ x_max_step c = p_max_step o /\ x_fun c = f /\
    x_n c = length y0 /\ la_ok m c /\ einv m c s /\ e_t s = Fin t0 /\ x_f0 c = f (Fin t0) y0.
Proof.
  intros (Hm & Hne & Hy & Hsc & Hms & Hfs) HB. destruct (esd_all_C m Hm) as (_ & H2 & _).
  assert (Hn : (0 < length y0)%nat) by (destruct y0; [congruence|cbn [length]; lia]).
  destruct HB as [luok solve jac M c s HI (E1 & E2 & E3 & E4) HM|luok solve jac M U nAE y1 yp1 J1 h1 c s HI (E1 & E2 & E3 & E4) HM HU L1 L2 HJ1 Hh1].
  - destruct (esd_init_good _ _ _ _ _ _ _ _ _ _ _ _ Hm HI Hne Hy Hsc Hms Hfs) as (r & h & yp0 & J0 & jc & B1 & B2 & B3 & B4 & B5 & B6 & B7 & B8 & B9 & B10 & B11 & B12 & B13 & B14 & B15 & B16 & B17 & B18 & ->).
    exists r. split; [exact B1|]. split; [exact B2|]. split; [exact B3|]. split; [exact B4|]. split; [exact B13|]. split; [exact B5|]. split; [exact B8|].
    split; [|split; [|split; [reflexivity|exact B14]]].
    + unfold la_ok. rewrite B5, B6, B8, B9, B10, B11, B12. split; [exact H2|]. split; [exact Hn|]. split; [exact E3|]. split; [exact E4|]. split; [exact E1|]. split; [|split; [exact HM|discriminate]].
      intros j k t y E. destruct jac; [discriminate|]. injection E as <-. apply E2.
    + unfold einv. cbn [e_t e_habs e_y e_yp e_w e_hprev e_errold w_J w_maxf w_rate w_std w_hLU]. split; [eauto|]. split; [eauto|]. split; [symmetry; exact B8|].
      split; [rewrite B8; exact (proj2 (E4 _ _ _ B15))|]. split; [rewrite B8; destruct jac; destruct B18 as [-> _]; auto|]. split; [left; reflexivity|].
      split; [split; [reflexivity|exact I]|]. split; [intros _; reflexivity|]. split; [reflexivity|]. split; reflexivity.
  - unfold esd_init_dae in HI.
    match type of HI with (match ?x with inl _ => _ | inr _ => _ end) = _ => destruct x as [[c0 s0]|e] eqn:EI; [|discriminate HI] end.
    destruct (esd_init_good _ _ _ _ _ _ _ _ _ _ _ _ Hm EI Hne Hy Hsc Hms Hfs) as (r & h & yp0 & J0 & jc & B1 & B2 & B3 & B4 & B5 & B6 & B7 & B8 & B9 & B10 & B11 & B12 & B13 & B14 & B15 & B16 & B17 & B18 & ->).
    assert (HF : (exists h', esd_first o (Fin t0) (Fin tb) (x_dir c0) (fun _ => (Fin h1, [])) = inl (Fin h') /\ 0 < h') \/ exists e, esd_first o (Fin t0) (Fin tb) (x_dir c0) (fun _ => (Fin h1, [])) = inr e).
    { unfold esd_first. destruct (p_first_step o) as [h0|].
      - rewrite n0_RX. cbn [nabs nsub nleb nltb RX]. unfold xsub. cbn [xopp xadd xabs].
        destruct h0 as [h0| | |]; [| | |exfalso; apply Hfs; reflexivity]; simpl.
        + destruct (Rleb_spec h0 0); [right; eauto|]. destruct (Rltb_spec (Rabs (tb + - t0)) h0); [right; eauto|].
          left. exists h0. split; [reflexivity|lra].
        + right; eauto. + right; eauto.
      - left. cbv zeta. cbn [fst]. exists (Rabs h1). split; [reflexivity|apply Rabs_pos_lt; exact Hh1]. }
    cbv zeta in HI. cbn iota in HI.
    match type of HI with (match ?x with inl _ => _ | inr _ => _ end) = _ => change x with (esd_first o (Fin t0) (Fin tb) (x_dir c0) (fun _ => (Fin h1, []))) in HI end.
    destruct HF as [(h' & HF & Hh')|[e HF]]; rewrite HF in HI; [|discriminate HI].
    apply inl_pair_inj in HI. destruct HI as [Hc Hs].
    exists r. subst c s.
    split; [split; [cbn [x_tb]; rewrite B2; reflexivity|exact (proj2 B1)]|]. split; [exact B2|]. split; [exact B3|]. split; [exact B4|]. split; [exact B13|]. split; [reflexivity|]. split; [exact B8|].
    split; [|split; [|split; [reflexivity|exact B14]]].
    + unfold la_ok. cbn [x_fun x_jac x_n x_M x_dae x_luok x_solve]. rewrite B6, B8. split; [exact H2|]. split; [exact Hn|]. split; [exact E3|]. split; [exact E4|]. split; [exact E1|]. split; [|split].
      * intros j k t y E. destruct jac; [discriminate|]. injection E as <-. apply E2.
      * intros M' E. injection E as <-. exact HM.
      * intros U' k' E. injection E as <- _. exact HU.
    + unfold einv. cbn [e_t e_habs e_y e_yp e_w e_hprev e_errold w_J w_maxf w_rate w_std w_hLU x_n]. rewrite B8. split; [eauto|]. split; [eauto|]. split; [exact L1|].
      split; [exact L2|]. split; [exact HJ1|]. split; [left; exact MAXF0_RX|].
      split; [split; [discriminate|exact I]|]. split; [intros _; reflexivity|]. split; [reflexivity|]. split; reflexivity.
Qed.

(** ** histories *)
Definition esd_impl (m : EMeth RX) (c : ECfg RX) : nat -> ES RX -> impl_res (ES RX) := fun k => estep_impl m c k.
Definition esd_after m o f t0 tb y0 c n (v : OSolver RX (ES RX)) : Prop :=
  esd_args m o t0 tb y0 /\ exists s, esd_built m o f t0 tb y0 c s /\ ohist eview (x_tb c) (x_dir c) (esd_impl m c) (onew s) n v.
Definition esd_step (m : EMeth RX) (c : ECfg RX) (k : nat) (v : OSolver RX (ES RX))  :=
  ostep eview (x_tb c) (x_dir c) (esd_impl m c k) v.

Lemma einv_fin m c s : einv m c s -> exists x, v_t eview s = Fin x.
Proof. intros (H & _). exact H. Qed.
Lemma tv_eview s : tv eview s = tval s. Proof. reflexivity. Qed.
Lemma cd_abs r x : (cd r = 1 \/ cd r = -1) -> 0 < cd r * x -> Rabs x = cd r * x.
Proof. intros [-> | ->] H; unfold Rabs; destruct (Rcase_abs x); lra. Qed.

(** the step of estep_done, as progress *)
Lemma estep_adv m c r k s s' : la_ok m c -> egood c r -> einv m c s -> ahead eview (ctb r) (cd r) s -> estep_impl m c k s = IDone s' ->
  einv m c s' /\ cmb r <= cd r * (tval s' - tval s) <= cd r * (ctb r - tval s) /\
  (forall M, x_max_step c = Fin M -> cd r * (tval s' - tval s) < 101/100 * M).
Proof.
  intros HA HG HI Hah H. assert (Hcd : cd r = 1 \/ cd r = -1) by (destruct HG as (_ & _ & Hcd & _); exact Hcd).
  unfold ahead in Hah. rewrite tv_eview in Hah.
  assert (Ht : tval s <> ctb r) by (intros E; rewrite E in Hah; lra).
  destruct (estep_done m c r k s s' HA HG HI Ht H) as (HI' & h0 & ha & j & h1 & hn & hh & B1 & B2 & B3 & B4 & B5 & B6 & B7 & _).
  split; [exact HI'|]. assert (ET : tval s' = tval s + h1 * cd r) by (unfold tval at 1; rewrite B7; reflexivity). rewrite ET. rewrite (cd_abs r _ Hcd Hah) in B2.
  replace (cd r * (tval s + h1 * cd r - tval s)) with (cd r * cd r * h1) by ring.
  assert (Hc2 : cd r * cd r = 1) by (destruct Hcd as [-> | ->]; lra). rewrite Hc2, Rmult_1_l.
  assert (Hle : h1 <= ha).
  { eapply Rle_trans; [exact (proj2 B5)|]. rewrite <- (Rmult_1_r ha) at 2. apply Rmult_le_compat_l; [lra|].
    assert (Hsh : 0 <= eshrink r <= 1). { unfold eshrink. split; [apply Rle_trans with (1/2); [lra|apply Rmax_l]|]. apply Rmax_lub; [lra|]. destruct HG as (_ & _ & _ & _ & _ & _ & _ & _ & _ & _ & Hg & _). lra. }
    rewrite <- (pow1 j). apply pow_incr. exact Hsh. }
  split; [split; [|lra]|intros M EM; specialize (B3 M EM); lra].
  eapply Rle_trans; [|exact B6]. unfold emin. apply Rmax_r.
Qed.

Lemma esd_after_inv m o f t0 tb y0 c n v : esd_after m o f t0 tb y0 c n v ->
  exists r s0, egood c r /\ ctb r = tb /\ 0 < cd r * (tb - t0) /\ cmb r = sqrt (/ 2 ^ 1022) /\ x_max_step c = p_max_step o /\ x_fun c = f /\ x_n c = length y0 /\
    la_ok m c /\ einv m c s0 /\ e_t s0 = Fin t0 /\ x_f0 c = f (Fin t0) y0 /\ x_tb c = Fin tb /\ x_dir c = Fin (cd r) /\
    ohist eview (Fin tb) (Fin (cd r)) (esd_impl m c) (onew s0) n v /\
    oinv eview tb (cd r) (einv m c) (onew s0) /\ oinv eview tb (cd r) (einv m c) v.
Proof.
  intros (HArgs & s & HB & HH). destruct (esd_built_good _ _ _ _ _ _ _ _ HArgs HB) as (r & B1 & B2 & B3 & B4 & B5 & B6 & B7 & B8 & B9 & B10 & B11).
  assert (Etb : x_tb c = Fin tb) by (destruct B1 as (E & _); rewrite E, B2; reflexivity). assert (Edir : x_dir c = Fin (cd r)) by (destruct B1 as (_ & E & _); exact E).
  exists r, s. rewrite Etb, Edir in HH. do 13 (split; [first [assumption|reflexivity]|]). split; [exact HH|].
  assert (O0 : oinv eview tb (cd r) (einv m c) (onew s)).
  { unfold oinv, onew. cbn [ostat ost]. split; [exact B9|]. unfold ahead. rewrite tv_eview. unfold tval. rewrite B10. exact B3. }
  split; [exact O0|]. eapply (ohist_oinv eview tb (cd r) (esd_impl m c)); [| |exact O0|exact HH].
  - exact (einv_fin m c).
  - intros k s1 s2 I1 A1 E. rewrite <- B2 in A1. exact (proj1 (estep_adv m c r k s1 s2 B8 B1 I1 A1 E)).
Qed.

Lemma esd_step_cases m o f t0 tb y0 c n v k v' : esd_after m o f t0 tb y0 c n v -> esd_step m c k v = OOk v' ->
  exists r, egood c r /\ ctb r = tb /\ 0 < cd r * (tb - t0) /\ cmb r = sqrt (/ 2 ^ 1022) /\ x_max_step c = p_max_step o /\ x_fun c = f /\ x_n c = length y0 /\ la_ok m c /\
    x_f0 c = f (Fin t0) y0 /\ einv m c (ost v) /\ 0 < cd r * (tb - tval (ost v)) /\
    ((estep_impl m c k (ost v) = IDone (ost v') /\ einv m c (ost v') /\ ot_old v' = Some (e_t (ost v)) /\
        ((ostat v' = ORunning /\ 0 < cd r * (tb - tval (ost v'))) \/ (ostat v' = OFinished /\ tval (ost v') = tb))) \/
     (estep_impl m c k (ost v) = IFail (ost v') too_small /\ ostat v' = OFailed too_small /\ e_t (ost v') = e_t (ost v) /\ e_y (ost v') = e_y (ost v) /\ ot_old v' = ot_old v)).
Proof.
  intros HA HS. destruct (esd_after_inv _ _ _ _ _ _ _ _ _ HA) as (r & s0 & B1 & B2 & B3 & B4 & B5 & B6 & B7 & B8 & B9 & B10 & B11 & B12 & B13 & HH & O0 & O1).
  unfold esd_step in HS. rewrite B12, B13 in HS.
  assert (ID : forall k s s', einv m c s -> ahead eview tb (cd r) s -> esd_impl m c k s = IDone s' -> einv m c s').
  { intros k0 s1 s2 I1 A1 E. rewrite <- B2 in A1. exact (proj1 (estep_adv m c r k0 s1 s2 B8 B1 I1 A1 E)). }
  destruct (ostep_running eview tb (cd r) (esd_impl m c) (einv m c) (einv_fin m c) ID _ _ _ O1 HS) as (R1 & R2 & R3 & R4).
  exists r. do 9 (split; [assumption|]). split; [exact R2|]. split; [exact R3|].
  destruct R4 as [(s' & E1 & E2 & E3 & E4 & E5)|[(s' & msg & E1 & E2 & E3 & E4)|(E1 & _)]].
  - left. subst s'. split; [exact E1|]. split; [exact E3|]. split; [exact E4|]. destruct E5 as [E5|[E5 E6]]; [left; exact E5|right]. split; [exact E5|].
    rewrite <- B2 in R3. destruct (estep_adv m c r k _ _ B8 B1 R2 R3 E1) as (_ & [_ HL] & _). rewrite tv_eview in E6. rewrite B2 in HL.
    assert (Hcd : cd r = 1 \/ cd r = -1) by (destruct B1 as (_ & _ & Hcd & _); exact Hcd). destruct Hcd as [D|D]; rewrite D in *; lra.
  - right. subst s'. assert (Ht : tval (ost v) <> ctb r) by (unfold ahead in R3; rewrite tv_eview in R3; rewrite B2; intros E; rewrite E in R3; lra).
    destruct (estep_fail m c r k _ _ _ B8 B1 R2 Ht E1) as (-> & F1 & F2 & _). auto.
  - exfalso. cbn [eview v_n] in E1. destruct R2 as (_ & _ & L & _). rewrite L in E1. destruct B8 as (_ & Hn & _). lia.
Qed.
