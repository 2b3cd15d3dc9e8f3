(** SSV2stab over the extended reals: one trial, step(), histories. *)
From Coquelicot Require Import Coquelicot.
From Coq Require Import String ZArith Reals Lra Psatz QArith Qreals Bool Lia List Arith.
From Verif Require Import Arith Common Stiff RK RX HStart RKInit RKReal RKStep HStartReal RKInitReal NormReal Prop_Tol Ode Dense OrderRK OrderModel SwagArr Rkc RkcGen Cheb RkcReal RkcOrd RkcRho.
Import ListNotations.
Close Scope string_scope. Open Scope nat_scope. Open Scope R_scope.

(** the constants of a constructed solver *)
Record rcfg (c : RkcCfg RX) (d : nat) (F : R -> list R -> list R) (tb dir mx rt hm : R) (al : list R) : Prop := {
  cf_d : (0 < d)%nat;
  cf_fun : lifts d F (rc_fun c);
  cf_tb : rc_tb c = Fin tb; cf_dir : rc_dir c = Fin dir; cf_dir1 : dir = 1 \/ dir = -1;
  cf_mx : rc_max_step c = Fin mx; cf_mx0 : 0 < mx;
  cf_rt : rc_rtol c = Fin rt; cf_rt0 : 0 < rt;
  cf_al : bcast (rc_atol c) d = map Fin al; cf_al1 : length al = d; cf_al0 : Forall (fun a => 0 < a) al;
  cf_hm : rc_hmin c = Fin hm; cf_hm0 : 0 < hm;
  cf_mm : (2 <= rc_mmax c)%Z;
  cf_rho : match rc_rho c with None => True | Some r => forall t y, length y = d -> exists q, r (Fin t) (map Fin y) = Fin q /\ 0 <= q end }.

(** the state at time t with value y, radius sp (between steps and between trials) *)
Record rst (d : nat) (F : R -> list R -> list R) (t : R) (y : list R) (sp : R) (s : RkcSt RX) : Prop := {
  st_t : rs_t s = Fin t; st_y : rs_y s = map Fin y; st_len : length y = d;
  st_yn : rs_yn s = map Fin y; st_fn : rs_fn s = map Fin (F t y);
  st_absh : match rs_absh s with None => True | Some a => exists r, a = Fin r /\ 0 < r end;
  st_hold : match rs_hold s with None => True | Some a => exists r, a = Fin r /\ r <> 0 end;
  st_errold : exists e, rs_errold s = Fin e /\ 0 <= e;
  st_V : match rs_V s with None => True | Some V => exists W, V = map Fin W /\ length W = d end;
  st_sp : rs_sprad s = Fin sp; st_sp0 : 0 <= sp }.

(** ** number of stages and step size *)
Definition stretch (tb t a : R) : R := if Rle_dec (Rabs (tb - t)) (11/10 * a) then Rabs (tb - t) else a.
Lemma stretch_le tb t a : 0 < a -> stretch tb t a <= 11/10 * a /\ stretch tb t a <= Rabs (tb - t).
Proof. intros. unfold stretch. destruct (Rle_dec _ _); split; lra. Qed.
Lemma trunc_spec r : 1 <= r -> (1 <= trunc r)%Z /\ IZR (trunc r) <= r < IZR (trunc r) + 1.
Proof.
  intros H. unfold trunc. destruct (Rle_dec 0 r); [|lra]. pose proof (base_Int_part r) as [B1 B2]. split; [|lra].
  assert (0 < Int_part r)%Z; [|lia]. apply lt_IZR. lra.
Qed.
Lemma select_real c d F tb dir mx rt hm al sp t a : rcfg c d F tb dir mx rt hm al -> 0 <= sp -> 0 < a -> t <> tb ->
  exists m a' lim, rkc_select ELX c (Fin sp) (Fin t) (Fin a) = inl (Z.of_nat m, Fin a', lim) /\
    (2 <= m)%nat /\ (Z.of_nat m <= rc_mmax c)%Z /\ 0 < a' /\ a' <= stretch tb t a /\ a' * sp <= (INR m * INR m - 1) / (154/100) /\
    (lim = false -> a' = stretch tb t a /\ (INR m - 1) * (INR m - 1) <= 154/100 * a' * sp + 1) /\
    (lim = true -> Z.of_nat m = rc_mmax c /\ 0 < sp /\ a' = (INR m * INR m - 1) / (154/100 * sp)).
Proof.
  intros C Hs Ha Ht. unfold rkc_select. rewrite (cf_tb _ _ _ _ _ _ _ _ _ C). cbn [nsub nabs nmul nadd RX]. unfold xsub. cbn [xopp xadd xabs].
  rewrite !lit_RX. cbn [xmul]. replace (Q2R (11#10)) with (11/10) by (unfold Q2R; cbn; lra). replace (Q2R (154#100)) with (154/100) by (unfold Q2R; cbn; lra).
  change (tb + - t) with (tb - t).
  assert (P0 : 0 < Rabs (tb - t)) by (apply Rabs_pos_lt; lra).
  assert (ES : (if nleb RX (Fin (Rabs (tb - t))) (Fin (11/10 * a)) then Fin (Rabs (tb - t)) else Fin a) = Fin (stretch tb t a)).
  { unfold stretch. change (nleb RX (Fin (Rabs (tb - t))) (Fin (11/10 * a))) with (Rleb (Rabs (tb - t)) (11/10 * a)). unfold Rleb. destruct (Rle_dec _ _); reflexivity. }
  change (num RX) with xr in *. rewrite ES. set (b := stretch tb t a) in *.
  assert (Hb : 0 < b) by (unfold b, stretch; destruct (Rle_dec _ _); assumption).
  rewrite n1_RX. cbn [xmul xadd]. assert (NN : 0 <= 154/100 * b * sp + 1) by nra. rewrite msqrt_fin by exact NN. cbn [el_int ELX to_int].
  set (q := sqrt (154/100 * b * sp + 1)). assert (Q1 : 1 <= q). { apply Rle_trans with (sqrt 1); [rewrite sqrt_1; lra|apply sqrt_le_1_alt; nra]. }
  assert (Q2 : q * q = 154/100 * b * sp + 1) by (apply sqrt_sqrt; exact NN).
  destruct (trunc_spec q Q1) as [K1 K2]. set (k := trunc q) in *. 
  pose proof (cf_mm _ _ _ _ _ _ _ _ _ C) as MM.
  destruct (Z.ltb_spec (rc_mmax c) (1 + k)) as [Z|Z].
  - assert (2 <= IZR (rc_mmax c)) by (apply (IZR_le 2) in MM; exact MM).
    assert (IZR (rc_mmax c) <= q). { apply Rle_trans with (IZR k); [apply IZR_le; lia|lra]. }
    assert (SP : 0 < sp). { destruct (Req_dec sp 0) as [->|]; [|lra]. rewrite Rmult_0_r in Q2. nra. }
    exists (Z.to_nat (rc_mmax c)). rewrite Z2Nat.id by lia. rewrite INR_IZR_INZ, Z2Nat.id by lia. set (M := IZR (rc_mmax c)) in *.
    exists ((M * M - 1) / (154/100 * sp)), true. split.
    { rewrite zlit_RX. rewrite xdiv_fin by nra. rewrite minus_IZR, mult_IZR. reflexivity. }
    assert (P : 0 < (M * M - 1) / (154/100 * sp)) by (apply Rdiv_lt_0_compat; nra).
    split; [lia|]. split; [lia|]. split; [exact P|]. split.
    { apply Rmult_le_reg_r with (154/100 * sp); [nra|]. unfold Rdiv. rewrite Rmult_assoc, Rinv_l by nra. nra. }
    split; [right; field; lra|]. split; [discriminate|]. auto.
  - exists (Z.to_nat (1 + k)). rewrite Z2Nat.id by lia. rewrite INR_IZR_INZ, Z2Nat.id by lia. exists b, false. split; [reflexivity|].
    split; [lia|]. split; [lia|]. split; [exact Hb|]. split; [lra|]. rewrite plus_IZR.
    apply (IZR_le 1) in K1.
    split; [|split; [intros _|discriminate]].
    + apply Rmult_le_reg_r with (154/100); [lra|]. match goal with |- _ <= ?X / _ * _ => replace (X / (154/100) * (154/100)) with X by (field; lra) end. nra.
    + split; [reflexivity|]. nra.
Qed.

(** ** error norm *)
Definition err_est (h : R) (y yn f f1 : list R) : list R := radd (rscal (8/10) (rsub y yn)) (rscal (4/10 * h) (radd f f1)).
Definition err_scale (rt : R) (al y yn : list R) : list R := map2 Rplus al (map (Rmult rt) (map2 (fun a b => Rmax (Rabs a) (Rabs b)) yn y)).
Definition err_norm (rt : R) (al : list R) (h : R) (y yn f f1 : list R) : R := rms (map2 Rdiv (err_est h y yn f f1) (err_scale rt al y yn)).
Lemma vdiv_fin a b : Forall (fun s => 0 < s) b -> @vdiv RX (map Fin a) (map Fin b) = map Fin (map2 Rdiv a b).
Proof.
  unfold vdiv. revert b. induction a as [|x a IH]; intros [|z b] HF; cbn [map map2]; try reflexivity. inversion HF; subst. f_equal; [|apply IH; assumption].
  apply xdiv_fin. lra.
Qed.
Lemma scale_pos rt al y yn : 0 < rt -> Forall (fun a => 0 < a) al -> Forall (fun a => 0 < a) (err_scale rt al y yn).
Proof.
  intros Hr HA. unfold err_scale. assert (HM : Forall (fun x => 0 <= x) (map2 (fun a b => Rmax (Rabs a) (Rabs b)) yn y)).
  { clear. revert y. induction yn as [|a yn IH]; intros [|b y]; cbn [map2]; constructor; auto. eapply Rle_trans; [apply Rabs_pos|apply Rmax_l]. }
  set (mx := map2 _ yn y) in *. clearbody mx. revert mx HM. induction HA as [|a al Pa HA IH]; intros [|x mx] HM; cbn [map map2]; constructor.
  - inversion HM; subst. nra.
  - apply IH. inversion HM; assumption.
Qed.
Lemma err_real c d F tb dir mx rt hm al h y yn f f1 : rcfg c d F tb dir mx rt hm al -> length y = d -> length yn = d -> length f = d -> length f1 = d ->
  rkc_err c (map Fin y) (map Fin yn) (map Fin f) (map Fin f1) (Fin h) = Fin (err_norm rt al h y yn f f1).
Proof.
  intros C Ly Lyn Lf Lf1. unfold rkc_err, err_norm.
  assert (ES : calculate_scale (rc_atol c) (rc_rtol c) (map Fin yn) (map Fin y) = map Fin (err_scale rt al y yn)).
  { assert (E : bcast (rc_atol c) (@length (num RX) (map Fin yn)) = map Fin al) by (rewrite (map_length (Fin : R -> num RX)), Lyn; apply (cf_al _ _ _ _ _ _ _ _ _ C)).
    unfold calculate_scale. rewrite E, (cf_rt _ _ _ _ _ _ _ _ _ C). apply scale_nth; [congruence|]. rewrite Lyn. apply C. }
  assert (EE : @vadd RX (vscale (lit (8#10)) (vsub (map Fin y) (map Fin yn))) (vscale (nmul RX (lit (4#10)) (Fin h)) (vadd (map Fin f) (map Fin f1))) = map Fin (err_est h y yn f f1)).
  { rewrite !lit_RX. cbn [nmul RX xmul]. rewrite vsub_map2, vadd_map2, !vscale_map, vadd_map2. unfold err_est. do 3 f_equal; unfold Q2R; cbn; lra. }
  cbv zeta. etransitivity; [apply f_equal; apply f_equal2; [exact EE|exact ES]|].
  rewrite vdiv_fin by (apply scale_pos; apply C). apply norm_fin.
  assert (L1 : length (err_est h y yn f f1) = d). { unfold err_est. rewrite radd_len; rewrite !rscal_len; rewrite ?rsub_len, ?radd_len; congruence. }
  assert (L2 : length (err_scale rt al y yn) = d). { unfold err_scale. rewrite len_map2; rewrite ?map_length, ?len_map2; try congruence; rewrite (cf_al1 _ _ _ _ _ _ _ _ _ C); congruence. }
  intros E. apply (f_equal (@length R)) in E. rewrite len_map2 in E by congruence. cbn in E. pose proof (cf_d _ _ _ _ _ _ _ _ _ C). lia.
Qed.

(** ** the first step size *)
Lemma init_step_real2 c d F tb dir mx rt hm al sp t y : rcfg c d F tb dir mx rt hm al -> 0 <= sp -> length y = d ->
  exists a v1 v2 p, rkc_init_step c (Fin sp) (Fin t) (map Fin y) (map Fin (F t y)) = inl (Fin a, v1, v2, p) /\ Rmin hm mx <= a /\ exists b u, p = (Fin (t + b), map Fin u) /\ 0 < b.
Proof.
  intros C Hs Ly. unfold rkc_init_step. rewrite (cf_mx _ _ _ _ _ _ _ _ _ C), (cf_hm _ _ _ _ _ _ _ _ _ C), (cf_rt _ _ _ _ _ _ _ _ _ C). pose proof (cf_mx0 _ _ _ _ _ _ _ _ _ C) as M0. pose proof (cf_hm0 _ _ _ _ _ _ _ _ _ C) as H0.
  rewrite n1_RX. cbn [nmul RX xmul].
  assert (E1 : exists b, (if nltb RX (Fin 1) (Fin (sp * mx)) then ndiv RX (Fin 1) (Fin sp) else Fin mx) = Fin b /\ 0 < b).
  { change (nltb RX (Fin 1) (Fin (sp * mx))) with (Rltb 1 (sp * mx)). destruct (Rltb_spec 1 (sp * mx)) as [L|L].
    - assert (0 < sp) by nra. rewrite xdiv_fin by lra. eexists. split; [reflexivity|]. apply Rdiv_lt_0_compat; lra.
    - exists mx. auto. }
  destruct E1 as (b & E1 & Hb). change (num RX) with xr in *. rewrite E1. rewrite pymax_fin. set (a := Rmax b hm). assert (Ha : hm <= a) by apply Rmax_r.
  assert (Lf : length (F t y) = d) by apply (cf_fun _ _ _ _ _ _ _ _ _ C t y Ly).
  rewrite vscale_map, vadd_map2. set (u := radd y (rscal a (F t y))). assert (Lu : length u = d) by (unfold u; rewrite radd_len; rewrite ?rscal_len; congruence).
  cbn [nadd RX xadd]. destruct (cf_fun _ _ _ _ _ _ _ _ _ C (t + a) u Lu) as [Lfu Eg]. change (num RX) with xr in *. rewrite Eg.
  assert (EB : bcast (rc_atol c) (length (map Fin y)) = map Fin al) by (rewrite map_length, Ly; apply C). rewrite EB.
  match goal with |- context [vadd (map Fin al) ?z] => assert (EW : z = map Fin (map (fun x => rt * Rabs x) y)) by (rewrite !map_map; reflexivity); rewrite EW end.

  rewrite vadd_map2, vsub_map2. set (wt := radd al _).
  assert (HW : Forall (fun x => 0 < x) wt).
  { unfold wt, radd. pose proof (cf_al0 _ _ _ _ _ _ _ _ _ C) as HA. pose proof (cf_rt0 _ _ _ _ _ _ _ _ _ C). clear - HA H. revert y. induction HA as [|x l P HA IH]; intros [|z y]; cbn [map map2]; constructor; auto. pose proof (Rabs_pos z). nra. }
  assert (Lw : length wt = d) by (unfold wt; rewrite radd_len; rewrite ?map_length, (cf_al1 _ _ _ _ _ _ _ _ _ C); congruence).
  rewrite vdiv_fin by exact HW. rewrite norm_fin.
  2: { intros E. apply (f_equal (@length R)) in E. rewrite len_map2 in E by (rewrite rsub_len; congruence). rewrite rsub_len in E by congruence. cbn in E. pose proof (cf_d _ _ _ _ _ _ _ _ _ C). lia. }
  set (nr := rms _). assert (0 <= nr) by apply rms_nonneg. cbn [xmul]. rewrite msqrt_fin by nra. rewrite lit_RX. replace (Q2R (1#10)) with (1/10) by (unfold Q2R; cbn; lra). cbn [nmul RX xmul].
  set (sq := sqrt (a * nr)). change (nltb RX (Fin (1/10 * a)) (Fin (mx * sq))) with (Rltb (1/10*a) (mx * sq)). destruct (Rltb_spec (1/10*a) (mx*sq)) as [L|L].
  - assert (SQ : 0 < sq) by (assert (0 <= sq) by apply sqrt_pos; nra). rewrite xdiv_fin by lra. rewrite pymax_fin. do 4 eexists. split; [reflexivity|]. split; [eapply Rle_trans; [apply Rmin_l|apply Rmax_r]|]. exists a, u. split; [reflexivity|lra].
  - do 4 eexists. split; [reflexivity|]. split; [apply Rmin_r|]. exists a, u. split; [reflexivity|lra].
Qed.
Lemma init_step_real c d F tb dir mx rt hm al sp t y : rcfg c d F tb dir mx rt hm al -> 0 <= sp -> length y = d ->
  exists a v1 v2 p, rkc_init_step c (Fin sp) (Fin t) (map Fin y) (map Fin (F t y)) = inl (Fin a, v1, v2, p) /\ Rmin hm mx <= a.
Proof. intros C H1 H2. destruct (init_step_real2 c d F tb dir mx rt hm al sp t y C H1 H2) as (a & v1 & v2 & p & E & H & _). exists a, v1, v2, p. auto. Qed.

(** ** the spectral radius *)
Record sprad_is (c : RkcCfg RX) (d : nat) (F : R -> list R -> list R) (t : R) (y : list R) (sp sp' : R) (s s' : RkcSt RX) : Prop := {
  sr_st : rst d F t y sp' s';
  sr_old : rs_newspc s = false -> sp' = sp;
  sr_rho : rs_newspc s = true -> match rc_rho c with Some r => r (Fin t) (map Fin y) = Fin sp' | None => forall L, 0 <= L -> lipschitz d F L t -> sp' <= rho_bound d L end }.
Lemma sprad_real c d F tb dir mx rt hm al t y sp s : rcfg c d F tb dir mx rt hm al -> rst d F t y sp s ->
  exists s' ok, rkc_sprad c s = (s', ok) /\ (ok = false -> rs_newspc s = true /\ rc_rho c = None /\ rst d F t y sp s') /\ (ok = true -> exists sp', sprad_is c d F t y sp sp' s s').
Proof.
  intros C S. unfold rkc_sprad. destruct (rs_newspc s) eqn:N; cbn [negb].
  2: { exists s, true. split; [reflexivity|]. split; [discriminate|]. intros _. exists sp. constructor; [exact S|auto|]. rewrite N; discriminate. }
  destruct (rc_rho c) as [r|] eqn:R.
  - eexists _, true. split; [reflexivity|]. split; [discriminate|]. intros _. pose proof (cf_rho _ _ _ _ _ _ _ _ _ C) as HR. rewrite R in HR. destruct (HR t y (st_len _ _ _ _ _ _ S)) as (q & E & Q).
    exists q. destruct S. constructor.
    + constructor; cbn; auto. change (num RX) with xr in *. rewrite st_t0, st_yn0. exact E.
    + rewrite N; discriminate.
    + intros _. rewrite R. exact E.
  - destruct (rkc_rho_real d F (rc_fun c) (cf_fun _ _ _ _ _ _ _ _ _ C) c s t y mx (cf_d _ _ _ _ _ _ _ _ _ C) eq_refl (cf_mx _ _ _ _ _ _ _ _ _ C) (cf_mx0 _ _ _ _ _ _ _ _ _ C) (st_yn _ _ _ _ _ _ S) (st_fn _ _ _ _ _ _ S) (st_len _ _ _ _ _ _ S) (st_V _ _ _ _ _ _ S)) as (res & v' & fv' & rc' & E & RES).
    rewrite (st_t _ _ _ _ _ _ S). change (num RX) with xr in *. rewrite E. destruct res as [[q V]|].
    + destruct RES as (q' & W & -> & Q & -> & LW & LIP). eexists _, true. split; [reflexivity|]. split; [discriminate|]. intros _. exists q'. destruct S. constructor.
      * constructor; cbn; auto. exists W; auto.
      * rewrite N; discriminate.
      * intros _. rewrite R. exact LIP.
    + eexists _, false. split; [reflexivity|]. split; [|discriminate]. intros _. split; [auto|]. split; [reflexivity|]. destruct S. constructor; cbn; auto.
      destruct (rs_V s) as [V|]; [exact st_V0|]. exists (F t y). split; [exact st_fn0|]. apply (cf_fun _ _ _ _ _ _ _ _ _ C t y st_len0).
Qed.

(** where the radius used in a trial comes from *)
Definition sp_from (c : RkcCfg RX) (d : nat) (F : R -> list R -> list R) (t : R) (y : list R) (sp sp' : R) (new : bool) : Prop :=
  if new then match rc_rho c with Some r => r (Fin t) (map Fin y) = Fin sp' | None => forall L, 0 <= L -> lipschitz d F L t -> sp' <= rho_bound d L end
  else sp' = sp.

(** a trial from (t, y) with radius sp': m stages, step h, result y1, error norm e.
    [a0] is the step size before the adjustments. *)
Record good_trial (c : RkcCfg RX) (F : R -> list R -> list R) (tb dir rt : R) (al : list R) (t : R) (y : list R) (a0 sp' : R)
    (m : nat) (h : R) (y1 : list R) (e : R) : Prop := {
  gt_m2 : (2 <= m)%nat; gt_mm : (Z.of_nat m <= rc_mmax c)%Z;
  gt_dir : 0 < dir * h;
  gt_h : Rabs h <= stretch tb t a0;
  gt_cover : Rabs h * sp' <= (INR m * INR m - 1) / (154/100);
  gt_case : Rabs h = stretch tb t a0 \/ (Z.of_nat m = rc_mmax c /\ 0 < sp' /\ Rabs h = (INR m * INR m - 1) / (154/100 * sp'));
  gt_y : y1 = rkY m F t h y (F t y) m;
  gt_e : e = err_norm rt al h y y1 (F t y) (F (t + h) y1) }.

Definition sqrt_tiny : R := sqrt (/ 2 ^ 1022).
Lemma hmin_real t a m : exists hn, @rkc_hmin RX (Fin t) (Fin a) m = Fin hn /\ sqrt_tiny <= hn.
Proof.
  unfold rkc_hmin. rewrite tiny_RX, nsmall_RX, zlit_RX, lit_RX. cbn [nabs RX xabs nmul xmul nadd xadd]. rewrite pymax_fin. eexists. split; [reflexivity|]. apply Rmax_l.
Qed.
Lemma third_RX : ndiv RX n1 (lit 3) = Fin (1/3).
Proof. rewrite n1_RX, lit_RX. rewrite xdiv_fin by (unfold Q2R; cbn; lra). f_equal. unfold Q2R; cbn; lra. Qed.
Lemma twothird_RX : ndiv RX (lit 2) (lit 3) = Fin (2/3).
Proof. rewrite !lit_RX. rewrite xdiv_fin by (unfold Q2R; cbn; lra). f_equal. unfold Q2R; cbn; lra. Qed.
Lemma pow_pos_RX x e : 0 < x -> e <> 0 -> npow RX (Fin x) (Fin e) = Fin (Rpower x e).
Proof. intros H1 H2. cbn [npow RX xpow]. destruct (Req_EM_T e 0); [contradiction|]. destruct (Rlt_dec 0 x); [reflexivity|contradiction]. Qed.
Lemma pow_nn_RX x e : 0 <= x -> 0 < e -> exists p, npow RX (Fin x) (Fin e) = Fin p /\ 0 <= p.
Proof.
  intros H1 H2. cbn [npow RX xpow]. destruct (Req_EM_T e 0); [lra|]. destruct (Rlt_dec 0 x); [eexists; split; [reflexivity|left; apply Rpower_pos]|].
  destruct (Req_EM_T x 0); [|lra]. destruct (Rlt_dec 0 e); [|contradiction]. exists 0. split; [reflexivity|lra].
Qed.

(** the loop state: the invariant, and the step size to be tried *)
Definition absh_is (a : option (num RX)) : Prop := match a with None => True | Some x => exists r, x = Fin r /\ 0 < r end.
Definition start_size (hm mx : R) (absh : option (num RX)) (a0 : R) : Prop :=
  match absh with Some x => x = Fin a0 | None => Rmin hm mx <= a0 end.

Theorem trial_real c d F tb dir mx rt hm al t y sp s absh ysc : rcfg c d F tb dir mx rt hm al -> rst d F t y sp s -> t <> tb -> absh_is absh ->
  match rkc_trial ELX c s absh ysc with
  | RRaise _ => False
  | RFail s' msg => rst d F t y (match rs_sprad s' with Fin q => q | _ => 0 end) s' /\ ((msg = rkc_norho /\ rs_newspc s = true /\ rc_rho c = None) \/
      (msg = rkc_toosmall /\ exists sp' a0 m h y1 e hn, sp_from c d F t y sp sp' (rs_newspc s) /\ start_size hm mx absh a0 /\ good_trial c F tb dir rt al t y a0 sp' m h y1 e /\ 1 <= e /\
         rkc_hmin (Fin t : num RX) (Fin (Rabs h) : num RX) (Z.of_nat m) = Fin hn /\ 8/10 * Rabs h / Rpower e (1/3) < hn))
  | RReject s' a' y' => exists sp' a0 m h y1 e a2, sp_from c d F t y sp sp' (rs_newspc s) /\ start_size hm mx absh a0 /\ 0 < a0 /\
      good_trial c F tb dir rt al t y a0 sp' m h y1 e /\ 1 <= e /\ a' = Fin a2 /\ a2 = 8/10 * Rabs h / Rpower e (1/3) /\ sqrt_tiny <= a2 /\ rst d F t y sp' s'
  | RAccept s' h' a hmin err y' => exists sp' a0 m h y1 e hn, sp_from c d F t y sp sp' (rs_newspc s) /\ start_size hm mx absh a0 /\ 0 < a0 /\
      good_trial c F tb dir rt al t y a0 sp' m h y1 e /\ 0 <= e < 1 /\ h' = Fin h /\ a = Fin (Rabs h) /\ hmin = Fin hn /\ sqrt_tiny <= hn /\ err = Fin e /\ y' = map Fin y1 /\ length y1 = d /\
      rs_v1 s' = map Fin (F (t + h) y1) /\ rst d F t y sp' s'
  end.
Proof.
  intros C S Ht HA. unfold rkc_trial. destruct (sprad_real c d F tb dir mx rt hm al t y sp s C S) as (s1 & ok & E1 & P0 & P1). rewrite E1.
  destruct ok; cbn [negb].
  2: { destruct (P0 eq_refl) as (Q1 & Q2 & Q3). pose proof (st_sp _ _ _ _ _ _ Q3) as Q4. split; [|left; auto]. change (num RX) with xr in *. rewrite Q4. exact Q3. }
  destruct (P1 eq_refl) as (sp' & [S1 SO SR]).
  assert (SF : sp_from c d F t y sp sp' (rs_newspc s)). { unfold sp_from. destruct (rs_newspc s); [apply SR; reflexivity|apply SO; reflexivity]. }
  clear P0 P1 SO SR E1.
  assert (FI : exists a0 s2, rkc_first c s1 absh = inl (Fin a0, s2) /\ start_size hm mx absh a0 /\ 0 < a0 /\ rst d F t y sp' s2).
  { unfold rkc_first. destruct absh as [x|].
    - destruct HA as (r & -> & Hr). exists r, s1. split; [reflexivity|]. split; [reflexivity|]. auto.
    - destruct (init_step_real c d F tb dir mx rt hm al sp' t y C (st_sp0 _ _ _ _ _ _ S1) (st_len _ _ _ _ _ _ S1)) as (a & v1 & v2 & p & E & Ha).
      pose proof S1 as S1'. destruct S1'. change (num RX) with xr in *. rewrite st_sp1, st_t0, st_yn0, st_fn0, E. eexists a, _. split; [reflexivity|]. split; [exact Ha|].
      split; [pose proof (cf_mx0 _ _ _ _ _ _ _ _ _ C); pose proof (cf_hm0 _ _ _ _ _ _ _ _ _ C); unfold Rmin in Ha; destruct (Rle_dec hm mx); lra|]. constructor; cbn; auto. }
  destruct FI as (a0 & s2 & E2 & SS & A0 & S2). change (num RX) with xr in *. rewrite E2. clear E2 S1 s1.
  destruct (select_real c d F tb dir mx rt hm al sp' t a0 C (st_sp0 _ _ _ _ _ _ S2) A0 Ht) as (m & a & lim & E3 & M2 & MM & Ha & Hst & Cov & L1 & L2).
  rewrite (st_sp _ _ _ _ _ _ S2), (st_t _ _ _ _ _ _ S2), (st_yn _ _ _ _ _ _ S2), (st_fn _ _ _ _ _ _ S2). change (num RX) with xr in *. rewrite E3.
  destruct (hmin_real t a (Z.of_nat m)) as (hn & EH & Hn). cbv zeta. change (num RX) with xr in *. rewrite EH. rewrite (cf_dir _ _ _ _ _ _ _ _ _ C). cbn [nmul RX xmul nadd].
  pose proof (st_len _ _ _ _ _ _ S2) as Ly. destruct (cf_fun _ _ _ _ _ _ _ _ _ C t y Ly) as [Lf _].
  set (h := dir * a). assert (Hh : Rabs h = a) by (unfold h; destruct (cf_dir1 _ _ _ _ _ _ _ _ _ C) as [-> | ->]; unfold Rabs; destruct (Rcase_abs _); lra).
  rewrite (stages_real m M2 F t h y (F t y) d (rc_fun c) (cf_fun _ _ _ _ _ _ _ _ _ C) Ly Lf).
  pose proof (rkY_len m F t h y (F t y) d (rc_fun c) (cf_fun _ _ _ _ _ _ _ _ _ C) Ly Lf m) as L1y.
  set (y1 := rkY m F t h y (F t y) m) in *. cbn [xadd]. destruct (cf_fun _ _ _ _ _ _ _ _ _ C (t + h) y1 L1y) as [Lf1 Ef1]. change (num RX) with xr in *. rewrite Ef1.
  rewrite (err_real c d F tb dir mx rt hm al h y y1 (F t y) (F (t + h) y1) C Ly L1y Lf Lf1). set (e := err_norm rt al h y y1 (F t y) (F (t + h) y1)).
  assert (G : good_trial c F tb dir rt al t y a0 sp' m h y1 e).
  { constructor; try reflexivity; try assumption.
    - unfold h. destruct (cf_dir1 _ _ _ _ _ _ _ _ _ C) as [-> | ->]; lra.
    - rewrite Hh. exact Hst.
    - rewrite Hh. exact Cov.
    - rewrite Hh. destruct lim; [right; destruct (L2 eq_refl) as (X1 & X2 & X3); auto|left; apply L1; reflexivity]. }
  assert (E0 : 0 <= e) by apply rms_nonneg.
  rewrite n1_RX. change (nltb RX (Fin e) (Fin 1)) with (Rltb e 1). destruct (Rltb_spec e 1) as [He|He].
  - exists sp', a0, m, h, y1, e, hn. split; [exact SF|]. split; [exact SS|]. split; [exact A0|]. split; [exact G|]. split; [lra|]. split; [reflexivity|]. split; [rewrite Hh; reflexivity|].
    do 4 (split; [first [reflexivity|assumption]|]). split; [exact L1y|]. split; [reflexivity|]. destruct S2. constructor; cbn; auto.
  - cbn [nisnan nisinf RX xisnan xisinf orb]. assert (E3' : ndiv RX (Fin 1) (lit 3) = Fin (1/3)) by (rewrite <- n1_RX; apply third_RX). change (num RX) with xr in *. rewrite E3'. rewrite pow_pos_RX by lra. rewrite lit_RX. replace (Q2R (8#10)) with (8/10) by (unfold Q2R; cbn; lra). cbn [xmul]. pose proof (Rpower_pos e (1/3)) as RP. rewrite xdiv_fin by lra.
    set (a2 := 8/10 * a / Rpower e (1/3)). change (nltb RX (Fin a2) (Fin hn)) with (Rltb a2 hn). destruct (Rltb_spec a2 hn) as [Hx|Hx].
    + split; [|right; split; [reflexivity|]; exists sp', a0, m, h, y1, e, hn; rewrite Hh; repeat (split; [first [assumption|lra]|]); assumption]. destruct S2. cbn [rs_sprad]. constructor; cbn; auto; rewrite st_sp1; auto.
    + exists sp', a0, m, h, y1, e, a2. split; [exact SF|]. split; [exact SS|]. split; [exact A0|]. split; [exact G|]. split; [lra|]. split; [reflexivity|]. split; [rewrite Hh; reflexivity|]. split; [lra|].
      destruct S2. constructor; cbn; auto. exists a2. split; [reflexivity|]. assert (0 < sqrt_tiny) by apply sqrt_tiny_pos. lra.
Qed.
