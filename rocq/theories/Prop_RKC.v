(** Properties of SSV2stab, the stabilised Runge-Kutta-Chebyshev method: C38, C39.
    The solver is that of Rkc.v; [ELX] are log, sinh, cosh, int, round on the extended reals. *)
From Coquelicot Require Import Coquelicot.
From Coq Require Import String ZArith Reals Lra Psatz QArith Qreals Bool Lia List Arith.
From Verif Require Import Series Arith Common Stiff RK QX RX HStart RKInit RKReal RKStep HStartReal RKInitReal NormReal Prop_Tol Ode Dense OrderRK OrderModel DenseReal DenseJoin DenseJoin2 Smooth SwagArr Rkc RkcGen Cheb RkcReal RkcOrd RkcRho RkcStep RkcTop.
Import ListNotations.
Close Scope string_scope. Open Scope nat_scope. Open Scope R_scope.

Lemma inl_inj {X Y} (a b : X) : @inl X Y a = inl b -> a = b. Proof. congruence. Qed.
(** ** C38: the coefficients *)
(** the scalars after j further stages *)
Fixpoint coef_iter {A : Arith} (w0 w1 : num A) (j : nat) (k : @Coef A) : @Coef A + exn :=
  match j with
  | O => inl k
  | S i => match coef_iter w0 w1 i k with inl k' => match coef_next w0 w1 k' with inl (_, _, _, _, k2) => inl k2 | inr e => inr e end | inr e => inr e end
  end.
(** [cT n] is the n-th Chebyshev polynomial *)
Theorem C38_cT_is_chebyshev n a : cT n (cos a) = cos (INR n * a).
Proof. apply cT_cos. Qed.
(** For every number of stages m the scalars z, dz, d2z carried from stage to stage are
    T_j(w0), T_j'(w0), T_j''(w0) with w0 = 1 + 2/(13 m^2), and no coefficient of the scheme
    involves a division by zero; w1 = T_m'(w0)/T_m''(w0), b_j = T_j''/T_j'^2 and the
    abscissae are c_j = w1 T_j''/T_j' (c_m = 1). *)
Theorem C38_recurrences m j : (2 <= m)%nat -> (1 <= j)%nat ->
  let w0 := 1 + 2 / (13 * (INR m * INR m)) in
  exists w1 k, rkc_w1 ELX (Z.of_nat m) = inl (Fin w1) /\ rkc_w0 (Z.of_nat m) = (Fin w0 : num RX) /\
    w1 * Derive_n (cT m) 2 w0 = Derive_n (cT m) 1 w0 /\
    coef_iter (rkc_w0 (Z.of_nat m)) (Fin w1) (j - 1) (coef1 (Z.of_nat m) (Fin w1)) = inl k /\
    zjm1 k = (Fin (cT j w0) : num RX) /\ dzjm1 k = (Fin (Derive_n (cT j) 1 w0) : num RX) /\ d2zjm1 k = (Fin (Derive_n (cT j) 2 w0) : num RX) /\
    ((2 <= j)%nat -> exists b c, bjm1 k = (Fin b : num RX) /\ thjm1 k = (Fin c : num RX) /\ b * (Derive_n (cT j) 1 w0 * Derive_n (cT j) 1 w0) = Derive_n (cT j) 2 w0 /\ c * Derive_n (cT j) 1 w0 = w1 * Derive_n (cT j) 2 w0 /\ (j = m -> c = 1)).
Proof.
  intros Hm Hj w0. assert (Ew : w0 = w0T m) by reflexivity.
  assert (D1 : forall n x, Derive_n (cT n) 1 x = dT n x) by (intros n x; apply is_derive_unique, cT_derive).
  assert (D2 : forall n x, Derive_n (cT n) 2 x = d2T n x).
  { intros n x. apply is_derive_unique. apply (is_derive_ext (dT n)); [|apply dT_derive]. intros u. symmetry. apply is_derive_unique, cT_derive. }
  exists (w1T m (w0T m)), (cf m j). rewrite !D1, !D2, Ew. pose proof (w_gt m Hm) as W.
  pose proof (dT_pos m (w0T m) ltac:(lra) ltac:(lia)) as P1. pose proof (d2T_pos m (w0T m) ltac:(lra) Hm) as P2.
  split; [apply w1_real; exact Hm|]. split; [apply w0_real; exact Hm|]. split; [unfold w1T; field; lra|]. split.
  { rewrite (coef1_real m Hm), (w0_real m Hm). destruct j as [|i]; [lia|]. replace (S i - 1)%nat with i by lia. clear Hj. induction i as [|i IH]; [reflexivity|]. cbn [coef_iter]. rewrite IH. rewrite (coef_next_real m Hm i). reflexivity. }
  do 3 (split; [reflexivity|]). intros H2. exists (bb m j), (cc m j). split; [reflexivity|]. split; [reflexivity|].
  pose proof (dT_pos j (w0T m) ltac:(lra) ltac:(lia)) as P3.
  assert (B : bb m j = d2T j (w0T m) / (dT j (w0T m) * dT j (w0T m))) by (destruct j as [|[|i]]; [lia|lia|reflexivity]).
  split; [rewrite B; field; lra|]. split; [unfold cc; rewrite B; field; lra|]. intros ->. apply cc_m. exact Hm.
Qed.

(** ** C38: order two.
    For every right-hand side with a Taylor expansion of order two at (t0, y0), any solution Y
    of the initial value problem and every number of stages: the vector computed by the stages
    is within C h^3 of Y(t0 + h), and so is zero the error estimate. *)
Theorem C38_order_two m d F t0 y0 Y g sc cl : (2 <= m)%nat -> lifts d F g -> length y0 = d -> smooth_at 2 F t0 y0 -> solves F t0 y0 Y ->
  exists C del, 0 < del /\ forall h, Rabs h < del -> exists y1 u1 u2 cl',
    rkc_stages ELX g (Fin t0) (map Fin y0) (map Fin (F t0 y0)) (Fin h) (Z.of_nat m) sc cl = inl (map Fin y1, u1, u2, cl') /\ length y1 = d /\
    forall q, (q < d)%nat ->
      Rabs (nth q y1 0 - nth q (Y (t0 + h)) 0) <= C * Rabs h ^ 3 /\
      Rabs (8/10 * (nth q y0 0 - nth q y1 0) + 4/10 * h * (nth q (F t0 y0) 0 + nth q (F (t0 + h) y1) 0)) <= C * Rabs h ^ 3.
Proof.
  intros Hm HL Hy HF HY. destruct (rkc_accurate_real m d F t0 y0 Y g Hm HL Hy HF HY) as (C & del & Hd & H). exists C, del. split; [exact Hd|]. intros h Hh.
  pose proof (proj1 (HL t0 y0 Hy)) as Lf. do 4 eexists. split; [apply (stages_real m Hm F t0 h y0 (F t0 y0) d g HL Hy Lf)|]. split; [apply (rkY_len m F t0 h y0 (F t0 y0) d g HL Hy Lf)|]. intros q Hq. apply (H h Hh q Hq).
Qed.
Definition ric (t : R) (y : list R) : list R := [nth 0 y 0 * nth 0 y 0].
Definition ric_x (t : num RX) (y : list (num RX)) : list (num RX) := match y with x :: _ => [nmul RX x x] | [] => [] end.
Lemma ric_lifts : lifts 1 ric ric_x.
Proof. intros t [|a [|b y]] H; cbn in H; try lia. split; reflexivity. Qed.
Theorem C38_order_case : lifts 1 ric ric_x /\ smooth_at 2 ric 0 [1] /\ solves ric 0 [1] (fun t => [/ (1 - t)]).
Proof.
  split; [apply ric_lifts|]. split.
  - apply (polynomial_smooth 1); [|reflexivity]. exists (fun _ => [(1, [1%nat; 1%nat])]). split.
    + intros q _. repeat constructor.
    + intros t y Hy. split; [reflexivity|]. intros [|q] Hq; [|lia]. destruct y as [|a [|? ?]]; try discriminate Hy. simpl. ring.
  - split; [f_equal; field|]. exists (1/2). split; [lra|]. intros t Ht. split; [reflexivity|]. intros q Hq. cbn in Hq. destruct q; [|lia]. cbn [nth ric].
    assert (1 - t <> 0). { rewrite Rminus_0_r in Ht. apply Rabs_def2 in Ht. lra. }
    apply is_derive_Reals. auto_derive; [exact H|]. field. exact H.
Qed.

(** ** C38: stability *)
(** the stability polynomial of the m stage method *)
Definition R_m (m : nat) (z : R) : R :=
  let w0 := 1 + 2 / (13 * (INR m * INR m)) in
  let d1 := Derive_n (cT m) 1 w0 in let d2 := Derive_n (cT m) 2 w0 in
  1 + d2 / (d1 * d1) * (cT m (w0 + d1 / d2 * z) - cT m w0).
Lemma R_m_rkcP m z : R_m m z = rkcP m (w0T m) z.
Proof.
  unfold R_m, rkcP, bT, w1T. replace (Derive_n (cT m) 1 (1 + 2 / (13 * (INR m * INR m)))) with (dT m (w0T m)) by (symmetry; apply is_derive_unique, cT_derive).
  replace (Derive_n (cT m) 2 (1 + 2 / (13 * (INR m * INR m)))) with (d2T m (w0T m)).
  2: { symmetry. apply is_derive_unique. apply (is_derive_ext (dT m)); [|apply dT_derive]. intros u. symmetry. apply is_derive_unique, cT_derive. }
  fold (w0T m). ring.
Qed.
(** 0 <= R_m <= 1 on the whole interval the code relies on *)
Theorem C38_stability_interval m z : (2 <= m)%nat -> - ((INR m * INR m - 1) / (154/100)) <= z <= 0 -> 0 <= R_m m z <= 1.
Proof.
  intros Hm Hz. rewrite R_m_rkcP. apply rkcP_range; [apply w0T_gt; lia|exact Hm|]. pose proof (beta_bound m Hm). lra.
Qed.
Theorem C38_exponential m : (2 <= m)%nat -> R_m m 0 = 1 /\ Derive_n (R_m m) 1 0 = 1 /\ Derive_n (R_m m) 2 0 = 1.
Proof.
  intros Hm. pose proof (w_gt m Hm) as W. pose proof (dT_pos m (w0T m) ltac:(lra) ltac:(lia)) as P1. pose proof (d2T_pos m (w0T m) ltac:(lra) Hm) as P2.
  set (a := dT m (w0T m) / d2T m (w0T m)). set (b := d2T m (w0T m) / (dT m (w0T m) * dT m (w0T m))).
  assert (E : forall z, R_m m z = 1 + b * (cT m (w0T m + a * z) - cT m (w0T m))).
  { intros z. rewrite R_m_rkcP. unfold rkcP, bT, w1T. fold a b. ring. }
  assert (D1 : forall z, is_derive (R_m m) z (b * a * dT m (w0T m + a * z))).
  { intros z. apply (is_derive_ext (fun z => 1 + b * (cT m (w0T m + a * z) - cT m (w0T m)))); [intros u; symmetry; apply E|].
    assert (X : is_derive (fun u => cT m (w0T m + a * u)) z (a * dT m (w0T m + a * z))).
    { apply (is_derive_comp (cT m) (fun u => w0T m + a * u)); [apply cT_derive|]. auto_derive; [exact I|ring]. }
    replace (b * a * dT m (w0T m + a * z)) with (0 + b * (a * dT m (w0T m + a * z) - 0)) by ring.
    apply (is_derive_plus (fun _ => 1)); [apply (is_derive_const 1)|]. apply is_derive_scal. apply (is_derive_minus (fun u => cT m (w0T m + a * u)) (fun _ => cT m (w0T m))); [exact X|apply (is_derive_const (cT m (w0T m)))]. }
  assert (D2 : is_derive (Derive (R_m m)) 0 (b * a * (a * d2T m (w0T m + a * 0)))).
  { apply (is_derive_ext (fun z => b * a * dT m (w0T m + a * z))); [intros u; symmetry; apply is_derive_unique, D1|].
    assert (X : is_derive (fun u => dT m (w0T m + a * u)) 0 (a * d2T m (w0T m + a * 0))).
    { apply (is_derive_comp (dT m) (fun u => w0T m + a * u)); [apply dT_derive|]. auto_derive; [exact I|ring]. }
    apply is_derive_scal. exact X. }
  split; [rewrite E, Rmult_0_r, Rplus_0_r; ring|]. split.
  - etransitivity; [apply is_derive_unique, D1|]. rewrite Rmult_0_r, Rplus_0_r. unfold a, b. field. lra.
  - etransitivity; [apply is_derive_unique; exact D2|]. rewrite Rmult_0_r, Rplus_0_r. unfold a, b. field. lra.
Qed.
(** The stages applied to a problem with a (left) eigenvector l: the component l.y is multiplied
    by R_m(h lam). *)
Theorem C38_linear m d F t h y g sc cl (l : nat -> R) lam : (2 <= m)%nat -> lifts d F g -> length y = d ->
  (forall s u, length u = d -> rsum d (fun q => l q * nth q (F s u) 0) = lam * rsum d (fun q => l q * nth q u 0)) ->
  exists y1 u1 u2 cl', rkc_stages ELX g (Fin t) (map Fin y) (map Fin (F t y)) (Fin h) (Z.of_nat m) sc cl = inl (map Fin y1, u1, u2, cl') /\ length y1 = d /\
    rsum d (fun q => l q * nth q y1 0) = R_m m (h * lam) * rsum d (fun q => l q * nth q y 0).
Proof.
  intros Hm HL Hy Hlin. pose proof (proj1 (HL t y Hy)) as Lf. do 4 eexists. split; [apply (stages_real m Hm F t h y (F t y) d g HL Hy Lf)|]. split; [apply (rkY_len m F t h y (F t y) d g HL Hy Lf)|].
  pose proof (rkY_lin m Hm F t h y (F t y) d g HL Hy Lf l lam Hlin (Hlin t y Hy) m) as H. unfold ldot in H. rewrite H. rewrite (stP_m m Hm y (F t y) d Hy Lf). rewrite R_m_rkcP. reflexivity.
Qed.
(** a diffusion matrix: l = (1, -1) is an eigenvector with eigenvalue -2000 *)
Definition diff2 (t : R) (y : list R) : list R := [1000 * (nth 1 y 0 - nth 0 y 0); 1000 * (nth 0 y 0 - nth 1 y 0)].
Theorem C38_linear_case : forall s u, length u = 2%nat ->
  rsum 2 (fun q => (match q with O => 1 | _ => -1 end) * nth q (diff2 s u) 0) = -2000 * rsum 2 (fun q => (match q with O => 1 | _ => -1 end) * nth q u 0).
Proof. intros s u _. cbn. ring. Qed.

(** ** C39: how often the spectral radius is determined (every arithmetic) *)
(** the constructor accepted the arguments and n step() calls returned *)
Definition rkc_after {A : Arith} (EL : Elem A) o f (t0 : num A) y0 tb c n v : Prop :=
  exists s, rkc_init EL o f t0 y0 tb = inl (c, s) /\ rkc_hist EL c (onew s) n v.
(** [rs_nrho] counts the evaluations of rho_jac after the constructor, or the runs of the power
    method; [rs_nrejct] the rejected trials.  At most one per step() call; one in all with
    const_jac; otherwise, without rho_jac, one per 25 steps plus one per rejected trial. *)
Theorem C39_radius_evaluations {A : Arith} (EL : Elem A) o f (t0 : num A) y0 tb c n v : rkc_after EL o f t0 y0 tb c n v ->
  (rs_nrho (ost v) <= n)%nat /\ (ro_const_jac o = Some true -> rs_nrho (ost v) <= 1)%nat /\
  (ro_rho o = None -> rs_nrho (ost v) <= (n + 24) / 25 + rs_nrejct (ost v))%nat /\
  (ostat v = ORunning -> ro_rho o <> None -> ro_const_jac o = Some false -> rs_newspc (ost v) = true).
Proof.
  intros (s & E & H). destruct (init_gen EL _ _ _ _ _ _ _ E) as (I0 & _ & _ & _ & _ & R & _ & J). destruct (hist_gen EL c (onew s) n v I0 eq_refl H) as (H0 & H1 & H2 & H3 & _).
  split; [exact H1|]. split; [intros Q; apply H2; congruence|]. split; [intros Q; apply H3; congruence|].
  intros Q1 Q2 Q3. rewrite (ri_newspc _ _ _ (H0 Q1)). rewrite R. assert (K : rc_const_jac c = false) by congruence. rewrite K. destruct (ro_rho o); [|contradiction]. cbn. apply orb_true_r.
Qed.
(** the vectors used by the next step are those of the current point *)
Theorem C39_current_data {A : Arith} (EL : Elem A) o f (t0 : num A) y0 tb c n v : rkc_after EL o f t0 y0 tb c n v -> ostat v <> OFinished ->
  rs_yn (ost v) = rs_y (ost v) /\ rs_fn (ost v) = f (rs_t (ost v)) (rs_y (ost v)).
Proof.
  intros (s & E & H) HS. destruct (init_gen EL _ _ _ _ _ _ _ E) as (I0 & Ef & _). destruct (hist_gen EL c (onew s) n v I0 eq_refl H) as (_ & _ & _ & _ & H1 & H2). rewrite <- Ef. auto.
Qed.

(** ** C39: the steps (exact arithmetic) *)
(** d components, initial value y, real right-hand side F *)
Record rkc_real (o : RkcOpts RX) f (t0 tb : R) (d : nat) (F : R -> list R -> list R) (y : list R) c n v : Prop := {
  rr_ne : t0 <> tb; rr_d : (0 < d)%nat; rr_len : length y = d; rr_F : lifts d F f; rr_opts : given o; rr_rho : rho_ok d (ro_rho o);
  rr_after : rkc_after ELX o f (Fin t0 : num RX) (map Fin y) (Fin tb : num RX) c n v }.
Lemma rinv_keep c d F tb dir mx rt hm al P lo : rcfg c d F tb dir mx rt hm al -> low mx hm lo -> closed c d F P ->
  forall k s1 s2, rinv d F P lo s1 -> ahead rkc_view tb dir s1 -> rkc_step_impl ELX c k s1 = IDone s2 -> rinv d F P lo s2.
Proof.
  intros C LO HP k s1 s2 I1 A1 E1. destruct (rinv_step c d F tb dir mx rt hm al C P lo k s1 s2 HP LO I1 A1 E1) as (? & ? & ? & ? & ? & ? & ? & ? & ? & _ & _ & _ & _ & I2 & _). exact I2.
Qed.
Lemma rkc_real_inv o f t0 tb d F y c n v : rkc_real o f t0 tb d F y c n v ->
  exists s dir mx rt hm al lo, rcfg c d F tb dir mx rt hm al /\ low mx hm lo /\ 0 < dir * (tb - t0) /\ rst d F t0 y 0 s /\ mx <= Rabs (tb - t0) /\ rs_absh s = ro_first_step o /\
    ohist rkc_view (Fin tb) (Fin dir) (rkc_step_impl ELX c) (onew s) n v /\
    (forall P : R -> Prop, P 0 -> closed c d F P -> oinv rkc_view tb dir (rinv d F P lo) (onew s) /\ oinv rkc_view tb dir (rinv d F P lo) v).
Proof.
  intros [H1 H2 H3 H4 H5 H6 (s & E & H)]. destruct (init_real o f t0 (map Fin y) tb c s d F y E H1 H2 eq_refl H3 H4 H5 H6) as (dir & mx & rt & hm & al & lo & C & Hdir & S & LO & I0 & M1 & _ & EA).
  exists s, dir, mx, rt, hm, al, lo. split; [exact C|]. split; [exact LO|]. split; [exact Hdir|]. split; [exact S|]. split; [exact M1|]. split; [exact EA|].
  unfold rkc_hist in H. rewrite (cf_tb _ _ _ _ _ _ _ _ _ C), (cf_dir _ _ _ _ _ _ _ _ _ C) in H. split; [exact H|].
  intros P P0 HP. assert (O0 : oinv rkc_view tb dir (rinv d F P lo) (onew s)).
  { split; [destruct I0 as (t & yy & sp & Q1 & -> & Q2); exists t, yy, 0; auto|]. unfold ahead, tv. cbn [rkc_view v_t onew ost]. rewrite (st_t _ _ _ _ _ _ S). exact Hdir. }
  split; [exact O0|]. eapply (ohist_oinv rkc_view tb dir (rkc_step_impl ELX c)); [| |exact O0|exact H].
  - intros s' Hs'. eapply rinv_fin; exact Hs'.
  - intros k s1 s2 I1 A1 E1. destruct (rinv_step c d F tb dir mx rt hm al C P lo k s1 s2 HP LO I1 A1 E1) as (? & ? & ? & ? & ? & ? & ? & ? & ? & _ & _ & _ & _ & I2 & _). exact I2.
Qed.

(** one accepted step from (t, y) with step size h, m stages and spectral radius sp *)
Record rkc_accepted (c : RkcCfg RX) (d : nat) (F : R -> list R -> list R) (t tb : R) (y : list R) (h : R) (m : nat) (sp : R) (y1 : list R) : Prop := {
  ra_len : length y1 = d;
  ra_stages : (2 <= m)%nat /\ (Z.of_nat m <= rc_mmax c)%Z;                       (* 2 <= m <= m_max *)
  ra_sp : 0 <= sp;
  ra_interval : Rabs h * sp <= (INR m * INR m - 1) / (154/100);                   (* stable for |h| sp *)
  ra_bound : 0 < h * (tb - t) /\ Rabs h <= Rabs (tb - t);                         (* towards t_bound, not past it *)
  ra_value : exists u1 u2 cl', rkc_stages ELX (rc_fun c) (Fin t) (map Fin y) (map Fin (F t y)) (Fin h) (Z.of_nat m) [] [] = inl (map Fin y1, u1, u2, cl');
  ra_error : exists e, rkc_err c (map Fin y) (map Fin y1) (map Fin (F t y)) (map Fin (F (t + h) y1)) (Fin h) = Fin e /\ e < 1;
  (* no component belonging to an eigenvalue in [-sp, 0] grows or changes sign *)
  ra_stable : forall l lam, - sp <= lam <= 0 -> 0 < h -> (forall s u, length u = d -> rsum d (fun q => l q * nth q (F s u) 0) = lam * rsum d (fun q => l q * nth q u 0)) ->
     exists r, 0 <= r <= 1 /\ rsum d (fun q => l q * nth q y1 0) = r * rsum d (fun q => l q * nth q y 0) }.

(** Every step() call of every run: the solver failed and time and solution are unchanged, or it
    took an accepted step; the status is finished exactly when t_bound is reached. *)
Theorem C39_step o f t0 tb d F y0 c n v fuel v' : rkc_real o f t0 tb d F y0 c n v -> rkc_step ELX c fuel v = OOk v' ->
  exists t y, ostat v = ORunning /\ rs_t (ost v) = Fin t /\ rs_y (ost v) = map Fin y /\ length y = d /\ t <> tb /\
   ((rs_t (ost v') = Fin t /\ rs_y (ost v') = map Fin y /\ ((ostat v' = OFailed rkc_norho /\ ro_rho o = None) \/ ostat v' = OFailed rkc_toosmall)) \/
    exists h m sp y1, rkc_accepted c d F t tb y h m sp y1 /\ rs_t (ost v') = Fin (t + h) /\ rs_y (ost v') = map Fin y1 /\ rs_sprad (ost v') = Fin sp /\
      (t + h = tb -> ostat v' = OFinished) /\ (t + h <> tb -> ostat v' = ORunning)).
Proof.
  intros HR HS. destruct (rkc_real_inv _ _ _ _ _ _ _ _ _ _ HR) as (s & dir & mx & rt & hm & al & lo & C & LO & Hdir & S0 & _ & _ & H & HI).
  destruct (HI (fun _ => True) I (fun _ _ _ _ _ _ => I)) as [_ O1].
  unfold rkc_step in HS. rewrite (cf_tb _ _ _ _ _ _ _ _ _ C), (cf_dir _ _ _ _ _ _ _ _ _ C) in HS. pose proof HS as HS0.
  destruct (ostep_running rkc_view tb dir (rkc_step_impl ELX c) (rinv d F (fun _ => True) lo) (rinv_fin d F (fun _ => True) lo)
     (rinv_keep c d F tb dir mx rt hm al (fun _ => True) lo C LO (fun _ _ _ _ _ _ => I)) _ _ _ O1 HS) as (R1 & I1 & A1 & Cases).
  destruct I1 as (t & y & sp & S & _ & HA). assert (Ht : t <> tb). { unfold ahead, tv in A1. cbn [rkc_view v_t] in A1. rewrite (st_t _ _ _ _ _ _ S) in A1. intros ->. lra. }
  exists t, y. split; [exact R1|]. split; [apply S|]. split; [apply S|]. split; [apply S|]. split; [exact Ht|].
  destruct Cases as [(s' & EI & Eo & I' & _ & St)|[(s' & msg & EI & Eo & Es & _)|(E0 & _)]].
  - right. destruct (rinv_step c d F tb dir mx rt hm al C (fun _ => True) lo fuel _ s' (fun _ _ _ _ _ _ => I) LO (ex_intro _ t (ex_intro _ y (ex_intro _ sp (conj S (conj I HA))))) A1 EI) as (t2 & y2 & sp2 & sp' & a0 & m & h & y1 & e & S2 & G & Hlo & _ & _ & Hle & Hdh).
    assert (t2 = t) by (pose proof (st_t _ _ _ _ _ _ S2) as Q; rewrite (st_t _ _ _ _ _ _ S) in Q; injection Q as ->; reflexivity). subst t2.
    assert (y2 = y). { pose proof (st_y _ _ _ _ _ _ S2) as Q; rewrite (st_y _ _ _ _ _ _ S) in Q. apply map_inj_fin in Q. symmetry; exact Q. } subst y2.
    pose proof (gs_trial _ _ _ _ _ _ _ _ _ _ _ _ _ _ _ _ _ _ _ _ G) as GT. destruct GT. pose proof (gs_st _ _ _ _ _ _ _ _ _ _ _ _ _ _ _ _ _ _ _ _ G) as S1. pose proof (gs_e _ _ _ _ _ _ _ _ _ _ _ _ _ _ _ _ _ _ _ _ G) as He.
    pose proof (st_len _ _ _ _ _ _ S) as Ly. pose proof (proj1 (cf_fun _ _ _ _ _ _ _ _ _ C t y Ly)) as Lf. pose proof (st_len _ _ _ _ _ _ S1) as L1. pose proof (proj1 (cf_fun _ _ _ _ _ _ _ _ _ C (t + h) y1 L1)) as Lf1.
    pose proof A1 as A1'. unfold ahead, tv in A1'. cbn [rkc_view v_t] in A1'. rewrite (st_t _ _ _ _ _ _ S) in A1'.
    exists h, m, sp', y1. split; [constructor|].
    + exact L1.
    + auto.
    + apply S1.
    + exact gt_cover.
    + split; [|exact Hle]. destruct (cf_dir1 _ _ _ _ _ _ _ _ _ C) as [D|D]; rewrite D in *; nra.
    + rewrite gt_y. do 3 eexists. apply (stages_real m gt_m2 F t h y (F t y) d (rc_fun c) (cf_fun _ _ _ _ _ _ _ _ _ C) Ly Lf).
    + exists e. split; [|lra]. rewrite gt_e. apply (err_real c d F tb dir mx rt hm al); assumption.
    + intros l lam Hlam Hh Hlin. exists (R_m m (h * lam)). split.
      * apply C38_stability_interval; [exact gt_m2|]. rewrite (Rabs_right h) in gt_cover by lra. assert (h * lam >= - (h * sp')) by nra. split; [lra|nra].
      * rewrite gt_y. pose proof (rkY_lin m gt_m2 F t h y (F t y) d (rc_fun c) (cf_fun _ _ _ _ _ _ _ _ _ C) Ly Lf l lam Hlin (Hlin t y Ly) m) as Q. unfold ldot in Q. rewrite Q, (stP_m m gt_m2 y (F t y) d Ly Lf). rewrite R_m_rkcP. reflexivity.
    + rewrite Eo. split; [apply S1|]. split; [apply S1|]. split; [apply S1|]. unfold ahead, tv in St. cbn [rkc_view v_t] in St. rewrite (st_t _ _ _ _ _ _ S1) in St.
      destruct (cf_dir1 _ _ _ _ _ _ _ _ _ C) as [D|D]; rewrite D in *; (destruct St as [[St1 St2]|[St1 St2]]; split; intros Q; try exact St1; exfalso; first [lra|apply Q; lra]).
  - left. rewrite Eo. unfold rkc_step_impl in EI. assert (HA' : absh_is (rs_absh (ost v))) by apply S.
    pose proof (loop_real c d F tb dir mx rt hm al C fuel t y sp _ (rs_absh (ost v)) (rs_y (ost v)) S Ht HA') as T. change (num RX) with xr in *. rewrite EI in T. destruct T as (T1 & T2). split; [apply T1|]. split; [apply T1|].
    rewrite Es. destruct HR as [_ _ _ _ _ _ (s1 & E & _)]. destruct (init_gen ELX _ _ _ _ _ _ _ E) as (_ & _ & _ & _ & _ & Er & _). rewrite <- Er. destruct T2 as [[-> T2]| ->]; auto.
  - exfalso. cbn [rkc_view v_n] in E0. rewrite (st_y _ _ _ _ _ _ S) in E0. rewrite map_length, (st_len _ _ _ _ _ _ S) in E0. destruct HR. lia.
Qed.

(** ** C22 for SSV2stab: dense output *)
Lemma rkc_dense_is o f t0 tb d F y0 c n v fuel v' : rkc_real o f t0 tb d F y0 c n v -> rkc_step ELX c fuel v = OOk v' -> (forall m, ostat v' <> OFailed m) ->
  exists t y h y1, rs_t (ost v) = Fin t /\ rs_y (ost v) = map Fin y /\ rs_t (ost v') = Fin (t + h) /\ rs_y (ost v') = map Fin y1 /\ h <> 0 /\
    length y = d /\ length y1 = d /\ length (F t y) = d /\ length (F (t + h) y1) = d /\
    rkc_dense_output v' = inl (mk_cubic (Fin t) (Fin (t + h)) (map Fin y) (map Fin y1) (map Fin (F t y)) (map Fin (F (t + h) y1))).
Proof.
  intros HR HS NF. destruct (rkc_real_inv _ _ _ _ _ _ _ _ _ _ HR) as (s & dir & mx & rt & hm & al & lo & C & LO & Hdir & S0 & _ & _ & H & HI).
  destruct (HI (fun _ => True) I (fun _ _ _ _ _ _ => I)) as [_ O1].
  unfold rkc_step in HS. rewrite (cf_tb _ _ _ _ _ _ _ _ _ C), (cf_dir _ _ _ _ _ _ _ _ _ C) in HS. pose proof HS as HS0.
  destruct (ostep_running rkc_view tb dir (rkc_step_impl ELX c) (rinv d F (fun _ => True) lo) (rinv_fin d F (fun _ => True) lo)
     (rinv_keep c d F tb dir mx rt hm al (fun _ => True) lo C LO (fun _ _ _ _ _ _ => I)) _ _ _ O1 HS) as (R1 & I1 & A1 & Cases).
  destruct I1 as (t & y & sp & S & _ & HA).
  destruct Cases as [(s' & EI & Eo & I' & _ & St)|[(s' & msg & EI & Eo & Es & _)|(E0 & _)]].
  - destruct (rinv_step c d F tb dir mx rt hm al C (fun _ => True) lo fuel _ s' (fun _ _ _ _ _ _ => I) LO (ex_intro _ t (ex_intro _ y (ex_intro _ sp (conj S (conj I HA))))) A1 EI) as (t2 & y2 & sp2 & sp' & a0 & m & h & y1 & e & S2 & G & Hlo & _ & _ & Hle & Hdh).
    assert (t2 = t) by (pose proof (st_t _ _ _ _ _ _ S2) as Q; rewrite (st_t _ _ _ _ _ _ S) in Q; injection Q as ->; reflexivity). subst t2.
    assert (y2 = y). { pose proof (st_y _ _ _ _ _ _ S2) as Q; rewrite (st_y _ _ _ _ _ _ S) in Q. apply map_inj_fin in Q. symmetry; exact Q. } subst y2.
    pose proof (gs_st _ _ _ _ _ _ _ _ _ _ _ _ _ _ _ _ _ _ _ _ G) as S1. destruct (gs_old _ _ _ _ _ _ _ _ _ _ _ _ _ _ _ _ _ _ _ _ G) as (O2 & O3).
    pose proof (gs_trial _ _ _ _ _ _ _ _ _ _ _ _ _ _ _ _ _ _ _ _ G) as GT. pose proof (gt_dir _ _ _ _ _ _ _ _ _ _ _ _ _ _ GT) as Hgd.
    assert (Hh : h <> 0) by (intros ->; lra).
    pose proof (st_len _ _ _ _ _ _ S) as Ly. pose proof (proj1 (cf_fun _ _ _ _ _ _ _ _ _ C t y Ly)) as Lf. pose proof (st_len _ _ _ _ _ _ S1) as L1. pose proof (proj1 (cf_fun _ _ _ _ _ _ _ _ _ C (t + h) y1 L1)) as Lf1.
    assert (TO : ot_old v' = Some (Fin t)).
    { unfold ostep in HS. rewrite R1 in HS. cbn [rkc_view v_n v_t] in HS. destruct (_ || _) eqn:B.
      - exfalso. apply orb_prop in B. destruct B as [B|B]; [rewrite (st_y _ _ _ _ _ _ S), map_length, Ly in B; apply Nat.eqb_eq in B; destruct HR; lia|].
        unfold ahead, tv in A1. cbn [rkc_view v_t] in A1. rewrite (st_t _ _ _ _ _ _ S) in A1, B. cbn [neqb RX xeqb] in B. apply Reqb_true in B. subst. lra.
      - change (num RX) with xr in *. rewrite EI in HS. inversion HS. subst v'. cbn [ot_old]. f_equal. apply (st_t _ _ _ _ _ _ S). }
    exists t, y, h, y1. rewrite Eo. split; [exact (st_t _ _ _ _ _ _ S)|]. split; [exact (st_y _ _ _ _ _ _ S)|]. split; [exact (st_t _ _ _ _ _ _ S1)|]. split; [exact (st_y _ _ _ _ _ _ S1)|]. split; [exact Hh|]. split; [exact Ly|]. split; [exact L1|]. split; [exact Lf|]. split; [exact Lf1|].
    { unfold rkc_dense_output. rewrite TO, Eo, (st_t _ _ _ _ _ _ S1), (st_y _ _ _ _ _ _ S1), map_length, L1. replace (d =? 0)%nat with false by (symmetry; apply Nat.eqb_neq; destruct HR; lia).
      cbn [orb neqb RX xeqb]. replace (Reqb (t + h) t) with false by (symmetry; apply Reqb_false; lra). unfold rkc_dense. rewrite O2, O3, (st_t _ _ _ _ _ _ S1), (st_yn _ _ _ _ _ _ S1), (st_fn _ _ _ _ _ _ S1). reflexivity. }
  - exfalso. eapply NF. exact Es.
  - exfalso. cbn [rkc_view v_n] in E0. rewrite (st_y _ _ _ _ _ _ S), map_length, (st_len _ _ _ _ _ _ S) in E0. destruct HR. lia.
Qed.
(** After every accepted step dense_output() is the cubic that joins: it has the old and the new
    solution at the ends, with the slopes fun(t, y) there.  [joins] is that of DenseJoin.v. *)
Theorem C22_ssv2stab o f t0 tb d F y0 c n v fuel v' : rkc_real o f t0 tb d F y0 c n v -> rkc_step ELX c fuel v = OOk v' -> (forall m, ostat v' <> OFailed m) ->
  exists t y h y1 D, rs_t (ost v) = Fin t /\ rs_y (ost v) = map Fin y /\ rs_t (ost v') = Fin (t + h) /\ rs_y (ost v') = map Fin y1 /\ h <> 0 /\
    rkc_dense_output v' = inl D /\ joins d D t y (F t y) (t + h) y1 (F (t + h) y1).
Proof.
  intros HR HS NF. destruct (rkc_dense_is _ _ _ _ _ _ _ _ _ _ _ _ HR HS NF) as (t & y & h & y1 & T1 & T2 & T3 & T4 & Hh & Ly & L1 & Lf & Lf1 & ED).
  exists t, y, h, y1. eexists. repeat (split; [eassumption|]). eapply cubic_joins_real; [lra|exact Ly|exact L1|exact Lf|exact Lf1|reflexivity].
Qed.

(** step() of a running solver returns: no exception, no endless loop *)
Theorem C39_step_returns o f t0 tb d F y0 c n v : rkc_real o f t0 tb d F y0 c n v -> ostat v = ORunning ->
  exists N, forall fuel, (N <= fuel)%nat -> exists v', rkc_step ELX c fuel v = OOk v'.
Proof.
  intros HR Hr. destruct (rkc_real_inv _ _ _ _ _ _ _ _ _ _ HR) as (s & dir & mx & rt & hm & al & lo & C & LO & Hdir & S0 & _ & _ & H & HI).
  destruct (HI (fun _ => True) I (fun _ _ _ _ _ _ => I)) as [_ O1]. unfold oinv in O1. rewrite Hr in O1. destruct O1 as [(t & y & sp & S & _ & HA) A1].
  assert (Ht : t <> tb). { unfold ahead, tv in A1. cbn [rkc_view v_t] in A1. rewrite (st_t _ _ _ _ _ _ S) in A1. intros ->. lra. }
  destruct (step_ends c d F tb dir mx rt hm al C t y sp _ S Ht) as (N & HN). exists N. intros k Hk. specialize (HN k Hk).
  pose proof (loop_real c d F tb dir mx rt hm al C k t y sp _ (rs_absh (ost v)) (rs_y (ost v)) S Ht (st_absh _ _ _ _ _ _ S)) as T. unfold rkc_step_impl in HN.
  unfold rkc_step, ostep. rewrite Hr. destruct (_ || _); [eexists; reflexivity|]. unfold rkc_step_impl. change (num RX) with xr in *.
  destruct (rkc_loop ELX k c (ost v) (rs_absh (ost v)) (rs_y (ost v))); [eexists; reflexivity|eexists; reflexivity|contradiction|contradiction].
Qed.

(** the radius stays bounded: rho_jac is bounded, or it is absent and fun is Lipschitz in y *)
Definition bounded_radius (o : RkcOpts RX) (d : nat) (F : R -> list R -> list R) : Prop :=
  match ro_rho o with
  | Some r => exists S, forall t y q, length y = d -> r (Fin t) (map Fin y) = Fin q -> q <= S
  | None => exists L, 0 <= L /\ forall t u w, length u = d -> length w = d -> en (rsub (F t u) (F t w)) <= L * en (rsub u w)
  end.
Theorem C39_run_ends o f t0 tb d F y0 c s : rkc_real o f t0 tb d F y0 c 0 (onew s) -> bounded_radius o d F ->
  exists n v, rkc_real o f t0 tb d F y0 c n v /\ ostat v <> ORunning.
Proof.
  intros HR HB. destruct (rkc_real_inv _ _ _ _ _ _ _ _ _ _ HR) as (s0 & dir & mx & rt & hm & al & lo & C & LO & Hdir & S0 & _ & _ & H & HI).
  inversion H; subst. clear H. assert (Er : rc_rho c = ro_rho o). { destruct HR as [_ _ _ _ _ _ (s1 & E & _)]. apply (init_gen ELX _ _ _ _ _ _ _ E). }
  assert (HS : exists S, 0 < S /\ closed c d F (fun sp => sp <= S)).
  { unfold bounded_radius in HB. unfold closed, sp_from. rewrite Er. destruct (ro_rho o) as [r|].
    - destruct HB as (S & HS). exists (Rmax S 1). split; [eapply Rlt_le_trans; [|apply Rmax_r]; lra|]. intros t y sp sp' Ly Q. eapply Rle_trans; [eapply HS; eassumption|apply Rmax_l].
    - destruct HB as (L & HL & Lip). exists (Rmax (rho_bound d L) 1). split; [eapply Rlt_le_trans; [|apply Rmax_r]; lra|]. intros t y sp sp' Ly Q. eapply Rle_trans; [apply (Q L HL)|apply Rmax_l]. intros u w. apply Lip. }
  destruct HS as (S & HS & HP). destruct (HI (fun sp => sp <= S) ltac:(lra) HP) as [O0 _].
  destruct (run_ends_gen rkc_view tb dir (rkc_step_impl ELX c) (cf_dir1 _ _ _ _ _ _ _ _ _ C) (rinv d F (fun sp => sp <= S) lo) (rinv_fin d F _ lo)) with (delta := least c lo S) (v := @onew RX _ s) as (n & v & H1 & H2).
  - intros k s1 s2 I1 A1 E1. destruct (rinv_step c d F tb dir mx rt hm al C _ lo k s1 s2 HP LO I1 A1 E1) as (? & ? & ? & ? & ? & ? & ? & ? & ? & _ & _ & _ & _ & I2 & _). exact I2.
  - apply (least_pos c d F tb dir mx rt hm al C); [apply LO|exact HS].
  - intros k s1 s2 I1 A1 E1 A2. apply (rinv_adv c d F tb dir mx rt hm al C S lo k s1 s2 HS HP LO I1 A1 E1 A2).
  - intros s1 I1 A1. apply (rinv_prog c d F tb dir mx rt hm al C _ lo s1 LO I1 A1).
  - exact O0.
  - reflexivity.
  - exists n, v. split; [|exact H2]. destruct HR as [Q1 Q2 Q3 Q4 Q5 Q6 (s1 & E & HH)]. constructor; auto. exists s1. split; [exact E|]. unfold rkc_hist in *. rewrite (cf_tb _ _ _ _ _ _ _ _ _ C), (cf_dir _ _ _ _ _ _ _ _ _ C) in *. inversion HH; subst. exact H1.
Qed.


(** ** which arguments the constructor accepts *)
Definition first_fits (o : RkcOpts RX) (t0 tb : R) : Prop := match ro_first_step o with None => True | Some x => exists h, x = Fin h /\ 0 < h <= Rabs (tb - t0) end.
Definition rho_fits (o : RkcOpts RX) (t0 : R) (y0 : list (num RX)) : Prop :=
  match ro_rho o with None => True | Some r => ro_rho_float o = true /\ nleb RX (r (Fin t0) y0) n0 = false end.
Theorem C39_accepts o f t0 y0 tb b : first_fits o t0 tb -> ro_const_jac o = Some b -> rho_fits o t0 y0 -> nleb RX (ro_max_step o) n0 = false ->
  given o -> (exists r, validate_tol (ro_rtol_is_float o) (ro_rtol o) (ro_atol o) y0 = inl r) ->
  exists c s, rkc_init ELX o f (Fin t0 : num RX) y0 (Fin tb : num RX) = inl (c, s).
Proof.
  intros HF HC HR HM (_ & _ & G3 & G4 & G5) ([rt at_] & HV). unfold rkc_init. rewrite HC.
  assert (E1 : exists a, match ro_first_step o with
          | None => inl None
          | Some h => if nleb RX h n0 then inr (ValueError "`first_step` must be positive.") else
                      if nltb RX (nabs RX (nsub RX (Fin tb) (Fin t0))) h then inr (ValueError "`first_step` exceeds bounds.")
                      else inl (Some h)
          end = inl a).
  { unfold first_fits in HF. destruct (ro_first_step o) as [x|]; [|eexists; reflexivity]. destruct HF as (h & -> & H1 & H2). exists (Some (Fin h)).
    rewrite n0_RX. cbn [nleb RX xleb nabs nsub xsub xadd xopp xabs]. cbn [nltb RX xltb].
    destruct (Rleb h 0) eqn:Q; [apply Rleb_true in Q; lra|]. destruct (Rltb _ h) eqn:Q2; [apply Rltb_true in Q2; unfold Rminus in *; lra|reflexivity]. }
  destruct E1 as (a & E1). rewrite E1.
  assert (E2 : match ro_rho o with
       | None => inl tt
       | Some r => if negb (ro_rho_float o) then inr (TypeError "`rho_jac` should return a float") else
                   if nleb RX (r (Fin t0) y0) n0 then inr (ValueError "`rho_jac` should return a positive float")
                   else inl tt
       end = inl tt).
  { unfold rho_fits in HR. destruct (ro_rho o) as [r|]; [|reflexivity]. destruct HR as [-> ->]. reflexivity. }
  rewrite E2, HM, HV. destruct (validated_atol _ _ _ _ _ _ G3 G4 G5 HV) as (r & al & -> & Hr & _).
  assert (E3 : exists q, @msqrt RX (ndiv RX (Fin r) (nmul RX (lit 10) (n_small RX))) = inl (Fin q)).
  { rewrite nsmall_RX, lit_RX. cbn [nmul RX xmul]. pose proof small_pos. rewrite xdiv_fin by (unfold Q2R; cbn; lra). unfold msqrt. rewrite n0_RX. change (nltb RX (Fin ?a) (Fin ?b)) with (Rltb a b).
    assert (P : 0 <= r / (Q2R 10 * small)). { unfold floor_rtol in Hr. assert (0 < / 2 ^ 53) by (apply Rinv_0_lt_compat, pow_lt; lra). apply Rmult_le_pos; [unfold Rdiv in Hr; lra|]. apply Rlt_le, Rinv_0_lt_compat. unfold Q2R; cbn; lra. }
    match goal with |- context[Rltb ?a 0] => destruct (Rltb a 0) eqn:Q; [apply Rltb_true in Q; lra|] end. eexists. cbn [nsqrt RX xsqrt]. destruct (Rlt_dec _ 0) as [Z|Z]; [exfalso; revert Z; apply Rle_not_lt; exact P|]. reflexivity. }
  destruct E3 as (q & E3). change (num RX) with xr in *. rewrite E3. cbn [el_round ELX]. eexists _, _. reflexivity.
Qed.

(** ** a run, and a step longer than max_step *)
(** y' = 0 on [0, 21/20] with rho_jac = 1, max_step = 1 and first_step = 1 *)
Definition still (t : R) (y : list R) : list R := [0].
Definition still_x (t : num RX) (y : list (num RX)) : list (num RX) := [Fin 0].
Definition still_o : RkcOpts RX := mkRO (Fin 1 : num RX) (Fin (1/1000) : num RX) true (Scalar (Fin (1/1000000) : num RX)) (Some (Fin 1 : num RX)) (Some false) (Some (fun _ _ => Fin 1 : num RX)) true.
Theorem C39_case : exists c s, rkc_real still_o still_x 0 (21/20) 1 still [5] c 0 (onew s) /\ bounded_radius still_o 1 still.
Proof.
  assert (A : exists c s, rkc_init ELX still_o still_x (Fin 0 : num RX) [Fin 5 : num RX] (Fin (21/20) : num RX) = inl (c, s)).
  { apply (C39_accepts still_o still_x 0 [Fin 5] (21/20) false).
    - exists 1. split; [reflexivity|]. rewrite Rabs_right; lra.
    - reflexivity.
    - split; [reflexivity|]. rewrite n0_RX. cbn. destruct (Rleb 1 0) eqn:Q; [apply Rleb_true in Q; lra|reflexivity].
    - rewrite n0_RX. cbn. destruct (Rleb 1 0) eqn:Q; [apply Rleb_true in Q; lra|reflexivity].
    - repeat split; try discriminate; repeat constructor; discriminate.
    - unfold validate_tol. cbn [still_o ro_rtol_is_float ro_rtol ro_atol negb]. rewrite n0_RX. change (nltb RX (Fin ?a) (Fin ?b)) with (Rltb a b).
      destruct (Rltb (1/1000000) 0) eqn:Q; [apply Rltb_true in Q; lra|]. destruct (Rltb (1/1000) 0) eqn:Q2; [apply Rltb_true in Q2; lra|]. eexists. reflexivity. }
  destruct A as (c & s & A). exists c, s. split.
  - constructor; try reflexivity; try lra; try lia.
    + intros t [|a [|b y]] H; try discriminate H. split; reflexivity.
    + repeat split; try discriminate; repeat constructor; discriminate.
    + intros t y _. exists 1. split; [reflexivity|lra].
    + exists s. split; [exact A|constructor].
  - exists 1. intros t y q _ Q. cbn in Q. injection Q as <-. lra.
Qed.

(** whatever the direction and the first step: one trial, accepted, with error 0 *)
Lemma still_trial c tb dir mx rt hm al s absh ysc : rcfg c 1 still tb dir mx rt hm al -> rst 1 still 0 [5] 0 s -> 0 <> tb -> absh_is absh -> rc_rho c <> None ->
  exists s' y' sp' a0 m h y1 hn, rkc_trial ELX c s absh ysc = RAccept s' (Fin h) (Fin (Rabs h)) (Fin hn) (Fin 0) y' /\ sp_from c 1 still 0 [5] 0 sp' (rs_newspc s) /\ start_size hm mx absh a0 /\
    good_trial c still tb dir rt al 0 [5] a0 sp' m h y1 0 /\ rst 1 still 0 [5] sp' s'.
Proof.
  intros C S Ht HA HR. pose proof (trial_real c 1 still tb dir mx rt hm al 0 [5] 0 s absh ysc C S Ht HA) as T.
  assert (Lin : forall m h, (2 <= m)%nat -> rkY m still 0 h [5] (still 0 [5]) m = [5]).
  { intros m h Hm. pose proof (rkY_len m still 0 h [5] (still 0 [5]) 1 (rc_fun c) (cf_fun _ _ _ _ _ _ _ _ _ C) eq_refl eq_refl m) as L.
    pose proof (rkY_lin m Hm still 0 h [5] (still 0 [5]) 1 (rc_fun c) (cf_fun _ _ _ _ _ _ _ _ _ C) eq_refl eq_refl (fun _ => 1) 0 ltac:(intros; cbn; ring) ltac:(cbn; ring) m) as Q.
    unfold ldot in Q. rewrite (stP_m m Hm [5] (still 0 [5]) 1 eq_refl eq_refl), <- R_m_rkcP, Rmult_0_r, (proj1 (C38_exponential m Hm)) in Q.
    destruct (rkY m still 0 h [5] (still 0 [5]) m) as [|a [|b r]]; try discriminate L. cbn in Q. f_equal. lra. }
  assert (E0 : forall a0 sp' m h y1 e, good_trial c still tb dir rt al 0 [5] a0 sp' m h y1 e -> e = 0).
  { intros a0 sp' m h y1 e G. destruct G. rewrite gt_e, gt_y, Lin by exact gt_m2. unfold err_norm, err_est. cbn. pose proof (cf_al1 _ _ _ _ _ _ _ _ _ C) as L. destruct al as [|x [|z r]]; try discriminate L. cbn.
    unfold rms. cbn. match goal with |- sqrt ?x = 0 => replace x with 0; [apply sqrt_0|unfold Rdiv; ring] end. }
  destruct (rkc_trial ELX c s absh ysc) eqn:ET; [|contradiction| |].
  - exfalso. destruct T as (_ & [(_ & _ & Q)|(_ & sp' & a0 & m & h & y1 & e & hn & _ & _ & G & He & _)]); [contradiction|]. rewrite (E0 _ _ _ _ _ _ G) in He. lra.
  - exfalso. destruct T as (sp' & a0 & m & h & y1 & e & a2 & _ & _ & _ & G & He & _). rewrite (E0 _ _ _ _ _ _ G) in He. lra.
  - destruct T as (sp' & a0 & m & h' & y1 & e & hn & SF & SS & _ & G & _ & -> & -> & -> & _ & -> & _ & _ & _ & S1). pose proof (E0 _ _ _ _ _ _ G) as ->.
    exists s0, y, sp', a0, m, h', y1, hn. auto.
Qed.

(** max_step is not a bound for the steps: the step is stretched by up to 10 % to reach t_bound *)
Theorem C39_max_step_refuted : exists c s v, rkc_real still_o still_x 0 (21/20) 1 still [5] c 0 (onew s) /\ rkc_real still_o still_x 0 (21/20) 1 still [5] c 1 v /\
  ro_max_step still_o = (Fin 1 : num RX) /\ rs_t s = (Fin 0 : num RX) /\ rs_t (ost v) = (Fin (21/20) : num RX).
Proof.
  destruct C39_case as (c & s & HR & _). exists c, s.
  destruct (rkc_real_inv _ _ _ _ _ _ _ _ _ _ HR) as (s0 & dir & mx & rt & hm & al & lo & C & LO & Hdir & S & _ & EA & H & HI).
  assert (s0 = s) by (inversion H; reflexivity). subst s0.
  assert (D1 : dir = 1) by (destruct (cf_dir1 _ _ _ _ _ _ _ _ _ C) as [D|D]; rewrite D in *; lra).
  pose proof HR as HR0. destruct HR0 as [Q1 Q2 Q3 Q4 Q5 Q6 (s2 & E & HH)]. assert (s2 = s) by (unfold rkc_hist in HH; inversion HH; reflexivity). subst s2.
  pose proof (init_gen ELX _ _ _ _ _ _ _ E) as J. assert (Er : rc_rho c = Some (fun _ _ => Fin 1 : num RX)) by apply J.
  destruct (still_trial c (21/20) dir mx rt hm al s (rs_absh s) (rs_y s) C S ltac:(lra) (st_absh _ _ _ _ _ _ S)) as (s' & y' & sp' & a0 & m & h & y1 & hn & ET & SF & SS & G & S1); [rewrite Er; discriminate|].
  rewrite EA in SS. cbn in SS. injection SS as <-.
  assert (HH0 : h = 21/20).
  { destruct G. destruct gt_case as [Q|(P1 & P2 & P3)].
    - unfold stretch in Q. rewrite Rminus_0_r, (Rabs_right (21/20)) in Q by lra. destruct (Rle_dec _ _); [|lra]. rewrite D1 in gt_dir. rewrite Rabs_right in Q by lra. exact Q.
    - exfalso. assert (sp' = 1).
      { unfold sp_from in SF. rewrite Er in SF. pose proof (ri_newspc _ _ _ (proj1 J)) as N. cbn in N. rewrite N in SF. cbn in SF. injection SF as <-. reflexivity. }
      subst sp'. unfold stretch in gt_h. rewrite Rminus_0_r, (Rabs_right (21/20)) in gt_h by lra. destruct (Rle_dec _ _); [|lra].
      assert (2 <= INR m) by (apply (le_INR 2); exact gt_m2). assert (3 <= INR m * INR m - 1) by nra. lra. }
  set (s1 := rkc_finish c s' (Fin h : num RX) (Fin (Rabs h) : num RX) (Fin hn : num RX) (Fin 0 : num RX) y').
  assert (EI : rkc_step_impl ELX c 1 s = IDone s1). { unfold rkc_step_impl. cbn [rkc_loop]. change (num RX) with xr in *. rewrite ET. reflexivity. }
  assert (EO : exists v, rkc_step ELX c 1 (onew s) = OOk v /\ rs_t (ost v) = (Fin (21/20) : num RX)).
  { unfold rkc_step, ostep. cbn [ostat onew ost rkc_view v_n v_t]. rewrite (st_y _ _ _ _ _ _ S), (st_t _ _ _ _ _ _ S), (cf_tb _ _ _ _ _ _ _ _ _ C). cbn [map length Nat.eqb orb neqb RX xeqb].
    destruct (Reqb 0 (21/20)) eqn:Q; [apply Reqb_true in Q; lra|]. rewrite EI. eexists. split; [reflexivity|]. cbn [ost]. unfold s1, rkc_finish. cbn [rs_t]. rewrite (st_t _ _ _ _ _ _ S1), HH0. cbn. f_equal. ring. }
  destruct EO as (v & EO & Tv). exists v. split; [exact HR|]. split; [|split; [reflexivity|split; [apply S|exact Tv]]].
  constructor; auto. exists s. split; [exact E|]. unfold rkc_hist. econstructor; [constructor|]. exact EO.
Qed.

(** Integrating backward the first step evaluates fun on the wrong side of t0: here on (0, oo)
    although the interval is [-1, 0]. *)
Definition back_o : RkcOpts RX := mkRO (PInf : num RX) (Fin (1/1000) : num RX) true (Scalar (Fin (1/1000000) : num RX)) None (Some false) (Some (fun _ _ => Fin 1 : num RX)) true.
Theorem C39_backward_call_refuted : exists c s v b u, rkc_real back_o still_x 0 (-1) 1 still [5] c 0 (onew s) /\ rkc_step ELX c 1 (onew s) = OOk v /\
  0 < b /\ In (Fin b : num RX, u) (rs_calls (ost v)).
Proof.
  assert (A : exists c s, rkc_init ELX back_o still_x (Fin 0 : num RX) [Fin 5 : num RX] (Fin (-1) : num RX) = inl (c, s)).
  { apply (C39_accepts back_o still_x 0 [Fin 5] (-1) false).
    - exact I.
    - reflexivity.
    - split; [reflexivity|]. rewrite n0_RX. cbn. destruct (Rleb 1 0) eqn:Q; [apply Rleb_true in Q; lra|reflexivity].
    - reflexivity.
    - repeat split; try discriminate; repeat constructor; discriminate.
    - unfold validate_tol. cbn [back_o ro_rtol_is_float ro_rtol ro_atol negb]. rewrite n0_RX. change (nltb RX (Fin ?a) (Fin ?b)) with (Rltb a b).
      destruct (Rltb (1/1000000) 0) eqn:Q; [apply Rltb_true in Q; lra|]. destruct (Rltb (1/1000) 0) eqn:Q2; [apply Rltb_true in Q2; lra|]. eexists. reflexivity. }
  destruct A as (c & s & A).
  assert (HR : rkc_real back_o still_x 0 (-1) 1 still [5] c 0 (onew s)).
  { constructor; try reflexivity; try lra; try lia.
    + intros t [|a [|b y]] H; try discriminate H. split; reflexivity.
    + repeat split; try discriminate; repeat constructor; discriminate.
    + intros t y _. exists 1. split; [reflexivity|lra].
    + exists s. split; [exact A|constructor]. }
  destruct (rkc_real_inv _ _ _ _ _ _ _ _ _ _ HR) as (s0 & dir & mx & rt & hm & al & lo & C & LO & Hdir & S & _ & EA & H & HI).
  assert (s0 = s) by (inversion H; reflexivity). subst s0.
  pose proof (init_gen ELX _ _ _ _ _ _ _ A) as J. assert (Er : rc_rho c = Some (fun _ _ => Fin 1 : num RX)) by apply J.
  destruct (still_trial c (-1) dir mx rt hm al s (rs_absh s) (rs_y s) C S ltac:(lra) (st_absh _ _ _ _ _ _ S)) as (s' & y' & sp' & a0 & m & h & y1 & hn & ET & SF & SS & G & S1); [rewrite Er; discriminate|].
  pose proof (trial_gen ELX c s (rs_absh s) (rs_y s)) as T. change (num RX) with xr in *. rewrite ET in T. destruct T as (mz & TR & _).
  destruct (tr_first _ _ _ _ _ TR EA) as (a & v1 & v2 & p & EP & IP).
  destruct (init_step_real2 c 1 still (-1) dir mx rt hm al sp' 0 [5] C (st_sp0 _ _ _ _ _ _ S1) eq_refl) as (a' & v1' & v2' & p' & EP' & _ & b & u & -> & Hb).
  assert (p = (Fin b, map Fin u)).
  { rewrite (st_sp _ _ _ _ _ _ S1), (st_t _ _ _ _ _ _ S), (st_yn _ _ _ _ _ _ S), (st_fn _ _ _ _ _ _ S) in EP. change (num RX) with xr in *. rewrite EP' in EP. apply inl_inj in EP. rewrite Rplus_0_l in EP. congruence. }
  subst p.
  set (s1 := rkc_finish c s' (Fin h : num RX) (Fin (Rabs h) : num RX) (Fin hn : num RX) (Fin 0 : num RX) y').
  assert (EI : rkc_step_impl ELX c 1 s = IDone s1). { unfold rkc_step_impl. cbn [rkc_loop]. change (num RX) with xr in *. rewrite ET. reflexivity. }
  eexists c, s, _, b, (map Fin u). split; [exact HR|]. split; [|split; [exact Hb|]].
  - unfold rkc_step, ostep. cbn [ostat onew ost rkc_view v_n v_t]. rewrite (st_y _ _ _ _ _ _ S), (st_t _ _ _ _ _ _ S), (cf_tb _ _ _ _ _ _ _ _ _ C). cbn [map length Nat.eqb orb neqb RX xeqb].
    destruct (Reqb 0 (-1)) eqn:Q; [apply Reqb_true in Q; lra|]. rewrite EI. reflexivity.
  - cbn [ost]. unfold s1, rkc_finish. cbn [rs_calls]. exact IP.
Qed.

Lemma init_absh {A : Arith} (EL : Elem A) o f (t0 : num A) y0 tb c s : rkc_init EL o f t0 y0 tb = inl (c, s) -> rs_absh s = ro_first_step o.
Proof.
  unfold rkc_init. destruct (match ro_first_step o with None => _ | _ => _ end) as [ab|] eqn:EF; [|discriminate].
  destruct (ro_const_jac o) as [cj|]; [|discriminate]. destruct (match ro_rho o with None => _ | _ => _ end) as [[]|]; [|discriminate].
  destruct (nleb A (ro_max_step o) n0); [discriminate|]. destruct (validate_tol _ _ _ _) as [[rt at_]|]; [|discriminate].
  destruct (msqrt _); [|discriminate]. destruct (el_round _ _); [|discriminate]. intros Q. apply inl_inj in Q. injection Q as _ <-. cbn [rs_absh].
  destruct (ro_first_step o); [|congruence]. match goal with H : (if ?b then _ else _) = _ |- _ => destruct b; [discriminate H|] end. match goal with H : (if ?b then _ else _) = _ |- _ => destruct b; [discriminate H|] end. congruence.
Qed.
(** rho_jac returning infinity passes the constructor's check and makes step() raise *)
Definition inf_o : RkcOpts RX := mkRO (PInf : num RX) (Fin (1/1000) : num RX) true (Scalar (Fin (1/1000000) : num RX)) (Some (Fin 1 : num RX)) (Some false) (Some (fun _ _ => PInf : num RX)) true.
Theorem C39_infinite_rho_refuted : exists c s, rkc_init ELX inf_o still_x (Fin 0 : num RX) [Fin 5 : num RX] (Fin 1 : num RX) = inl (c, s) /\
  forall k, rkc_step ELX c (S k) (onew s) = OExn (OverflowError "cannot convert float infinity to integer").
Proof.
  assert (A : exists c s, rkc_init ELX inf_o still_x (Fin 0 : num RX) [Fin 5 : num RX] (Fin 1 : num RX) = inl (c, s)).
  { apply (C39_accepts inf_o still_x 0 [Fin 5] 1 false).
    - exists 1. split; [reflexivity|]. rewrite Rabs_right; lra.
    - reflexivity.
    - split; reflexivity.
    - reflexivity.
    - repeat split; try discriminate; repeat constructor; discriminate.
    - unfold validate_tol. cbn [inf_o ro_rtol_is_float ro_rtol ro_atol negb]. rewrite n0_RX. change (nltb RX (Fin ?a) (Fin ?b)) with (Rltb a b).
      destruct (Rltb (1/1000000) 0) eqn:Q; [apply Rltb_true in Q; lra|]. destruct (Rltb (1/1000) 0) eqn:Q2; [apply Rltb_true in Q2; lra|]. eexists. reflexivity. }
  destruct A as (c & s & A). exists c, s. split; [exact A|]. intros k.
  destruct (init_gen ELX _ _ _ _ _ _ _ A) as (I0 & Ef & Et & Ey & Etb & Er & Em & Ej).
  assert (EA : rs_absh s = Some (Fin 1 : num RX)).
  { apply (init_absh ELX _ _ _ _ _ _ _ A). }
  unfold rkc_step, ostep. cbn [ostat onew ost rkc_view v_n v_t]. rewrite Ey, Et, Etb. cbn [map length Nat.eqb orb neqb RX xeqb]. destruct (Reqb 0 1) eqn:Q; [apply Reqb_true in Q; lra|].
  unfold rkc_step_impl. cbn [rkc_loop]. unfold rkc_trial, rkc_sprad. rewrite (ri_newspc _ _ _ I0). cbn [Nat.eqb orb negb]. rewrite Er. cbn [inf_o ro_rho negb]. rewrite EA. cbn [rkc_first rs_sprad rs_t].
  rewrite Et. assert (SEL : rkc_select ELX c (PInf : num RX) (Fin 0 : num RX) (Fin 1 : num RX) = inr (OverflowError "cannot convert float infinity to integer")).
  { unfold rkc_select. rewrite Etb, !lit_RX, n1_RX. replace (if nleb RX _ _ then _ else _) with (Fin 1 : num RX).
    - cbn [nmul RX xmul]. assert (P : 0 < Q2R (154#100) * 1) by (unfold Q2R; cbn; lra). assert (X : inf_of_sign (xsgn (Fin (Q2R (154#100) * 1)) * xsgn PInf) = PInf). { unfold inf_of_sign. destruct (Rlt_dec 0 _) as [L|L]; [reflexivity|]. exfalso. apply L. cbn [xsgn]. destruct (Rlt_dec (Q2R (154#100) * 1) 0); [lra|]. destruct (Rlt_dec 0 (Q2R (154#100) * 1)); lra. } rewrite X. cbn [nadd xadd]. unfold msqrt. rewrite n0_RX. reflexivity.
    - assert (X : nabs RX (nsub RX (Fin 1) (Fin 0)) = (Fin 1 : num RX)). { change (Fin (Rabs (1 - 0)) = Fin 1). f_equal. rewrite Rabs_right; lra. } rewrite X. destruct (nleb RX _ _); reflexivity. }
  change (num RX) with xr in *. rewrite SEL. reflexivity.
Qed.

Definition init_state {A : Arith} (f : num A -> list (num A) -> list (num A)) (t0 : num A) y0 ab : RkcSt A :=
  mkRS t0 y0 ab None n0 y0 (f t0 y0) [] [] None 0 0 true false n0 0 0 0 [(t0, y0)] [] 0 [].
Lemma init_shape {A : Arith} (EL : Elem A) o f (t0 : num A) y0 tb c s : rkc_init EL o f t0 y0 tb = inl (c, s) ->
  exists rt at_ mm ab cj, validate_tol (ro_rtol_is_float o) (ro_rtol o) (ro_atol o) y0 = inl (rt, at_) /\
    c = (let ms := pymin (pymin (ro_max_step o) (nabs A (nsub A tb t0))) (nsqrt A (n_max A)) in
         let hm := if neqb A tb (n_inf A) then nabs A t0 else pymax (nabs A t0) (nabs A ms) in
         mkRC f tb (direction0 t0 tb) ms rt at_ (pymax (nsqrt A (n_tiny A)) (nmul A (nmul A (lit 10) (n_small A)) hm)) (Z.max mm 2) cj (ro_rho o)) /\
    s = init_state f t0 y0 ab.
Proof.
  unfold rkc_init. destruct (match ro_first_step o with None => _ | _ => _ end) as [ab|] eqn:EF; [|discriminate].
  destruct (ro_const_jac o) as [cj|]; [|discriminate]. destruct (match ro_rho o with None => _ | _ => _ end) as [[]|]; [|discriminate].
  destruct (nleb A (ro_max_step o) n0); [discriminate|]. destruct (validate_tol _ _ _ _) as [[rt at_]|]; [|discriminate].
  destruct (msqrt _); [|discriminate]. destruct (el_round _ _) as [mm|]; [|discriminate]. intros Q. apply inl_inj in Q. injection Q as <- <-. exists rt, at_, mm, ab, cj. split; [reflexivity|]. split; reflexivity.
Qed.
(** Without rho_jac: f(y) = 1000 y (1 - y) at its stable equilibrium y = 1, where df/dy = -1000.
    The power method starts from the vector fun(t, y) = 0 scaled by 1 + sqrt(eps), finds no change and returns the radius 0. *)
Definition qmk {A} a b c d e f g h : RkcOpts A := mkRO a b c d e f g h.
Definition qro : RkcOpts QX := @qmk QX QPInf (QF (1#1000)) true (Scalar (QF (1#1000000) : num QX)) None (Some false) None true.
Definition logistic : num QX -> list (num QX) -> list (num QX) := fun _ y => match y with [a] => [q_mul (QF 1000) (q_mul a (q_sub (QF 1) a))] | _ => [] end.
Theorem C39_radius_zero_refuted (EL : Elem QX) c s : rkc_init EL qro logistic (QF 0 : num QX) [QF 1 : num QX] (QF 10 : num QX) = inl (c, s) ->
  snd (rkc_sprad c s) = true /\ rs_sprad (fst (rkc_sprad c s)) = (QF 0 : num QX).
Proof.
  intros Q. destruct (init_shape EL _ _ _ _ _ _ _ Q) as (rt & at_ & mm & ab & cj & EV & -> & ->). clear. split; vm_compute; reflexivity.
Qed.
(** Without rho_jac: the first step() of a falling body y'' = -g fails, because the power method
    alternates between two values. *)
Definition falling : num QX -> list (num QX) -> list (num QX) := fun _ y => match y with [a; b] => [b; QF (-981#100)] | _ => [] end.
Theorem C39_falling_body_refuted (EL : Elem QX) c s k : rkc_init EL qro falling (QF 0 : num QX) [QF 0 : num QX; QF 1 : num QX] (QF 10 : num QX) = inl (c, s) ->
  exists v, rkc_step EL c (S k) (onew s) = OOk v /\ ostat v = OFailed rkc_norho.
Proof.
  intros Q. destruct (init_shape EL _ _ _ _ _ _ _ Q) as (rt & at_ & mm & ab & cj & EV & Ec & Es).
  assert (E : snd (rkc_sprad c s) = false). { rewrite Ec, Es. vm_compute. reflexivity. }
  assert (E2 : Nat.eqb (length (rs_y s)) 0 || neqb QX (rs_t s) (rc_tb c) = false). { rewrite Ec, Es. vm_compute. reflexivity. }
  unfold rkc_step, ostep. cbn [ostat onew ost rkc_view v_n v_t]. rewrite E2. unfold rkc_step_impl. cbn [rkc_loop]. unfold rkc_trial. destruct (rkc_sprad c s) as [s1 ok]. cbn [snd] in E. subst ok. cbn [negb]. eexists. split; [reflexivity|]. reflexivity.
Qed.
(** the constructor accepts both problems, whatever the elementary functions, as soon as round gives an integer *)
Lemma C39_qro_accepted (EL : Elem QX) : (forall x, exists z, el_round EL x = inl z) ->
  (exists c s, rkc_init EL qro logistic (QF 0 : num QX) [QF 1 : num QX] (QF 10 : num QX) = inl (c, s)) /\
  (exists c s, rkc_init EL qro falling (QF 0 : num QX) [QF 0 : num QX; QF 1 : num QX] (QF 10 : num QX) = inl (c, s)).
Proof.
  intros H.
  assert (G : forall y0, length y0 = 1%nat \/ length y0 = 2%nat -> match validate_tol (ro_rtol_is_float qro) (ro_rtol qro) (ro_atol qro) y0 with inl (rt, _) => match msqrt (ndiv QX rt (nmul QX (lit 10) (n_small QX))) with inl _ => true | _ => false end | _ => false end = true).
  { intros y0 _. vm_compute. reflexivity. }
  split; unfold rkc_init.
  - specialize (G [QF 1 : num QX] (or_introl eq_refl)). change (ro_first_step qro) with (@None (num QX)). change (ro_const_jac qro) with (Some false). change (ro_rho qro) with (@None (num QX -> list (num QX) -> num QX)).
    replace (nleb QX (ro_max_step qro) n0) with false by reflexivity. destruct (validate_tol _ _ _ _) as [[rt at_]|]; [|discriminate G]. destruct (msqrt _) as [q|]; [|discriminate G]. destruct (H q) as (z & ->). eexists _, _; reflexivity.
  - specialize (G [QF 0 : num QX; QF 1 : num QX] (or_intror eq_refl)). change (ro_first_step qro) with (@None (num QX)). change (ro_const_jac qro) with (Some false). change (ro_rho qro) with (@None (num QX -> list (num QX) -> num QX)).
    replace (nleb QX (ro_max_step qro) n0) with false by reflexivity. destruct (validate_tol _ _ _ _) as [[rt at_]|]; [|discriminate G]. destruct (msqrt _) as [q|]; [|discriminate G]. destruct (H q) as (z & ->). eexists _, _; reflexivity.
Qed.
