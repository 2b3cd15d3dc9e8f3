(** Where SSV2stab evaluates fun: proofs for Prop_EvalTimesRkc.v.
    The times of the stages are t + c_j h with c_j in [0, 1]. *)
From Coq Require Import String ZArith Reals Lra Psatz QArith Qreals Bool Lia List.
From Verif Require Import Arith Common Stiff RK HStart RKInit Ode RX RKReal RKStep HStartReal RKInitReal NormReal Rkc Cheb RkcReal RkcGen RkcRho RkcStep RkcTop.
Import ListNotations.
Close Scope string_scope. Open Scope nat_scope. Open Scope R_scope.

(** ** Chebyshev polynomials of the second kind: T_(n+1)' = (n+1) U_n *)
Fixpoint cU (n : nat) (x : R) : R := match n with O => 1 | S m => match m with O => 2 * x | S k => 2 * x * cU m x - cU k x end end.
Fixpoint dU (n : nat) (x : R) : R := match n with O => 0 | S m => match m with O => 2 | S k => 2 * x * dU m x - dU k x + 2 * cU m x end end.
Lemma cU_SS n x : cU (S (S n)) x = 2 * x * cU (S n) x - cU n x. Proof. reflexivity. Qed.
Lemma dU_SS n x : dU (S (S n)) x = 2 * x * dU (S n) x - dU n x + 2 * cU (S n) x. Proof. reflexivity. Qed.
Lemma cT_U n x : cT (S n) x = cU (S n) x - x * cU n x.
Proof.
  revert n. apply two_step; [cbn; lra|cbn; lra|]. intros n H1 H2. rewrite cT_SS, (cU_SS (S n)), (cU_SS n), H1, H2. rewrite cU_SS. ring.
Qed.
Lemma dT_U n x : dT (S n) x = INR (S n) * cU n x.
Proof.
  revert n. apply two_step; [cbn; lra|cbn; lra|]. intros n H1 H2. rewrite dT_SS, H1, H2, cT_U, !cU_SS, !S_INR. ring.
Qed.
Lemma dU_two n x : dU (S n) x = x * dU n x + (INR n + 2) * cU n x /\ x * dU (S n) x - dU n x = (INR n + 1) * cU (S n) x.
Proof.
  induction n as [|n [P Q]]; [cbn; lra|].
  assert (P1 : dU (S (S n)) x = x * dU (S n) x + (INR (S n) + 2) * cU (S n) x) by (rewrite dU_SS, S_INR; lra).
  split; [exact P1|]. rewrite P1. rewrite cU_SS, S_INR.
  assert (H : x * x * dU (S n) x - dU (S n) x = (INR n + 1) * x * cU (S n) x - (INR n + 2) * cU n x).
  { replace (x * x * dU (S n) x) with (x * (x * dU (S n) x)) by ring. replace (x * dU (S n) x) with ((INR n + 1) * cU (S n) x + dU n x) by lra. lra. }
  replace (x * (x * dU (S n) x + (INR n + 1 + 2) * cU (S n) x) - dU (S n) x) with ((x * x * dU (S n) x - dU (S n) x) + (INR n + 3) * x * cU (S n) x) by ring.
  rewrite H. ring.
Qed.
Lemma d2T_U n x : d2T (S n) x = INR (S n) * dU n x.
Proof.
  revert n. apply two_step; [cbn; lra|cbn; lra|]. intros n H1 H2. rewrite d2T_SS, H1, H2, dT_U. destruct (dU_two n x) as [P Q].
  rewrite dU_SS, !S_INR. 
  replace (dU n x) with (2 * x * dU (S n) x + 2 * cU (S n) x - dU (S (S n)) x) by (rewrite dU_SS; ring).
  destruct (dU_two (S n) x) as [P1 _]. rewrite P1, S_INR. ring.
Qed.
(** the wronskian of consecutive U is a sum of squares *)
Lemma wronsk n x : 0 <= dU (S n) x * cU n x - cU (S n) x * dU n x.
Proof.
  induction n as [|n IH]; [cbn; lra|]. rewrite dU_SS, cU_SS. pose proof (Rle_0_sqr (cU (S n) x)) as S. unfold Rsqr in S. nra.
Qed.
Lemma cU_pos n x : 1 <= x -> 0 < cU n x.
Proof. intros H. pose proof (dT_pos (S n) x H ltac:(lia)) as P. rewrite dT_U in P. pose proof (lt_0_INR (S n) ltac:(lia)). nra. Qed.
(** T_j'' / T_j' does not decrease with j *)
Lemma ratio_step n x : 1 <= x -> d2T (S n) x / dT (S n) x <= d2T (S (S n)) x / dT (S (S n)) x.
Proof.
  intros H. pose proof (dT_pos (S n) x H ltac:(lia)). pose proof (dT_pos (S (S n)) x H ltac:(lia)).
  rewrite !d2T_U, !dT_U. pose proof (cU_pos n x H). pose proof (cU_pos (S n) x H). pose proof (lt_0_INR (S n) ltac:(lia)). pose proof (lt_0_INR (S (S n)) ltac:(lia)).
  replace (INR (S n) * dU n x / (INR (S n) * cU n x)) with (dU n x / cU n x) by (field; split; lra).
  replace (INR (S (S n)) * dU (S n) x / (INR (S (S n)) * cU (S n) x)) with (dU (S n) x / cU (S n) x) by (field; split; lra).
  pose proof (wronsk n x) as W. apply Rmult_le_reg_r with (cU n x * cU (S n) x); [nra|].
  replace (dU n x / cU n x * (cU n x * cU (S n) x)) with (dU n x * cU (S n) x) by (field; lra).
  replace (dU (S n) x / cU (S n) x * (cU n x * cU (S n) x)) with (dU (S n) x * cU n x) by (field; lra). lra.
Qed.
Lemma ratio_le j m x : 1 <= x -> (1 <= j <= m)%nat -> d2T j x / dT j x <= d2T m x / dT m x.
Proof.
  intros H [H1 H2]. induction H2 as [|m Hm IH]; [lra|]. eapply Rle_trans; [exact IH|]. destruct m as [|m]; [lia|]. apply ratio_step, H.
Qed.
Lemma cc_ge2 m j : (2 <= m)%nat -> (2 <= j <= m)%nat -> 0 <= cc m j <= 1.
Proof.
  intros Hm Hj. pose proof (w_gt m Hm) as W. pose proof (ratio_le j m (w0T m) ltac:(lra) ltac:(lia)) as Q.
  pose proof (dT_pos m (w0T m) ltac:(lra) ltac:(lia)). pose proof (d2T_pos m (w0T m) ltac:(lra) ltac:(lia)).
  pose proof (dT_pos j (w0T m) ltac:(lra) ltac:(lia)). pose proof (d2T_pos j (w0T m) ltac:(lra) ltac:(lia)).
  assert (E : cc m j = (d2T j (w0T m) / dT j (w0T m)) / (d2T m (w0T m) / dT m (w0T m))).
  { unfold cc. replace (bb m j) with (bT j (w0T m)) by (destruct j as [|[|k]]; [lia|lia|reflexivity]). unfold w1T, bT. generalize dependent (dT j (w0T m)). generalize dependent (d2T j (w0T m)). generalize dependent (dT m (w0T m)). generalize dependent (d2T m (w0T m)). intros. field. repeat split; lra. }
  rewrite E. assert (P1 : 0 < d2T m (w0T m) / dT m (w0T m)) by (apply Rdiv_lt_0_compat; lra). assert (P2 : 0 < d2T j (w0T m) / dT j (w0T m)) by (apply Rdiv_lt_0_compat; lra).
  split; [left; apply Rdiv_lt_0_compat; assumption|]. apply Rmult_le_reg_r with (d2T m (w0T m) / dT m (w0T m)); [exact P1|].
  unfold Rdiv at 1. rewrite Rmult_assoc, Rinv_l by lra. lra.
Qed.
Lemma cc_range m j : (2 <= m)%nat -> (j <= m)%nat -> 0 <= cc m j <= 1.
Proof.
  intros Hm Hj. destruct j as [|[|j]]; [rewrite cc_0; lra| |apply cc_ge2; lia].
  pose proof (w_gt m Hm) as W. pose proof (bb_pos m Hm 1) as B. pose proof (w1_pos m Hm) as V.
  pose proof (cc_ge2 m 2 Hm ltac:(lia)) as C2.
  assert (E2 : cc m 2 = w1T m (w0T m) / w0T m). { unfold cc, bb, bT. cbn [dT d2T cT]. field. nra. }
  assert (E1 : cc m 1 = w1T m (w0T m) / w0T m * / (4 * w0T m)). { unfold cc, bb. cbn [dT]. field. lra. }
  rewrite E1, <- E2. assert (I : 0 < / (4 * w0T m) <= 1). { split; [apply Rinv_0_lt_compat; lra|]. rewrite <- Rinv_1. apply Rinv_le_contravar; lra. }
  nra.
Qed.

(** ** one trial *)
(** the calls are made between t and t + D in the direction dir *)
Definition rk_calls_in (t dir D : R) (l : list (num RX * list (num RX))) : Prop :=
  Forall (fun p => exists x, fst p = Fin x /\ 0 <= dir * (x - t) <= D) l.
Definition ext (t dir D : R) (a b : list (num RX * list (num RX))) : Prop := exists l, b = (a ++ l)%list /\ rk_calls_in t dir D l.
Lemma ext_refl t dir D a : ext t dir D a a. Proof. exists []. rewrite app_nil_r. split; [reflexivity|constructor]. Qed.
Lemma ext_trans t dir D a b c : ext t dir D a b -> ext t dir D b c -> ext t dir D a c.
Proof. intros (l1 & -> & H1) (l2 & -> & H2). exists (l1 ++ l2)%list. rewrite app_assoc. split; [reflexivity|]. apply Forall_app. auto. Qed.
Lemma ext_move t dir D t' a b : 0 <= dir * (t' - t) -> ext t' dir (D - dir * (t' - t)) a b -> ext t dir D a b.
Proof. intros H (l & -> & F). exists l. split; [reflexivity|]. eapply Forall_impl; [|exact F]. intros p (x & E & Hx). exists x. split; [exact E|]. lra. Qed.
Lemma scalls_in m F t h y f dir D : (2 <= m)%nat -> (dir = 1 \/ dir = -1) -> 0 < dir * h -> dir * h <= D ->
  rk_calls_in t dir D (scalls m F t h y f 1 (m - 1)).
Proof.
  intros Hm Hd H1 H2. unfold rk_calls_in, scalls. apply Forall_map, Forall_forall. intros j Hj. apply in_seq in Hj.
  destruct (cc_range m j Hm ltac:(lia)) as [C1 C2]. cbn [fst]. eexists. split; [reflexivity|]. destruct Hd as [-> | ->]; nra.
Qed.

(** the probe for the first step size, which ignores the direction, stays inside when running forward *)
Definition probe_ok (tb dir mx hm t : R) (absh : option (num RX)) : Prop := absh = None -> dir = 1 /\ Rmax mx hm <= tb - t.
Lemma inl_inv {X Y : Type} (a b : X) : @inl X Y a = inl b -> a = b.
Proof. intros H. injection H. auto. Qed.
Lemma init_step_probe c d F tb dir mx rt hm al sp t y : rcfg c d F tb dir mx rt hm al -> 0 <= sp ->
  forall a v1 v2 p, rkc_init_step c (Fin sp) (Fin t) (map Fin y) (map Fin (F t y)) = inl (a, v1, v2, p) -> exists b, fst p = Fin (t + b) /\ 0 < b <= Rmax mx hm.
Proof.
  intros C Hs a v1 v2 p. unfold rkc_init_step. rewrite (cf_mx _ _ _ _ _ _ _ _ _ C), (cf_hm _ _ _ _ _ _ _ _ _ C). pose proof (cf_mx0 _ _ _ _ _ _ _ _ _ C) as M0. pose proof (cf_hm0 _ _ _ _ _ _ _ _ _ C) as H0.
  rewrite n1_RX. cbn [nmul RX xmul].
  assert (E1 : exists b, (if nltb RX (Fin 1) (Fin (sp * mx)) then ndiv RX (Fin 1) (Fin sp) else Fin mx) = Fin b /\ 0 < b <= mx).
  { change (nltb RX (Fin 1) (Fin (sp * mx))) with (Rltb 1 (sp * mx)). destruct (Rltb_spec 1 (sp * mx)) as [L|L].
    - assert (0 < sp) by nra. rewrite xdiv_fin by lra. eexists. split; [reflexivity|]. split; [apply Rdiv_lt_0_compat; lra|].
      apply Rmult_le_reg_r with sp; [lra|]. unfold Rdiv. rewrite Rmult_assoc, Rinv_l by lra. lra.
    - exists mx. split; [reflexivity|lra]. }
  destruct E1 as (b & E1 & Hb). change (num RX) with xr in *. rewrite E1. rewrite pymax_fin. cbv zeta. destruct (msqrt _) as [sq|]; [|discriminate].
  assert (P : 0 < Rmax b hm <= Rmax mx hm). { split; [apply Rlt_le_trans with hm; [lra|apply Rmax_r]|apply Rle_max_compat_r; lra]. }
  assert (Q : forall z : num RX * list (num RX), z = p -> fst z = Fin (t + Rmax b hm) -> exists b0, fst p = Fin (t + b0) /\ 0 < b0 <= Rmax mx hm) by (intros z <- Ez; exists (Rmax b hm); auto).
  match goal with |- (if ?z then _ else _) = _ -> _ => destruct z end; intros E; apply inl_inv, pair_equal_spec in E; destruct E as [_ E]; apply (Q _ E); reflexivity.
Qed.
Lemma trial_times c d F tb dir mx rt hm al t y sp s absh ysc : rcfg c d F tb dir mx rt hm al -> rst d F t y sp s -> t <> tb -> absh_is absh -> 0 < dir * (tb - t) -> probe_ok tb dir mx hm t absh ->
  let grows s' := ext t dir (dir * (tb - t)) (rs_calls s) (rs_calls s') /\ ext t dir (dir * (tb - t)) (rs_rcalls s) (rs_rcalls s') in
  match rkc_trial ELX c s absh ysc with
  | RRaise _ => True
  | RFail s' _ => grows s'
  | RReject s' _ _ => grows s'
  | RAccept s' _ _ _ _ _ => grows s'
  end.
Proof.
  intros C S Ht HA Hah HP grows. unfold rkc_trial. destruct (sprad_real c d F tb dir mx rt hm al t y sp s C S) as (s1 & ok & E1 & P0 & P1). rewrite E1.
  pose proof (sprad_gen _ _ _ _ E1) as SE. pose proof (se_calls _ _ _ _ SE) as EC1. destruct (se_rcalls _ _ _ _ SE) as (lr & ER1 & _ & _ & _ & FR).
  assert (GR : ext t dir (dir * (tb - t)) (rs_rcalls s) (rs_rcalls s1)).
  { exists lr. split; [exact ER1|]. eapply Forall_impl; [|exact FR]. intros p Ep. exists t. split; [etransitivity; [exact Ep|apply S]|lra]. }
  destruct ok; cbn [negb].
  2: { split; [rewrite EC1; apply ext_refl|exact GR]. }
  destruct (P1 eq_refl) as (sp' & [S1 SO SR]). clear P0 P1 SO SR E1 SE FR ER1.
  assert (FI : match rkc_first c s1 absh with inr _ => True | inl (a, s2) => exists a0, a = Fin a0 /\ 0 < a0 /\ rst d F t y sp' s2 /\ rs_rcalls s2 = rs_rcalls s1 /\ ext t dir (dir * (tb - t)) (rs_calls s) (rs_calls s2) end).
  { rewrite <- EC1. unfold rkc_first. destruct absh as [x|].
    - destruct HA as (r & -> & Hr). exists r. split; [reflexivity|]. split; [exact Hr|]. split; [exact S1|]. split; [reflexivity|apply ext_refl].
    - destruct (init_step_real c d F tb dir mx rt hm al sp' t y C (st_sp0 _ _ _ _ _ _ S1) (st_len _ _ _ _ _ _ S1)) as (a & v1 & v2 & p & E & Ha).
      destruct (init_step_probe c d F tb dir mx rt hm al sp' t y C (st_sp0 _ _ _ _ _ _ S1) _ _ _ _ E) as (b & Eb & Hb).
      rewrite (st_sp _ _ _ _ _ _ S1), (st_t _ _ _ _ _ _ S1), (st_yn _ _ _ _ _ _ S1), (st_fn _ _ _ _ _ _ S1). change (num RX) with xr in *. rewrite E. exists a. split; [reflexivity|].
      split; [pose proof (cf_mx0 _ _ _ _ _ _ _ _ _ C); pose proof (cf_hm0 _ _ _ _ _ _ _ _ _ C); unfold Rmin in Ha; destruct (Rle_dec hm mx); lra|]. split; [pose proof S1 as S1'; destruct S1'; constructor; cbn; auto|]. split; [reflexivity|].
      exists [p]. split; [reflexivity|]. constructor; [|constructor]. exists (t + b). split; [exact Eb|]. destruct (HP eq_refl) as [-> HM]. lra. }
  destruct (rkc_first c s1 absh) as [[a0x s2]|]; [|exact I]. destruct FI as (a0 & -> & A0 & S2 & ER2 & G2). rewrite <- ER2 in GR. clear ER2 EC1 S1 s1.
  destruct (select_real c d F tb dir mx rt hm al sp' t a0 C (st_sp0 _ _ _ _ _ _ S2) A0 Ht) as (m & a & lim & E3 & M2 & MM & Ha & Hst & Cov & L1 & L2).
  rewrite (st_sp _ _ _ _ _ _ S2), (st_t _ _ _ _ _ _ S2), (st_yn _ _ _ _ _ _ S2), (st_fn _ _ _ _ _ _ S2). change (num RX) with xr in *. rewrite E3. cbv zeta.
  rewrite (cf_dir _ _ _ _ _ _ _ _ _ C). cbn [nmul RX xmul nadd].
  pose proof (st_len _ _ _ _ _ _ S2) as Ly. destruct (cf_fun _ _ _ _ _ _ _ _ _ C t y Ly) as [Lf _].
  set (h := dir * a). pose proof (cf_dir1 _ _ _ _ _ _ _ _ _ C) as D1. assert (Hh : 0 < dir * h) by (unfold h; destruct D1 as [-> | ->]; lra).
  assert (Hh2 : dir * h <= dir * (tb - t)). { destruct (stretch_le tb t a0 A0) as [_ X]. unfold h. destruct D1 as [E | E]; rewrite E in *; unfold Rabs in X; destruct (Rcase_abs _); lra. }
  rewrite (stages_real m M2 F t h y (F t y) d (rc_fun c) (cf_fun _ _ _ _ _ _ _ _ _ C) Ly Lf).
  cbn [xadd].
  assert (GC : ext t dir (dir * (tb - t)) (rs_calls s) ((rs_calls s2 ++ scalls m F t h y (F t y) 1 (m - 1)) ++ [(Fin (t + h) : num RX, map Fin (rkY m F t h y (F t y) m) : list (num RX))])%list).
  { eapply ext_trans; [exact G2|]. eexists. rewrite <- app_assoc. split; [reflexivity|]. apply Forall_app. split; [apply (scalls_in m); assumption|]. constructor; [|constructor]. exists (t + h). split; [reflexivity|]. replace (t + h - t) with h by ring. lra. }
  match goal with |- context [nltb RX ?e n1] => destruct (nltb RX e n1) end; [split; assumption|].
  destruct (_ || _)%bool; [split; assumption|]. destruct (nltb RX _ _); split; assumption.
Qed.
(** ** steps and runs *)
Section Run.
Variables (c : RkcCfg RX) (d : nat) (F : R -> list R -> list R) (tb dir mx rt hm : R) (al : list R).
Hypothesis C : rcfg c d F tb dir mx rt hm al.
Lemma loop_times : forall fuel t y sp s absh ysc, rst d F t y sp s -> t <> tb -> absh_is absh -> 0 < dir * (tb - t) -> probe_ok tb dir mx hm t absh ->
  let grows s' := ext t dir (dir * (tb - t)) (rs_calls s) (rs_calls s') /\ ext t dir (dir * (tb - t)) (rs_rcalls s) (rs_rcalls s') in
  match rkc_loop ELX fuel c s absh ysc with
  | IDone s' => grows s'
  | IFail s' _ => grows s'
  | _ => True
  end.
Proof.
  induction fuel as [|fuel IH]; intros t y sp s absh ysc S Ht HA Hah HP grows; cbn [rkc_loop]; [exact I|].
  pose proof (trial_times c d F tb dir mx rt hm al t y sp s absh ysc C S Ht HA Hah HP) as TT. cbv zeta in TT.
  pose proof (trial_real c d F tb dir mx rt hm al t y sp s absh ysc C S Ht HA) as T. destruct (rkc_trial ELX c s absh ysc) as [s1 msg|e0|s1 a1 y1|s1 h0 a0 hm0 er0 y0].
  - exact TT.
  - exact I.
  - destruct T as (sp' & a0 & m & h & u & e & a2 & SF & SS & A0 & G & He & -> & E2 & Hs & S1). assert (TP : 0 < sqrt_tiny) by apply sqrt_tiny_pos.
    specialize (IH t y sp' s1 (Some (Fin a2)) y1 S1 Ht ltac:(exists a2; split; [reflexivity|lra]) Hah ltac:(discriminate)). cbv zeta in IH.
    destruct TT as [T1 T2]. change (num RX) with xr in *. destruct (rkc_loop ELX fuel c s1 (Some (Fin a2)) y1) as [s'|s' msg|e1|]; auto; destruct IH as [I1 I2]; split; eapply ext_trans; eassumption.
  - exact TT.
Qed.
Lemma hist_times t0 y0 s lo n v : low mx hm lo -> rst d F t0 y0 0 s -> rinv d F (fun _ => True) lo s -> 0 < dir * (tb - t0) -> probe_ok tb dir mx hm t0 (rs_absh s) ->
  ohist rkc_view (Fin tb) (Fin dir) (rkc_step_impl ELX c) (onew s) n v ->
  ext t0 dir (dir * (tb - t0)) (rs_calls s) (rs_calls (ost v)) /\ ext t0 dir (dir * (tb - t0)) (rs_rcalls s) (rs_rcalls (ost v)).
Proof.
  intros LO S0 I0 Hdir HP H.
  assert (KEEP : forall k s1 s2, rinv d F (fun _ => True) lo s1 -> ahead rkc_view tb dir s1 -> rkc_step_impl ELX c k s1 = IDone s2 -> rinv d F (fun _ => True) lo s2).
  { intros k s1 s2 I1 A1 E1. destruct (rinv_step c d F tb dir mx rt hm al C (fun _ => True) lo k s1 s2 (fun _ _ _ _ _ _ => I) LO I1 A1 E1) as (? & ? & ? & ? & ? & ? & ? & ? & ? & _ & _ & _ & _ & I2 & _). exact I2. }
  assert (O0 : oinv rkc_view tb dir (rinv d F (fun _ => True) lo) (onew s)).
  { split; [exact I0|]. unfold ahead, tv. cbn [rkc_view v_t onew ost]. rewrite (st_t _ _ _ _ _ _ S0). exact Hdir. }
  remember (onew s) as v0 eqn:Ev.
  enough (Q : (ext t0 dir (dir * (tb - t0)) (rs_calls s) (rs_calls (ost v)) /\ ext t0 dir (dir * (tb - t0)) (rs_rcalls s) (rs_rcalls (ost v))) /\
     (ostat v = ORunning -> exists t, rs_t (ost v) = Fin t /\ 0 <= dir * (t - t0) /\ (rs_absh (ost v) = None -> t = t0 /\ rs_absh s = None))) by apply Q.
  induction H as [v0|v0 n v1 v2 k H IH HS].
  - subst v0. cbn [onew ost]. split; [split; apply ext_refl|]. intros _. exists t0. split; [apply S0|]. split; [lra|auto].
  - specialize (IH Ev O0). destruct IH as [[E1 E2] Q].
    assert (O1 : oinv rkc_view tb dir (rinv d F (fun _ => True) lo) v1) by (eapply (ohist_oinv rkc_view tb dir (rkc_step_impl ELX c)); [intros s' Hs'; eapply rinv_fin; exact Hs'|exact KEEP|exact O0|exact H]).
    destruct (ostep_running rkc_view tb dir (rkc_step_impl ELX c) (rinv d F (fun _ => True) lo) (rinv_fin d F (fun _ => True) lo) KEEP _ _ _ O1 HS) as (R1 & I1 & A1 & Cases).
    destruct (Q R1) as (t & Et & Ht & HN). destruct I1 as (t' & y & sp & S & _ & HA).
    assert (t' = t) by (pose proof (st_t _ _ _ _ _ _ S) as X; rewrite Et in X; injection X as ->; reflexivity). subst t'.
    assert (Ah : 0 < dir * (tb - t)) by (unfold ahead, tv in A1; cbn [rkc_view v_t] in A1; rewrite Et in A1; exact A1).
    assert (Hne : t <> tb) by (intros ->; lra).
    assert (HA' : absh_is (rs_absh (ost v1))). { unfold absh_is. destruct (rs_absh (ost v1)) as [x|]; [|exact I]. destruct HA as (r & -> & Hr). exists r. split; [reflexivity|]. destruct LO as (L & _). lra. }
    assert (HP1 : probe_ok tb dir mx hm t (rs_absh (ost v1))). { intros N. destruct (HN N) as [-> N0]. apply HP, N0. }
    pose proof (loop_times k t y sp (ost v1) (rs_absh (ost v1)) (rs_y (ost v1)) S Hne HA' Ah HP1) as LT.
    pose proof (loop_real c d F tb dir mx rt hm al C k t y sp (ost v1) (rs_absh (ost v1)) (rs_y (ost v1)) S Hne HA') as LR. cbv zeta in LT.
    assert (MV : forall a b, ext t dir (dir * (tb - t)) a b -> ext t0 dir (dir * (tb - t0)) a b).
    { intros a b X. apply (ext_move t0 dir _ t a b Ht). replace (dir * (tb - t0) - dir * (t - t0)) with (dir * (tb - t)) by ring. exact X. }
    unfold rkc_step_impl in Cases. change (num RX) with xr in *.
    destruct Cases as [(s' & EI & Eo & _ & _ & _)|[(s' & msg & EI & Eo & Es & _)|(E0 & _)]].
    + rewrite EI in LT, LR. destruct LT as [T1 T2]. rewrite Eo. split; [split; (eapply ext_trans; [eassumption|apply MV; assumption])|].
      intros _. destruct LR as (sp' & a0 & m & h & y1 & e & G). exists (t + h). split; [exact (st_t _ _ _ _ _ _ (gs_st _ _ _ _ _ _ _ _ _ _ _ _ _ _ _ _ _ _ _ _ G))|].
      split; [pose proof (gt_dir _ _ _ _ _ _ _ _ _ _ _ _ _ _ (gs_trial _ _ _ _ _ _ _ _ _ _ _ _ _ _ _ _ _ _ _ _ G)); lra|].
      destruct (gs_next _ _ _ _ _ _ _ _ _ _ _ _ _ _ _ _ _ _ _ _ G) as (a' & X & _). rewrite X. discriminate.
    + rewrite EI in LT. destruct LT as [T1 T2]. rewrite Eo. split; [split; (eapply ext_trans; [eassumption|apply MV; assumption])|]. rewrite Es. discriminate.
    + exfalso. cbn [rkc_view v_n] in E0. rewrite (st_y _ _ _ _ _ _ S), map_length, (st_len _ _ _ _ _ _ S) in E0. pose proof (cf_d _ _ _ _ _ _ _ _ _ C). lia.
Qed.
End Run.
