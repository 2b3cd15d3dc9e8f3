(** C52: accuracy of the dense output along whole runs. On a problem y' = F(t, y) whose solution Y exists on
    [lo, hi], with F smooth and Lipschitz along Y, the interpolant that dense_output() gives after any successful
    step of any run with steps of at most H is within C (H^p + H^(q+1)) of Y at every point of that step, p being
    the order of the class and q that of its interpolant. C depends neither on the run nor on H. *)
From Coq Require Import String Reals Lra Psatz QArith Qreals Lia List Arith Bool.
From Verif Require Import Arith Common RK RKGen RKHist RX SpecRK RKSpecProofs RKReal RKInit RKStep RKBuilt RKMore RKTop Classes Tableaux Series Trees OrderThm OrderCheck
  OrderRK OrderModel OrderPair Dense DenseReal DenseStep DenseAcc Smooth Prop_Order GOrder GDense Balls BallTab NearPair Prop_Near UOrder UOrder2 GlobalRK GlobalPoly GlobalRun
  Prop_Global GlobalEst DenseNear Prop_DenseNear UDense GlobalDense.
Import ListNotations.
Close Scope string_scope.
Open Scope nat_scope.
Open Scope R_scope.

(** ** specification *)
Definition between (a b x : R) : Prop := a <= x <= b \/ b <= x <= a.
(** dense_output() after the step from v1 to v2 returns sol, and sol(x) is within [bound] of Y(x) in all
    components for every x of the step *)
Definition sol_tracked (impl : dimpl RX) (c : Cfg RX) (d : nat) (Y : R -> list R) (v1 v2 : Solver RX) (bound : R) : Prop :=
  exists x1 x2 sol s', t (st v1) = Fin x1 /\ t (st v2) = Fin x2 /\ dense_output impl c v2 = DenseOk sol s' /\
    forall x, between x1 x2 x -> exists r, call sol (Fin x) = map Fin r /\ length r = d /\ close d r (Y x) bound.
(** for every successful step of every run as in C49 *)
Definition sols_track (T : Tab RX) (impl : dimpl RX) (d : nat) (g : num RX -> list (num RX) -> list (num RX)) (lo hi : R) (Y : R -> list R) (H bound : R) : Prop :=
  forall m k o t0 tb c s0 v1 v2 kk, uses_tab m T d -> ordinary k o t0 tb (map Fin (Y t0)) ->
    rk_init k o g (Fin t0) (map Fin (Y t0)) (Fin tb) = inl (c, s0) -> lo <= t0 <= hi -> lo <= tb <= hi ->
    steps_below m c H (new_solver s0) v1 -> limits_consistent c v1 -> ode_step kk m c v1 = StepOk v2 -> ~ is_failed v2 ->
    (forall x1 x2, t (st v1) = Fin x1 -> t (st v2) = Fin x2 -> Rabs (x2 - x1) <= H) ->
    sol_tracked impl c d Y v1 v2 bound.
(** the step from v1 to v2 is one of the steps of a run from v0 to v *)
Definition step_of (m : Meth RX) (c : Cfg RX) (v0 v v1 v2 : Solver RX) : Prop :=
  exists i j kk, history m c v0 i v1 /\ ode_step kk m c v1 = StepOk v2 /\ history m c v2 j v.
(** the whole interval a run has covered: every point of it lies in a step whose interpolant is accurate on that step *)
Definition sols_cover (T : Tab RX) (impl : dimpl RX) (d : nat) (g : num RX -> list (num RX) -> list (num RX)) (lo hi : R) (Y : R -> list R) (H bound : R) : Prop :=
  forall m k o t0 tb c s0 v xe x, uses_tab m T d -> ordinary k o t0 tb (map Fin (Y t0)) ->
    rk_init k o g (Fin t0) (map Fin (Y t0)) (Fin tb) = inl (c, s0) -> lo <= t0 <= hi -> lo <= tb <= hi ->
    steps_below m c H (new_solver s0) v -> t (st v) = Fin xe -> between t0 xe x -> x <> t0 ->
    exists v1 v2 x1 x2, step_of m c (new_solver s0) v v1 v2 /\ t (st v1) = Fin x1 /\ t (st v2) = Fin x2 /\ between x1 x2 x /\
      sol_tracked impl c d Y v1 v2 bound.
(** with the option max_step *)
Definition max_step_sols (T : Tab RX) (impl : dimpl RX) (d : nat) (g : num RX -> list (num RX) -> list (num RX)) (lo hi : R) (Y : R -> list R) (H bound : R) : Prop :=
  forall m k o t0 tb c s0 v xe x, uses_tab m T d -> ordinary k o t0 tb (map Fin (Y t0)) -> o_max_step o = Fin H ->
    rk_init k o g (Fin t0) (map Fin (Y t0)) (Fin tb) = inl (c, s0) -> lo <= t0 <= hi -> lo <= tb <= hi ->
    consistent_run m c (new_solver s0) v -> t (st v) = Fin xe -> between t0 xe x -> x <> t0 ->
    exists v1 v2 x1 x2, step_of m c (new_solver s0) v v1 v2 /\ t (st v1) = Fin x1 /\ t (st v2) = Fin x2 /\ between x1 x2 x /\
      sol_tracked impl c d Y v1 v2 bound.

(** ** one step of a run *)
Lemma step_made m o g t0 tb y0 c s0 v1 v2 kk n x1 : explicit m -> built o g t0 tb y0 c s0 -> history m c (new_solver s0) n v1 ->
  limits_consistent c v1 -> ode_step kk m c v1 = StepOk v2 -> ~ is_failed v2 -> y (st v1) <> [] -> t (st v1) = Fin x1 ->
  made_step m c v1 v2 /\ exists x2, t (st v2) = Fin x2 /\ ((t0 < tb /\ x1 < x2 <= tb) \/ (tb < t0 /\ tb <= x2 < x1)).
Proof.
  intros HE HB Hn HL Hst Hnf Hy Ex. pose proof (explicit_min m HE) as Hmin.
  assert (HA : after m o g t0 tb y0 c n v1) by (exists s0; auto).
  destruct (after_inv _ _ _ _ _ _ _ _ _ Hmin HA) as (r & s' & HG & (_ & Hrun) & Etb & Hdir & _ & _ & _ & _ & HH & _).
  assert (Htb : t_bound c = Fin tb) by (destruct HG as ((HH1 & _) & _); rewrite HH1, Etb; reflexivity).
  assert (Hr : stat v1 = Running) by (destruct (ode_step_ok m c kk v1 v2 Hmin Hst); auto).
  rewrite Hr in Hrun. unfold tval in Hrun. rewrite Ex, Etb in Hrun.
  destruct (monotone m o g t0 tb _ c n v1 kk v2 HE HA HL Hst Hnf) as (x & x' & E1 & E2 & Hadv & _). rewrite Ex in E1. injection E1 as <-.
  split.
  - exists (new_solver s0), n, kk. split; [destruct (built_good _ _ _ _ _ _ _ HB) as (r2 & HX); apply HX|].
    split; [auto|]. split; [auto|]. split; [auto|]. split; [exact Hy|]. rewrite Ex, Htb. cbn [neqb RX xeqb].
    destruct (Reqb_spec x1 tb) as [->|]; [|reflexivity]. replace (tb - tb) with 0 in Hrun by ring. lra.
  - exists x'. split; [exact E2|]. destruct Hadv; lra.
Qed.

(** one step that starts within e of Y *)
Lemma sol_core T impl d F g lo hi Y q N A c w eps L r : (0 < d)%nat -> lifts d F g -> solution_on d F lo hi Y -> smooth_along q d F lo hi Y ->
  lipschitz_near d F lo hi Y L r -> (forall i l, (i <= l)%nat -> A i l = 0) -> wbounded N w -> 0 <= eps -> dense1 N A c eps w q ->
  dense_form T impl d N A c w ->
  exists C del, 0 <= C /\ 0 < del /\ forall H e, 0 <= H < del -> 0 <= e <= r / 4 ->
    runs_track T d g lo hi Y H e -> sols_track T impl d g lo hi Y H (C * (e + eps * H + H ^ S q)).
Proof.
  intros Hd HF HY HS HL HA Hw He HO HD.
  destruct (dense_close d q N F lo hi Y HY HS A c w eps HA Hw He HO L r HL) as (C & del & HC & Hdel & H1).
  exists C, del. split; [auto|]. split; [auto|]. intros H e HH Her HR m k o t0 tb cf s0 v1 v2 kk HU HOr HI Hlo Hhi Hsb Hlim Hst Hnf Hsm.
  destruct (HR m k o t0 tb cf s0 v1 HU HOr HI Hlo Hhi Hsb) as (x1 & yr & E1 & Ey & Ly & Hin & _ & Hcl).
  assert (HE : explicit m) by (eapply ex_tab; eauto).
  destruct (steps_below_history _ _ _ _ _ Hsb) as (n & Hn).
  assert (HB : built o g t0 tb (map Fin (Y t0)) cf s0) by (left; eauto).
  destruct (rk_init_start _ _ _ _ _ _ _ _ HI) as (Eg & _).
  destruct (step_made m o g t0 tb _ cf s0 v1 v2 kk n x1 HE HB Hn Hlim Hst Hnf) as (HM & x2 & E2 & Hx); [rewrite Ey; destruct yr; [simpl in Ly; lia|discriminate]|exact E1|].
  destruct (HD F g m cf v1 v2 x1 yr x2 HF Ly HU HM Eg E1 Ey E2 ltac:(lra)) as (D & s' & ED & HC2).
  exists x1, x2, D, s'. split; [exact E1|]. split; [exact E2|]. split; [exact ED|]. intros x Hbt.
  set (th := (x - x1) / (x2 - x1)).
  assert (Hne : x2 - x1 <> 0) by lra.
  assert (Eth : x1 + th * (x2 - x1) = x) by (unfold th; field; exact Hne).
  assert (Hth : 0 <= th <= 1).
  { unfold between in Hbt. assert (Et : th * (x2 - x1) = x - x1) by lra. clearbody th. clear - Et Hx Hbt.
    destruct (Rtotal_order x1 x2) as [Hlt|[->|Hgt]]; [|lra|]; split; destruct (Rle_lt_dec 0 th), (Rle_lt_dec th 1); auto; try lra; exfalso; nra. }
  destruct (HC2 th) as (rr & Er & Lr & Nr). rewrite Eth in Er. exists rr. split; [exact Er|]. split; [exact Lr|].
  intros i Hi. rewrite Nr by auto.
  assert (Hh := Hsm x1 x2 E1 E2).
  assert (Hx1 : lo <= x1 <= hi) by (unfold within in Hin; lra).
  specialize (H1 i x1 yr (x2 - x1) th e Hi Hx1 Ly Hth ltac:(lra) Her Hcl). rewrite Eth in H1.
  eapply Rle_trans; [exact H1|]. apply Rmult_le_compat_l; [auto|]. apply Rplus_le_compat; [apply Rplus_le_compat_l, Rmult_le_compat_l; auto|].
  apply pow_incr. split; [apply Rabs_pos|auto].
Qed.

(** the covered interval *)
Lemma cover_core T impl d g lo hi Y H bound e : (0 < d)%nat -> runs_track T d g lo hi Y H e -> sols_track T impl d g lo hi Y H bound -> sols_cover T impl d g lo hi Y H bound.
Proof.
  intros Hd HR HT m k o t0 tb c s0 v xe x HU HO HI Hlo Hhi HS. revert xe.
  assert (HE : explicit m) by (eapply ex_tab; eauto). pose proof (explicit_min m HE) as Hmin.
  assert (HB : built o g t0 tb (map Fin (Y t0)) c s0) by (left; eauto).
  destruct (rk_init_start _ _ _ _ _ _ _ _ HI) as (_ & Et & _).
  induction HS as [|v1 v2 kk HS IH HL Hst Hsm]; intros xe Ex Hb Hne.
  - cbn [st new_solver] in Ex. rewrite Et in Ex. injection Ex as <-. unfold between in Hb. lra.
  - destruct (HR m k o t0 tb c s0 v1 HU HO HI Hlo Hhi HS) as (x1 & yr & E1 & Ey & Ly & Hin & _ & _).
    destruct (steps_below_history _ _ _ _ _ HS) as (n & Hn).
    assert (OLD : between t0 x1 x -> exists a b xa xb, step_of m c (new_solver s0) v2 a b /\ t (st a) = Fin xa /\ t (st b) = Fin xb /\ between xa xb x /\ sol_tracked impl c d Y a b bound).
    { intros Hb1. destruct (IH x1 E1 Hb1 Hne) as (a & b & xa & xb & (i & j & k2 & G1 & G2 & G3) & G4).
      exists a, b, xa, xb. split; [|exact G4]. exists i, (S j), k2. split; [auto|]. split; [auto|]. econstructor; eauto. }
    destruct (failed_or v2) as [(msg & Hf)|Hnf].
    + destruct (failure_clean m c kk v1 v2 msg HE Hst Hf) as (E2 & _). rewrite E2, E1 in Ex. injection Ex as <-. auto.
    + destruct (step_made m o g t0 tb _ c s0 v1 v2 kk n x1 HE HB Hn HL Hst Hnf) as (_ & x2 & E2 & Hx); [rewrite Ey; destruct yr; [simpl in Ly; lia|discriminate]|exact E1|].
      rewrite E2 in Ex. injection Ex as <-.
      assert (C : between t0 x1 x \/ between x1 x2 x).
      { unfold between, within in *. destruct (Rle_lt_dec x x1), (Rle_lt_dec x1 x); lra. }
      destruct C as [C|C]; [auto|]. exists v1, v2, x1, x2. split; [exists n, 0%nat, kk; split; [auto|]; split; [auto|]; constructor|].
      split; [auto|]. split; [auto|]. split; [auto|]. exact (HT m k o t0 tb c s0 v1 v2 kk HU HO HI Hlo Hhi HS HL Hst Hnf Hsm).
Qed.
Lemma max_sols T impl d g lo hi Y H bound e : (0 < d)%nat -> runs_track T d g lo hi Y H e -> sols_cover T impl d g lo hi Y H bound -> max_step_sols T impl d g lo hi Y H bound.
Proof.
  intros Hd HR HC m k o t0 tb c s0 v xe x HU HO HM HI Hlo Hhi HS. apply (HC m k o t0 tb c s0 v xe x HU HO HI Hlo Hhi). eapply max_below; eauto.
Qed.

(** ** the classes *)
Lemma exact_form T impl q d : In (T, impl, q) (exact_dense d) -> exists N A c w, (forall i l, (i <= l)%nat -> A i l = 0) /\ wbounded N w /\ dense1 N A c 0 w q /\ dense_form T impl d N A c w.
Proof.
  intros H.
  assert (X : forall s A b c e X x P p, interp_ok s A b c X x P p = true -> exists N A' c' w, (forall i l, (i <= l)%nat -> A' i l = 0) /\ wbounded N w /\ dense1 N A' c' 0 w p /\
    dense_form (mk_tab s A b c e) (dense_xrk d X x P) d N A' c' w).
  { intros s A b c e X x P p HI. destruct (interp_cond _ _ _ _ _ _ _ _ HI) as (He & Hc & HD). destruct (ext_ok_spec _ _ _ _ _ _ He) as (_ & _ & _ & _ & _ & Hlow & _).
    eexists. eexists. eexists. eexists. split; [exact Hlow|]. split; [apply pw_wb|]. split; [exact HD|]. apply xrk_form; auto. }
  assert (G : forall s A b c e P p, interp_ok s A b c [] [] P p = true -> exists N A' c' w, (forall i l, (i <= l)%nat -> A' i l = 0) /\ wbounded N w /\ dense1 N A' c' 0 w p /\
    dense_form (mk_tab s A b c e) (dense_rk d (lm P)) d N A' c' w).
  { intros s A b c e P p HI. destruct (interp_cond _ _ _ _ _ _ _ _ HI) as (He & Hc & HD). destruct (ext_ok_spec _ _ _ _ _ _ He) as (_ & _ & _ & _ & _ & Hlow & _).
    assert (L3 : (S s + length (@nil (list Q)) = S s)%nat) by (simpl; lia). rewrite L3 in HD.
    eexists. eexists. eexists. eexists. split; [exact Hlow|]. split; [apply pw_wb|]. split; [exact HD|]. apply rk_form; auto. }
  destruct H as [E|H].
  { injection E as <- <- <-. destruct (best_cond _ _ _ _ _ _ _ _ interp_BS5_best) as (He & Hw & HD). destruct (ext_ok_spec _ _ _ _ _ _ He) as (_ & _ & _ & _ & _ & Hlow & _).
    eexists. eexists. eexists. eexists. split; [exact Hlow|]. split; [exact Hw|]. split; [exact HD|]. apply (best_form BS5_E d He). }
  destruct H as [E|H]; [injection E as <- <- <-; cbn [dense_bs5]; rewrite dense_bs5_low_xrk; exact (X _ _ _ _ BS5_E _ _ _ _ interp_BS5_low)|].
  destruct H as [E|H]; [injection E as <- <- <-; exact (G _ _ _ _ BS5_E _ _ interp_BS5)|].
  destruct H as [E|H]; [injection E as <- <- <-; exact (G _ _ _ _ CK5_E _ _ interp_CK5)|].
  destruct H as [E|H]; [injection E as <- <- <-; exact (G _ _ _ _ Me4_E _ _ interp_Me4)|].
  destruct H as [E|H]; [injection E as <- <- <-; exact (G _ _ _ _ Pr7_E _ _ interp_Pr7)|].
  destruct H as [E|H]; [injection E as <- <- <-; exact (G _ _ _ _ CFMR7osc_E _ _ interp_CFMR7osc)|].
  destruct H.
Qed.
Lemma Q2R_frac n (p : positive) : (0 <= n)%Z -> 0 <= Q2R (n # p).
Proof. intros H. unfold Q2R. cbn [Qnum Qden]. apply Rmult_le_pos; [apply (IZR_le 0); exact H|]. left. apply Rinv_0_lt_compat. apply (IZR_lt 0). reflexivity. Qed.
Lemma decimal_form T impl q e d : In (T, impl, q, e) (decimal_dense d) -> exists N A c w, (forall i l, (i <= l)%nat -> A i l = 0) /\ wbounded N w /\ 0 <= Q2R e /\
  dense1 N A c (Q2R e) w q /\ dense_form T impl d N A c w.
Proof.
  intros H.
  assert (G : forall bits s A b c e P p eps, interp_near_ok bits s A b c P p eps = true -> 0 <= Q2R eps -> exists N A' c' w, (forall i l, (i <= l)%nat -> A' i l = 0) /\ wbounded N w /\ 0 <= Q2R eps /\ dense1 N A' c' (Q2R eps) w p /\
    dense_form (mk_tab s A b c e) (dense_rk d (lm P)) d N A' c' w).
  { intros bits s A b c e0 P p eps HI Hp. destruct (near_cond _ _ _ _ _ _ _ _ HI) as (He & Hc & HD). destruct (ext_ok_spec _ _ _ _ _ _ He) as (_ & _ & _ & _ & _ & Hlow & _).
    eexists. eexists. eexists. eexists. split; [exact Hlow|]. split; [apply pw_wb|]. split; [exact Hp|]. split; [exact HD|]. apply rk_form; auto. }
  destruct H as [E|H]; [injection E as <- <- <- <-; apply (G _ _ _ _ _ Ts5_E _ _ _ interp_near_Ts5); apply Q2R_frac; lia|].
  destruct H as [E|H]; [injection E as <- <- <- <-; apply (G _ _ _ _ _ Pr8_E _ _ _ interp_near_Pr8); apply Q2R_frac; lia|].
  destruct H as [E|H]; [injection E as <- <- <- <-; apply (G _ _ _ _ _ Pr9_E _ _ _ interp_near_Pr9); apply Q2R_frac; lia|].
  destruct H.
Qed.

Lemma pow_small C p r : 0 <= C -> 0 < r -> (0 < p)%nat -> exists del, 0 < del <= 1 /\ forall H, 0 <= H < del -> C * H ^ p <= r.
Proof.
  intros HC Hr Hp. exists (Rmin 1 (r / (C + 1))). split; [split; [apply Rmin_case; [lra|apply Rdiv_lt_0_compat; lra]|apply Rmin_l]|].
  intros H (H0 & HH).
  assert (A2 : H < 1) by (eapply Rlt_le_trans; [exact HH|apply Rmin_l]).
  assert (A3 : H < r / (C + 1)) by (eapply Rlt_le_trans; [exact HH|apply Rmin_r]).
  assert (H ^ p <= H).
  { destruct p as [|q]; [lia|]. simpl. apply Rle_trans with (H * 1); [|lra]. apply Rmult_le_compat_l; [auto|]. rewrite <- (pow1 q). apply pow_incr. lra. }
  apply Rmult_lt_compat_r with (r := C + 1) in A3; [|lra]. unfold Rdiv in A3. rewrite Rmult_assoc, Rinv_l, Rmult_1_r in A3 by lra. nra.
Qed.
Lemma sol_le impl c d Y v1 v2 b b' : b <= b' -> sol_tracked impl c d Y v1 v2 b -> sol_tracked impl c d Y v1 v2 b'.
Proof.
  intros Hb (x1 & x2 & D & s' & E1 & E2 & E3 & H). exists x1, x2, D, s'. split; [auto|]. split; [auto|]. split; [auto|]. intros x Hx.
  destruct (H x Hx) as (r & Er & Lr & Hr). exists r. split; [auto|]. split; [auto|]. eapply close_le; eauto.
Qed.
Lemma sols_le T impl d g lo hi Y H b b' : b <= b' -> sols_track T impl d g lo hi Y H b -> sols_track T impl d g lo hi Y H b'.
Proof. intros Hb HT m k o t0 tb c s0 v1 v2 kk H1 H2 H3 H4 H5 H6 H7 H8 H9 H10. eapply sol_le; [exact Hb|]. exact (HT m k o t0 tb c s0 v1 v2 kk H1 H2 H3 H4 H5 H6 H7 H8 H9 H10). Qed.

(** ** theorems *)
(** the interpolants of single steps, of everything a run has covered, and with max_step = H *)
Definition sols_accurate (T : Tab RX) (impl : dimpl RX) (d : nat) (g : num RX -> list (num RX) -> list (num RX)) (lo hi : R) (Y : R -> list R) (H bound : R) : Prop :=
  sols_track T impl d g lo hi Y H bound /\ sols_cover T impl d g lo hi Y H bound /\ max_step_sols T impl d g lo hi Y H bound.

Theorem C52_dense_error T p pe impl q d F g lo hi Y : In (T, p, pe) exact_pairs -> In (T, impl, q) (exact_dense d) -> (0 < d)%nat -> lifts d F g ->
  solution_on d F lo hi Y -> smooth_along (max p q) d F lo hi Y -> lipschitz_along d F lo hi Y ->
  exists C del, 0 <= C /\ 0 < del /\ forall H, 0 <= H < del -> sols_accurate T impl d g lo hi Y H (C * (H ^ p + H ^ S q)).
Proof.
  intros HT HI Hd HF HY HS (L & r & HL).
  destruct (C49_global_error T p pe d F g lo hi Y HT Hd HF HY (smooth_weaken _ _ _ _ _ _ _ (Nat.le_max_l p q) HS) (ex_intro _ L (ex_intro _ r HL))) as (C1 & d1 & HC1 & Hd1 & H1).
  destruct (exact_form T impl q d HI) as (N & A & c & w & HA & Hw & HO & HD).
  destruct (sol_core T impl d F g lo hi Y q N A c w 0 L r Hd HF HY (smooth_weaken _ _ _ _ _ _ _ (Nat.le_max_r p q) HS) HL HA Hw (Rle_refl 0) HO HD) as (C2 & d2 & HC2 & Hd2 & H2).
  assert (Hp : (0 < p)%nat) by (repeat (destruct HT as [E|HT]; [injection E as _ <- _; vm_compute; lia|]); destruct HT).
  assert (Hr : 0 < r / 4) by (destruct HL as (_ & Hr & _); lra).
  destruct (pow_small C1 p (r / 4) HC1 Hr Hp) as (d3 & Hd3 & H3).
  exists (C2 * (C1 + 1)), (Rmin d1 (Rmin d2 d3)). split; [apply Rmult_le_pos; lra|]. split; [repeat apply Rmin_case; lra|]. intros H (H0 & HH).
  assert (B1 : H < d1) by (eapply Rlt_le_trans; [exact HH|apply Rmin_l]).
  assert (B2 : H < d2) by (eapply Rlt_le_trans; [exact HH|eapply Rle_trans; [apply Rmin_r|apply Rmin_l]]).
  assert (B3 : H < d3) by (eapply Rlt_le_trans; [exact HH|eapply Rle_trans; [apply Rmin_r|apply Rmin_r]]).
  assert (Q1 : 0 <= H ^ p) by (apply pow_le; auto). assert (Q2 : 0 <= H ^ S q) by (apply pow_le; auto).
  pose proof (H1 H (conj H0 B1)) as HR.
  assert (HTr : sols_track T impl d g lo hi Y H (C2 * (C1 + 1) * (H ^ p + H ^ S q))).
  { eapply sols_le; [|apply (H2 H (C1 * H ^ p) (conj H0 B2)); [split; [apply Rmult_le_pos; auto|apply H3; auto]|exact HR]].
    rewrite Rmult_assoc. apply Rmult_le_compat_l; [auto|]. set (a := H ^ p) in *. set (b := H ^ S q) in *. nra. }
  split; [exact HTr|]. split; [eapply cover_core; eauto|]. eapply max_sols; eauto. eapply cover_core; eauto.
Qed.
Theorem C52_dense_error_near T p eps pe epse impl q eq d F g lo hi Y : In (T, p, eps, pe, epse) decimal_pairs -> In (T, impl, q, eq) (decimal_dense d) -> (0 < d)%nat -> lifts d F g ->
  solution_on d F lo hi Y -> smooth_along (max p q) d F lo hi Y -> lipschitz_global d F ->
  exists C del, 0 <= C /\ 0 < del /\ forall H, 0 <= H < del -> sols_accurate T impl d g lo hi Y H (C * (Q2R eps + H ^ p + Q2R eq * H + H ^ S q)).
Proof.
  intros HT HI Hd HF HY HS HL.
  destruct (C49_global_error_near T p eps pe epse d F g lo hi Y HT Hd HF HY (smooth_weaken _ _ _ _ _ _ _ (Nat.le_max_l p q) HS) HL) as (C1 & d1 & HC1 & Hd1 & H1).
  destruct (decimal_form T impl q eq d HI) as (N & A & c & w & HA & Hw & Heq & HO & HD).
  assert (He : 0 <= Q2R eps).
  { destruct HT as [E|[E|[E|[]]]]; injection E as _ _ <- _ _; apply Q2R_frac; lia. }
  set (r := 4 * (C1 * (Q2R eps + 1)) + 1).
  assert (Hr0 : 0 <= C1 * (Q2R eps + 1)) by (apply Rmult_le_pos; lra).
  assert (HL2 : exists L, lipschitz_near d F lo hi Y L r).
  { destruct HL as (L & HL0 & HL). exists L. split; [auto|]. split; [unfold r; lra|]. intros t s u v e _ _ Lu Lv _ _ Huv. apply HL; auto. }
  destruct HL2 as (L & HL2).
  destruct (sol_core T impl d F g lo hi Y q N A c w (Q2R eq) L r Hd HF HY (smooth_weaken _ _ _ _ _ _ _ (Nat.le_max_r p q) HS) HL2 HA Hw Heq HO HD) as (C2 & d2 & HC2 & Hd2 & H2).
  exists (C2 * (C1 + 1)), (Rmin d1 (Rmin d2 1)). split; [apply Rmult_le_pos; lra|]. split; [repeat apply Rmin_case; lra|]. intros H (H0 & HH).
  assert (B1 : H < d1) by (eapply Rlt_le_trans; [exact HH|apply Rmin_l]).
  assert (B2 : H < d2) by (eapply Rlt_le_trans; [exact HH|eapply Rle_trans; [apply Rmin_r|apply Rmin_l]]).
  assert (B3 : H < 1) by (eapply Rlt_le_trans; [exact HH|eapply Rle_trans; [apply Rmin_r|apply Rmin_r]]).
  assert (Q1 : 0 <= H ^ p) by (apply pow_le; auto). assert (Q2 : 0 <= H ^ S q) by (apply pow_le; auto).
  assert (Q3 : H ^ p <= 1) by (rewrite <- (pow1 p); apply pow_incr; lra).
  assert (Q4 : 0 <= Q2R eq * H) by (apply Rmult_le_pos; auto).
  pose proof (H1 H (conj H0 B1)) as HR.
  assert (HTr : sols_track T impl d g lo hi Y H (C2 * (C1 + 1) * (Q2R eps + H ^ p + Q2R eq * H + H ^ S q))).
  { eapply sols_le; [|apply (H2 H (C1 * (Q2R eps + H ^ p)) (conj H0 B2)); [split; [apply Rmult_le_pos; lra|]|exact HR]].
    - rewrite Rmult_assoc. apply Rmult_le_compat_l; [auto|]. set (a := H ^ p) in *. set (b := H ^ S q) in *. set (z := Q2R eq * H) in *. set (y := Q2R eps) in *.
      assert (0 <= C1 * (z + b)) by (apply Rmult_le_pos; lra). assert (0 <= C1 * (y + a)) by (apply Rmult_le_pos; lra). nra.
    - unfold r. assert (C1 * (Q2R eps + H ^ p) <= C1 * (Q2R eps + 1)) by (apply Rmult_le_compat_l; lra). lra. }
  split; [exact HTr|]. split; [eapply cover_core; eauto|]. eapply max_sols; eauto. eapply cover_core; eauto.
Qed.
(** polynomial right-hand sides: only the existence of the solution is needed *)
Theorem C52_polynomial T p pe impl q d F g lo hi Y : In (T, p, pe) exact_pairs -> In (T, impl, q) (exact_dense d) -> (0 < d)%nat -> lifts d F g ->
  polynomial d F -> solution_on d F lo hi Y ->
  exists C del, 0 <= C /\ 0 < del /\ forall H, 0 <= H < del -> sols_accurate T impl d g lo hi Y H (C * (H ^ p + H ^ S q)).
Proof.
  intros HT HI Hd HF HP HY. apply (C52_dense_error T p pe impl q d F g lo hi Y HT HI Hd HF HY); [apply polynomial_smooth_along; auto|eapply polynomial_lipschitz_along; eauto].
Qed.
(** an interpolant of order p - 1 or more (every one in the list but that of CFMR7osc) is as accurate as the solution points *)
Theorem C52_same_order T p pe impl q d F g lo hi Y : In (T, p, pe) exact_pairs -> In (T, impl, q) (exact_dense d) -> (p <= S q)%nat -> (0 < d)%nat -> lifts d F g ->
  solution_on d F lo hi Y -> smooth_along (max p q) d F lo hi Y -> lipschitz_along d F lo hi Y ->
  exists C del, 0 <= C /\ 0 < del /\ forall H, 0 <= H < del -> sols_accurate T impl d g lo hi Y H (C * H ^ p).
Proof.
  intros HT HI Hpq Hd HF HY HS HL. destruct (C52_dense_error T p pe impl q d F g lo hi Y HT HI Hd HF HY HS HL) as (C & del & HC & Hdel & H1).
  destruct (C49_global_error T p pe d F g lo hi Y HT Hd HF HY (smooth_weaken _ _ _ _ _ _ _ (Nat.le_max_l p q) HS) HL) as (C1 & d1 & HC1 & Hd1 & HR).
  exists (2 * C), (Rmin del (Rmin 1 d1)). split; [lra|]. split; [repeat apply Rmin_case; lra|]. intros H (H0 & HH).
  assert (B1 : H < del) by (eapply Rlt_le_trans; [exact HH|apply Rmin_l]).
  assert (B2 : H < 1) by (eapply Rlt_le_trans; [exact HH|eapply Rle_trans; [apply Rmin_r|apply Rmin_l]]).
  assert (B3 : H < d1) by (eapply Rlt_le_trans; [exact HH|eapply Rle_trans; [apply Rmin_r|apply Rmin_r]]).
  destruct (H1 H (conj H0 B1)) as (HA & _).
  assert (Hle : H ^ S q <= H ^ p).
  { replace (S q) with (p + (S q - p))%nat by lia. rewrite pow_add. rewrite <- (Rmult_1_r (H ^ p)) at 2. apply Rmult_le_compat_l; [apply pow_le; auto|].
    rewrite <- (pow1 (S q - p)). apply pow_incr. lra. }
  assert (HA2 : sols_track T impl d g lo hi Y H (2 * C * H ^ p)).
  { eapply sols_le; [|exact HA]. assert (C * H ^ S q <= C * H ^ p) by (apply Rmult_le_compat_l; auto). lra. }
  pose proof (HR H (conj H0 B3)) as HR'.
  split; [exact HA2|]. split; [eapply cover_core; eauto|]. eapply max_sols; eauto. eapply cover_core; eauto.
Qed.

(** the hypotheses are met: y' = y^2 from y(0) = 1 on [0, 1/2], with BS5 (best interpolant), and for CFMR7osc the bound is C (H^7 + H^6) *)
Example C52_case : In (BS5_tab, 5%nat, 4%nat) exact_pairs /\ In (BS5_tab, dense_bs5 Best 1, 5%nat) (exact_dense 1) /\ lifts 1 riccati riccati_x /\
  solution_on 1 riccati 0 (1/2) (fun t => [/ (1 - t)]) /\ smooth_along (max 5 5) 1 riccati 0 (1/2) (fun t => [/ (1 - t)]) /\
  lipschitz_along 1 riccati 0 (1/2) (fun t => [/ (1 - t)]) /\
  exists C del, 0 <= C /\ 0 < del /\ forall H, 0 <= H < del -> sols_accurate BS5_tab (dense_bs5 Best 1) 1 riccati_x 0 (1/2) (fun t => [/ (1 - t)]) H (C * H ^ 5).
Proof.
  destruct C49_case as (H1 & _ & H2 & H3 & H4).
  assert (HP : In (BS5_tab, 5%nat, 4%nat) exact_pairs) by (left; reflexivity). assert (HD : In (BS5_tab, dense_bs5 Best 1, 5%nat) (exact_dense 1)) by (left; reflexivity).
  split; [exact HP|]. split; [exact HD|]. split; [exact H1|]. split; [exact H2|]. split; [exact H3|]. split; [exact H4|].
  exact (C52_same_order _ _ _ _ _ _ _ _ _ _ _ HP HD ltac:(lia) ltac:(lia) H1 H2 H3 H4).
Qed.
