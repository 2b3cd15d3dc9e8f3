(** C49 for the Nystrom classes: convergence of Fi4N, Fi5N, MR6NN and Mu5Nmb on second order
    problems x'' = G(t, x, x'), which the user supplies as the first order system
    (x, x')' = (x', G(t, x, x')). *)
From Coq Require Import String Reals Lra Psatz QArith Qreals Lia List Arith Bool.
From Verif Require Import Arith Common RK RKGen RKHist RX SpecRK RKSpecProofs RKReal RKInit RKStep RKBuilt RKMore RKTop Classes Tableaux Series Trees OrderThm OrderCheck
  OrderRK OrderRKN OrderModel OrderPair OrderPairN Dense DenseReal DenseStep Smooth Prop_Order GOrder Balls BallTab NearPair Prop_Near UOrder UOrder2 GlobalRK GlobalPoly GlobalRun Prop_Global
  GlobalN GlobalRunN.
Import ListNotations.
Close Scope string_scope.
Open Scope nat_scope.
Open Scope R_scope.

(** ** specification *)
(** every solver run of the Nystrom class T (any options, either direction, inside [lo, hi]) that starts
    on the trajectory Y = (X, X') and makes steps of at most H has errors of at most [bound] in all
    positions and velocities, and is at t_bound when it is finished *)
Definition runs_track_n (T : TabN RX) (n : nat) (g : num RX -> list (num RX) -> list (num RX)) (lo hi : R) (Y : R -> list R) (H bound : R) : Prop :=
  forall m k vi o t0 tb c s0 v, uses_tabn m T n -> ordinary k o t0 tb (map Fin (Y t0)) ->
    rkn_init k vi o g (Fin t0) (map Fin (Y t0)) (Fin tb) = inl (c, s0) -> lo <= t0 <= hi -> lo <= tb <= hi ->
    steps_below m c H (new_solver s0) v -> tracked (n + n) Y t0 tb v bound.
(** the same with the option max_step *)
Definition max_step_tracks_n (T : TabN RX) (n : nat) (g : num RX -> list (num RX) -> list (num RX)) (lo hi : R) (Y : R -> list R) (H bound : R) : Prop :=
  forall m k vi o t0 tb c s0 v, uses_tabn m T n -> ordinary k o t0 tb (map Fin (Y t0)) -> o_max_step o = Fin H ->
    rkn_init k vi o g (Fin t0) (map Fin (Y t0)) (Fin tb) = inl (c, s0) -> lo <= t0 <= hi -> lo <= tb <= hi ->
    consistent_run m c (new_solver s0) v -> tracked (n + n) Y t0 tb v bound.

(** ** theorems *)
Lemma track_core_n n G g lo hi Y s A Ap b bp c e ep H bound : (0 < n)%nat -> lifts (n + n) (sys2 n G) g -> solution2_on n G lo hi Y ->
  length A = s -> length Ap = s -> length b = s -> length bp = s -> length c = s -> nth 0 c 0%Q = 0%Q ->
  (forall ta t y, lo <= ta <= hi -> opath lo hi Y (the_step n s G A Ap b bp c) H ta t y -> close (n + n) y (Y t) bound) ->
  runs_track_n (mk_tabn s A Ap b bp c e ep) n g lo hi Y H bound.
Proof.
  intros Hn HF HY LA LAp LB LBp LC C0 HGo m k vi o t0 tb cc s0 v HU HO HI Hlo Hhi HS.
  pose proof (Y_len2 n G lo hi Y HY _ Hlo) as LY.
  destruct (rkn_init_start _ _ _ _ _ _ _ _ _ HI) as (Eg & Et & Ey).
  rewrite map_length, LY in Eg. replace (Nat.div (n + n) 2) with n in Eg by (replace (n + n)%nat with (n * 2)%nat by lia; rewrite Nat.div_mul; auto).
  pose proof (accel_lifts n G g HF) as HG.
  destruct (run_opath (n + n) lo hi Y (the_step n s G A Ap b bp c) ltac:(lia) ltac:(intros; apply rkn_step_len) m o g t0 tb cc s0 H v) as (x & yr & E1 & E2 & Ly & HP & Hx & Hf); auto.
  - eapply ex_tabn; eauto.
  - right. eauto.
  - intros v1 v2 x yr x' HM Lr Ex Er Ex'. apply (made_step_n n s G _ A Ap b bp c e ep HG LA LAp LB LBp LC C0 m cc v1 v2); auto.
  - exists x, yr. split; [exact E1|]. split; [exact E2|]. split; [exact Ly|]. split; [unfold within; lra|]. split; [exact Hf|]. apply (HGo t0); auto.
Qed.

Theorem C49_nystrom T vel p pe n G g lo hi Y : In (T, vel, p, pe) exact_nystrom_pairs -> (0 < n)%nat -> lifts (n + n) (sys2 n G) g ->
  (vel = false -> velocity_free n G) -> solution2_on n G lo hi Y -> smooth2_along p n G lo hi Y -> lipschitz2_along n G lo hi Y ->
  exists C del, 0 <= C /\ 0 < del /\ forall H, 0 <= H < del -> runs_track_n T n g lo hi Y H (C * H ^ p).
Proof.
  intros HT Hn HF Hvf HY HS HL.
  assert (Gn : forall s A Ap b bp c e ep, pairn_ok vel s A Ap b bp c e ep p pe = true ->
    exists C del, 0 <= C /\ 0 < del /\ forall H, 0 <= H < del -> runs_track_n (mk_tabn s A Ap b bp c e ep) n g lo hi Y H (C * H ^ p)).
  { intros s A Ap b bp c e ep HP. destruct (pairn_ok_spec vel s A Ap b bp c e ep p pe HP) as (LA & LAp & LB & LBp & LC & _ & _ & C0 & Hpe & Hl1 & Hl2 & HU & HV & _).
    destruct (coef_bound (S s) (mq (extA A b [])) (mq (extA Ap bp [])) (vq (extC c [])) (vq b) (vq bp)) as (W & W1 & W2 & W3 & W4 & W5).
    destruct (global_error2 vel n p G lo hi Y Hvf HY HS (S s) _ _ _ Hl1 Hl2 W W1 W2 W3 _ _ W4 W5 0 (Rle_refl 0) ltac:(lia) (order_near_U _ _ _ _ _ _ _ HU) (order_near_V _ _ _ _ _ _ _ HV) eq_refl HL)
      as (C & del & HC & Hdel & H1).
    exists C, del. split; [auto|]. split; [auto|]. intros H HH. apply (track_core_n n G g lo hi Y s A Ap b bp c e ep H); auto.
    intros ta t y Hta HPa. apply (H1 H ta t y HH Hta HPa). }
  destruct (nystrom_pairs_ok T vel p pe HT) as (s & A & Ap & b & bp & c & e & ep & -> & HP). apply Gn; exact HP.
Qed.

(** Mu5Nmb, whose coefficients are rounded decimals: up to the residual of the order conditions *)
Theorem C49_nystrom_near n G g lo hi Y : (0 < n)%nat -> lifts (n + n) (sys2 n G) g ->
  solution2_on n G lo hi Y -> smooth2_along Mu5Nmb_order n G lo hi Y -> lipschitz2_global n G ->
  exists C del, 0 <= C /\ 0 < del /\ forall H, 0 <= H < del -> runs_track_n Mu5Nmb_tab n g lo hi Y H (C * (Q2R (1 # 1000000000000000000) + H ^ Mu5Nmb_order)).
Proof.
  intros Hn HF HY HS HL.
  destruct (nearn_ok_spec _ _ _ _ _ _ _ _ _ _ _ _ _ near_Mu5) as (LA & LAp & LB & LBp & LC & _ & _ & C0 & Hpe & Hl1 & Hl2 & HU & HV & _).
  destruct (coef_bound (S Mu5Nmb_n_stages) (mq (extA Mu5Nmb_A Mu5Nmb_B [])) (mq (extA Mu5Nmb_Ap Mu5Nmb_Bp [])) (vq (extC Mu5Nmb_C [])) (vq Mu5Nmb_B) (vq Mu5Nmb_Bp)) as (W & W1 & W2 & W3 & W4 & W5).
  assert (He : 0 <= Q2R (1 # 1000000000000000000)) by (unfold Q2R; cbn [Qnum Qden]; apply Rmult_le_pos; [lra|apply Rlt_le, Rinv_0_lt_compat, IZR_lt; reflexivity]).
  assert (Hp : (0 < Mu5Nmb_order)%nat) by (apply Nat.ltb_lt; reflexivity).
  destruct (global_error_lipschitz2 true n Mu5Nmb_order G lo hi Y ltac:(discriminate) HY HS (S Mu5Nmb_n_stages) _ _ _ Hl1 Hl2 W W1 W2 W3 _ _ W4 W5 _ He Hp HU HV HL)
    as (C & del & HC & Hdel & H1).
  exists C, del. split; [auto|]. split; [auto|]. intros H HH. apply (track_core_n n G g lo hi Y Mu5Nmb_n_stages Mu5Nmb_A Mu5Nmb_Ap Mu5Nmb_B Mu5Nmb_Bp Mu5Nmb_C Mu5Nmb_E Mu5Nmb_Ep H); auto.
  intros ta t y Hta HPa. apply (H1 H ta t y HH Hta HPa).
Qed.

Lemma max_track_n T n g lo hi Y H bound : (0 < n)%nat -> runs_track_n T n g lo hi Y H bound -> max_step_tracks_n T n g lo hi Y H bound.
Proof.
  intros Hn HR m k vi o t0 tb c s0 v HU HO HM HI Hlo Hhi HC. apply (HR m k vi o t0 tb c s0 v HU HO HI Hlo Hhi).
  assert (HE : explicit m) by (eapply ex_tabn; eauto). pose proof (explicit_min m HE) as Hmin.
  assert (HB : built o g t0 tb (map Fin (Y t0)) c s0) by (right; eauto).
  assert (EM : max_step c = Fin H) by (destruct (built_good _ _ _ _ _ _ _ HB) as (r & HX); rewrite <- HM; apply HX).
  induction HC as [|v1 v2 kk HC IH HL HS]; [constructor|].
  econstructor; [exact IH|exact HL|exact HS|]. intros x1 x2 E1 E2.
  destruct (HR m k vi o t0 tb c s0 v1 HU HO HI Hlo Hhi IH) as (x & yr & Ex & Ey & Ly & Hw & _).
  destruct (steps_below_history _ _ _ _ _ IH) as (j & Hj).
  assert (HA : after m o g t0 tb (map Fin (Y t0)) c j v1) by (exists s0; auto).
  destruct (failed_or v2) as [(msg & Hf)|Hnf].
  - destruct (failure_clean m c kk v1 v2 msg HE HS Hf) as (Et & _). rewrite Et, E1 in E2. injection E2 as <-.
    rewrite Rminus_diag_eq, Rabs_R0 by auto.
    clear - HM EM HB. destruct (built_good _ _ _ _ _ _ _ HB) as (r & HG & _). destruct HG as (_ & _ & [E|(M & E & HP)]); rewrite EM in E; [discriminate|].
    injection E as <-. lra.
  - destruct (monotone m o g t0 tb _ c j v1 kk v2 HE HA HL HS Hnf) as (a & a' & F1 & F2 & _ & F3).
    rewrite E1 in F1. injection F1 as <-. rewrite E2 in F2. injection F2 as <-.
    destruct F3 as (F3 & _); [rewrite Ey; destruct yr; [simpl in Ly; lia|discriminate]|]. rewrite EM in F3. apply Rleb_true in F3. exact F3.
Qed.

(** choosing max_step = H bounds the global error by C H^p *)
Theorem C49_nystrom_max_step T vel p pe n G g lo hi Y : In (T, vel, p, pe) exact_nystrom_pairs -> (0 < n)%nat -> lifts (n + n) (sys2 n G) g ->
  (vel = false -> velocity_free n G) -> solution2_on n G lo hi Y -> smooth2_along p n G lo hi Y -> lipschitz2_along n G lo hi Y ->
  exists C del, 0 <= C /\ 0 < del /\ forall H, 0 <= H < del -> max_step_tracks_n T n g lo hi Y H (C * H ^ p).
Proof.
  intros HT Hn HF Hvf HY HS HL. destruct (C49_nystrom T vel p pe n G g lo hi Y HT Hn HF Hvf HY HS HL) as (C & del & HC & Hdel & H1).
  exists C, del. split; [auto|]. split; [auto|]. intros H HH. apply max_track_n; auto.
Qed.
Theorem C49_nystrom_max_step_near n G g lo hi Y : (0 < n)%nat -> lifts (n + n) (sys2 n G) g ->
  solution2_on n G lo hi Y -> smooth2_along Mu5Nmb_order n G lo hi Y -> lipschitz2_global n G ->
  exists C del, 0 <= C /\ 0 < del /\ forall H, 0 <= H < del -> max_step_tracks_n Mu5Nmb_tab n g lo hi Y H (C * (Q2R (1 # 1000000000000000000) + H ^ Mu5Nmb_order)).
Proof.
  intros Hn HF HY HS HL. destruct (C49_nystrom_near n G g lo hi Y Hn HF HY HS HL) as (C & del & HC & Hdel & H1).
  exists C, del. split; [auto|]. split; [auto|]. intros H HH. apply max_track_n; auto.
Qed.

(** polynomial accelerations: only the existence of the solution is needed *)
Lemma poly_form2 n G : polynomial2 n G -> exists P : nat -> list (R * list nat),
  (forall q, (q < n)%nat -> Forall (fun m => Forall (fun j => (j < S (n + n))%nat) (snd m)) (P q)) /\
  (forall w q, (q < n)%nat -> fo G (n + n) w q = pval w (P q)).
Proof.
  intros (P & HP & HF). exists P.
  assert (H1 : forall q, (q < n)%nat -> Forall (fun m => Forall (fun j => (j < S (n + n))%nat) (snd m)) (P q)).
  { intros q Hq. eapply Forall_impl; [|apply (HP q Hq)]. intros m Hm. eapply Forall_impl; [|exact Hm]. intros j Hj. simpl in *. lia. }
  split; [exact H1|]. intros w q Hq. unfold fo. destruct (HF (w 0%nat) (map (fun k => w (S k)) (seq 0 (n + n))) ltac:(rewrite map_length, seq_length; reflexivity)) as (_ & E).
  rewrite E by auto. unfold pval. apply lsum_ext. intros [c js] Hin. cbn [fst snd]. f_equal.
  specialize (H1 q Hq). rewrite Forall_forall in H1. specialize (H1 _ Hin). cbn [snd] in H1.
  apply (mono_ext _ w (S (n + n))); [exact H1|]. intros j Hj. apply coords. exact Hj.
Qed.
Theorem polynomial2_smooth_along n G lo hi Y p : polynomial2 n G -> solution2_on n G lo hi Y -> smooth2_along p n G lo hi Y.
Proof.
  intros HP HY. destruct (poly_form2 n G HP) as (P & H1 & H2). destruct (traj_bound (n + n) (sys2 n G) lo hi Y (sys2_solution _ _ _ _ _ HY)) as (B & HB & H3).
  destruct (poly_uniform (S (n + n)) n (fo G (n + n)) P H1 H2 (fun t => pt t (Y t)) lo hi B p HB H3) as (T & C & M & del & Hd & H4).
  exists T, C, M, del. split; [auto|]. intros t q Ht Hq. destruct (H4 t q Ht Hq) as (H5 & H6). split; [intros; apply H5|exact H6].
Qed.
Theorem polynomial2_lipschitz_along n G lo hi Y : polynomial2 n G -> solution2_on n G lo hi Y -> lipschitz2_along n G lo hi Y.
Proof.
  intros HP HY. destruct (poly_form2 n G HP) as (P & H1 & H2). destruct (traj_bound (n + n) (sys2 n G) lo hi Y (sys2_solution _ _ _ _ _ HY)) as (B & HB & H3).
  destruct (poly_lip (S (n + n)) n (fo G (n + n)) P H1 H2 (B + 1) ltac:(lra)) as (L & HL & H4).
  exists L, 1. split; [auto|]. split; [lra|]. intros t s u v e Ht Hs Lu Lv Hu Hv Huv q Hq.
  rewrite <- !(fo_pt G (n + n)) by auto.
  assert (He : 0 <= e) by (eapply Rle_trans; [apply Rabs_pos|apply (Huv q); lia]).
  apply H4; auto.
  - intros [|j] Hj.
    + specialize (H3 t 0%nat Ht Hj). unfold pt in *; cbn [nth] in *. replace s with ((s - t) + t) by ring. eapply Rle_trans; [apply Rabs_triang|]. lra.
    + specialize (H3 t (S j) Ht Hj). unfold pt in *; cbn [nth] in *. specialize (Hu j ltac:(lia)).
      replace (nth j u 0) with ((nth j u 0 - nth j (Y t) 0) + nth j (Y t) 0) by ring. eapply Rle_trans; [apply Rabs_triang|]. lra.
  - intros [|j] Hj.
    + specialize (H3 t 0%nat Ht Hj). unfold pt in *; cbn [nth] in *. replace s with ((s - t) + t) by ring. eapply Rle_trans; [apply Rabs_triang|]. lra.
    + specialize (H3 t (S j) Ht Hj). unfold pt in *; cbn [nth] in *. specialize (Hv j ltac:(lia)).
      replace (nth j v 0) with ((nth j v 0 - nth j (Y t) 0) + nth j (Y t) 0) by ring. eapply Rle_trans; [apply Rabs_triang|]. lra.
  - intros [|j] Hj; unfold pt; cbn [nth]; [rewrite Rminus_diag_eq, Rabs_R0 by auto; auto|]. apply Huv. lia.
Qed.
Theorem C49_nystrom_polynomial T vel p pe n G g lo hi Y : In (T, vel, p, pe) exact_nystrom_pairs -> (0 < n)%nat -> lifts (n + n) (sys2 n G) g ->
  (vel = false -> velocity_free n G) -> polynomial2 n G -> solution2_on n G lo hi Y ->
  exists C del, 0 <= C /\ 0 < del /\ forall H, 0 <= H < del ->
    runs_track_n T n g lo hi Y H (C * H ^ p) /\ max_step_tracks_n T n g lo hi Y H (C * H ^ p).
Proof.
  intros HT Hn HF Hvf HP HY.
  destruct (C49_nystrom T vel p pe n G g lo hi Y HT Hn HF Hvf HY (polynomial2_smooth_along _ _ _ _ _ _ HP HY) (polynomial2_lipschitz_along _ _ _ _ _ HP HY)) as (C & del & HC & Hdel & H1).
  exists C, del. split; [auto|]. split; [auto|]. intros H HH. split; [auto|]. apply max_track_n; auto.
Qed.

(** the hypotheses are met: x'' = -x, with solution sin; the acceleration does not depend on the velocity
    and is Lipschitz everywhere; the user's right-hand side is (x', -x) *)
Definition spring_sys : num RX -> list (num RX) -> list (num RX) := fun _ y => match y with [Fin a; Fin b] => [Fin b; Fin (- a)] | _ => [NaN; NaN] end.
Example C49_nystrom_case lo hi : lifts (1 + 1) (sys2 1 spring) spring_sys /\ velocity_free 1 spring /\ polynomial2 1 spring /\ lipschitz2_global 1 spring /\
  solution2_on 1 spring lo hi (fun t => [sin t; cos t]) /\ smooth2_along 6 1 spring lo hi (fun t => [sin t; cos t]) /\ lipschitz2_along 1 spring lo hi (fun t => [sin t; cos t]).
Proof.
  assert (HP : polynomial2 1 spring).
  { exists (fun _ => [(-(1), [1%nat])]). split; [intros q _; repeat constructor|]. intros t y Hy. split; [reflexivity|]. intros [|q] Hq; [|lia].
    destruct y as [|a [|b [|? ?]]]; try discriminate Hy. unfold spring. cbn [nth lsum fst snd fold_right]. ring. }
  assert (HY : solution2_on 1 spring lo hi (fun t => [sin t; cos t])).
  { exists 1. split; [lra|]. intros t _. split; [reflexivity|]. intros [|q] Hq; [|lia]. cbn [nth Nat.add spring]. split; [apply derivable_pt_lim_sin|apply derivable_pt_lim_cos]. }
  split; [intros t [|a [|b [|? ?]]] H; try discriminate H; split; reflexivity|]. split; [apply C19_case|]. split; [exact HP|]. split.
  { exists 1. split; [lra|]. intros s u v e Lu Lv Huv [|q] Hq; [|lia]. unfold spring. cbn [nth]. rewrite Rmult_1_l. specialize (Huv 0%nat ltac:(lia)).
    replace (- nth 0 u 0 - - nth 0 v 0) with (- (nth 0 u 0 - nth 0 v 0)) by ring. rewrite Rabs_Ropp. exact Huv. }
  split; [exact HY|]. split; [apply polynomial2_smooth_along; auto|apply polynomial2_lipschitz_along; auto].
Qed.
