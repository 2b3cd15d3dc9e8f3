(** C29: the implicit classes on linear problems M y' = J y + g(t). *)
From Coq Require Import String Reals Lra QArith Qreals Bool Lia List Arith.
From Verif Require Import Arith Common Stiff RK HStart RKInit RX Tableaux Classes Dense Ode RKReal RKInitReal Series OrderCheck OrderRK OrderModel RKSpecProofs
  ESDIRK ESDCls ESDGen ESDReal ESDStep ESDInv ESDTop Prop_ESD ESDLin ESDLin2 ESDLin3 ESDLin4.
Import ListNotations.
Close Scope string_scope. Open Scope nat_scope. Open Scope R_scope.

(** ** specification *)
(** one step of the implicit Runge-Kutta method with coefficients A, b, c (s stages) for
    M y' = F(t, y), y of dimension d: the slopes ks solve the stage equations exactly.
    [rpoint d y h g] is y + h g, [lcomb s w ks] the combination of the first s slopes with weights w. *)
Definition irk_step (s d : nat) (A : nat -> nat -> R) (b c : nat -> R) (M : option (list (list R))) (F : R -> list R -> list R)
  (t h : R) (y : list R) (ks : list (list R)) (y' : list R) : Prop :=
  length ks = s /\
  (forall i, (i < s)%nat -> length (nth i ks []) = d /\
     forall q, (q < d)%nat -> rmv_opt d M (nth i ks []) q = nth q (F (t + c i * h) (rpoint d y h (lcomb s (A i) ks))) 0) /\
  y' = rpoint d y h (lcomb s b ks).

(** a solver for a linear problem: jac is the constant matrix J, fun computes F(t, y) = J y + g(t),
    M is absent, regular, or (LP_dae) singular with the orthogonal U of its SVD and consistent
    initial values; the linear solves are exact. *)
Inductive linear_problem (m : EMeth RX) (o : EOpts RX) (f : xr -> list xr -> list xr) (d : nat) (M : option (list (list R))) (J : list (list R)) (F : R -> list R -> list R)
  (t0 tb : R) (y0 : list R) : ECfg RX -> ES RX -> Prop :=
| LP_ode luok solve g c s :
    esd_init m o luok solve f (JacConst (map (map Fin) J)) (option_map (map (map Fin)) M) (Fin t0) (map Fin y0) (Fin tb) = inl (c, s) ->
    env_ok d f (JacConst (map (map Fin) J)) luok solve -> exact_solve d solve ->
    length y0 = d -> rshape d J -> (forall X, M = Some X -> rshape d X) -> lifts d F f -> linear_rhs d J g F ->
    linear_problem m o f d M J F t0 tb y0 c s
| LP_dae luok solve g M1 U k y1 yp1 h1 c s :
    esd_init_dae m o luok solve f (JacConst (map (map Fin) J)) (map (map Fin) M1) (map (map Fin) U) k (Fin t0) (map Fin y0) (Fin tb)
      (map Fin y1, map Fin yp1, map (map Fin) J, Fin h1) = inl (c, s) -> M = Some M1 -> h1 <> 0 ->
    env_ok d f (JacConst (map (map Fin) J)) luok solve -> exact_solve d solve -> orthogonal d U -> (k <= d)%nat ->
    length y0 = d -> length y1 = d -> length yp1 = d -> rshape d J -> rshape d M1 -> lifts d F f -> linear_rhs d J g F ->
    (forall q, (q < d)%nat -> rmv d M1 yp1 q = nth q (F t0 y1) 0) ->
    linear_problem m o f d M J F t0 tb y0 c s.

(** n returned step() calls *)
Definition linear_after m o f d M J F t0 tb y0 c n (v : OSolver RX (ES RX)) : Prop :=
  esd_args m o t0 tb (map Fin y0) /\ exists s, linear_problem m o f d M J F t0 tb y0 c s /\ ohist eview (x_tb c) (x_dir c) (esd_impl m c) (onew s) n v.

(** ** proofs *)
Lemma rpoint_ext' d y h g g' : (forall q, (q < d)%nat -> g q = g' q) -> rpoint d y h g = rpoint d y h g'.
Proof. intros H. unfold rpoint. apply map_ext_in. intros q Hq. apply in_seq in Hq. rewrite H by lia. reflexivity. Qed.
Lemma rsum_tail0 n N f : (n <= N)%nat -> (forall l, (n <= l)%nat -> f l = 0) -> rsum n f = rsum N f.
Proof. intros H Hf. induction H as [|N H IH]; [reflexivity|]. cbn [rsum]. rewrite <- IH, (Hf N H). ring. Qed.
Lemma mshape_fin d X : rshape d X -> mshape d (map (map Fin) X).
Proof. intros [L H]. split; [rewrite map_length; exact L|]. apply Forall_forall. intros r Hr. apply in_map_iff in Hr. destruct Hr as (x & <- & Hx). rewrite map_length. rewrite Forall_forall in H. apply H, Hx. Qed.

Lemma linear_built m o f d M J F t0 tb y0 c s : linear_problem m o f d M J F t0 tb y0 c s -> esd_built m o f t0 tb (map Fin y0) c s.
Proof.
  intros [luok solve g c0 s0 E HE HX L HJ HM HF HR|luok solve g M1 U k y1 yp1 h1 c0 s0 E EM Hh HE HX HO Hk L L1 Lp HJ HM1 HF HR HY].
  - apply (EB_ode m o f t0 tb (map Fin y0) luok solve (JacConst (map (map Fin) J)) (option_map (map (map Fin)) M)); [exact E|rewrite map_length, L; exact HE|].
    intros M' EM. destruct M as [X|]; [|discriminate]. injection EM as <-. rewrite map_length, L. apply mshape_fin, HM. reflexivity.
  - apply (EB_dae m o f t0 tb (map Fin y0) luok solve (JacConst (map (map Fin) J)) (map (map Fin) M1) (map (map Fin) U) k (map Fin y1) (map Fin yp1) (map (map Fin) J) h1);
      rewrite ?map_length, ?L; auto using mshape_fin. apply mshape_fin, HO.
Qed.

Lemma esd_d_pos m : In m (@esd_all RX) -> rd m <> 0.
Proof.
  assert (G : forall T, of_qtab m T -> qtab_ok T = true -> rd m = q2v (qd T)) by (intros T H _; apply rd_q; exact H).
  assert (S2 : 1414/1000 < sqrt 2 < 1415/1000).
  { split.
    - apply Rsqr_incrst_0; [|lra|apply sqrt_pos]. rewrite Rsqr_sqrt by lra. unfold Rsqr. lra.
    - apply Rsqr_incrst_0; [|apply sqrt_pos|lra]. rewrite Rsqr_sqrt by lra. unfold Rsqr. lra. }
  intros [<-|[<-|[<-|[<-|[<-|[<-|[]]]]]]];
  [rewrite (rd_q _ _ of_TRBDF2)|rewrite (rd_q _ _ of_TRX2)|rewrite (rd_q _ _ of_KC3I)|rewrite (rd_q _ _ of_KC4I)|rewrite (rd_q _ _ of_KC4Ia)|rewrite (rd_q _ _ of_Kv3I)];
  unfold q2v; cbn [qd TRBDF2_q TRX2_q KC3I_q KC4I_q KC4Ia_q Kv3I_q upt up fst snd TRBDF2_d KC3I_d KC4I_d TRX2_d KC4Ia_d Kv3I_d]; unfold Q2R, TRX2_d, KC4Ia_d, Kv3I_d; cbn [Qnum Qden fst snd]; lra.
Qed.

Lemma init_dae_fields (m : EMeth RX) o luok solve f jac M U k t0 y0 tb y1 yp1 J1 h1 c s :
  esd_init_dae m o luok solve f jac M U k t0 y0 tb (y1, yp1, J1, h1) = inl (c, s) ->
  x_fun c = f /\ x_M c = Some M /\ x_dae c = Some (U, k) /\ x_solve c = solve /\ e_t s = t0 /\ e_y s = y1 /\ e_yp s = yp1 /\ w_J (e_w s) = J1 /\
  exists (c0 : ECfg RX) s0, esd_init m o (fun _ => true) (fun _ _ => Some []) f jac None t0 y0 tb = inl (c0, s0) /\ x_jac c = x_jac c0.
Proof.
  unfold esd_init_dae. intros H. match type of H with (match ?x with inl _ => _ | inr _ => _ end) = _ => destruct x as [[c0 s0]|e] eqn:EI; [|discriminate H] end.
  cbv zeta in H. cbn iota in H.
  match type of H with (match ?x with inl _ => _ | inr _ => _ end) = _ => destruct x as [h|e]; [|discriminate H] end.
  apply inl_pair_inj in H. destruct H as [<- <-]. cbn [x_fun x_M x_dae x_solve e_t e_y e_yp e_w w_J x_jac]. repeat (split; [reflexivity|]). exists c0, s0. auto.
Qed.

Lemma linear_setup m o f d M J F t0 tb y0 c s : esd_args m o t0 tb (map Fin y0) -> linear_problem m o f d M J F t0 tb y0 c s ->
  lin_cfg m d M J F c /\ x_n c = d /\ w_J (e_w s) = map (map Fin) J /\ exists y yp, lstate d M F s t0 y yp.
Proof.
  intros HA HP. pose proof (linear_built _ _ _ _ _ _ _ _ _ _ _ _ HP) as HB.
  destruct (esd_built_good _ _ _ _ _ _ _ _ HA HB) as (r & _ & _ & _ & _ & _ & Bf & Bn & _).
  pose proof (esd_all_real m (proj1 HA)) as RT. pose proof (esd_d_pos m (proj1 HA)) as Hd0. rewrite map_length in Bn.
  destruct HA as (Hm & Hne & Hy & Hsc & Hms & Hfs).
  destruct HP as [luok solve g c0 s0 E HE HX L HJ HM HF HR|luok solve g M1 U k y1 yp1 h1 c0 s0 E -> Hh HE HX HO Hk L L1 Lp HJ HM1 HF HR HY].
  - destruct (esd_init_good _ _ _ _ _ _ _ _ _ _ _ _ Hm E Hne Hy Hsc Hms Hfs) as (r2 & h & yp0 & J0 & jc & B1 & B2 & B3 & B4 & B5 & B6 & B7 & B8 & B9 & B10 & B11 & B12 & B13 & B14 & B15 & B16 & B17 & B18 & Es).
    destruct B18 as [EJ _]. rewrite L in Bn.
    split; [|split; [exact Bn|split; [rewrite Es; exact EJ|]]].
    + constructor; [unfold x_linear; rewrite B6; reflexivity|exact B9|exact HM|exact HJ|rewrite B5; exact HF|exists g; exact HR|].
      apply (lc_solve_ode m d M J c0 (rt_d m RT) B10 Bn B9 HM HJ). rewrite B12. exact HX.
    + rewrite map_length, L in B15. destruct (HF t0 y0 L) as (LF & EF). change (num RX) with xr in *. rewrite EF in B15. rewrite mat_of_fin in B15.
      destruct (HX (rmat_of d M) (F t0 y0) yp0 (rmat_of_shape d M HM) LF B15) as (yp & -> & Lyp & Nyp).
      exists y0, yp. rewrite Es. unfold lstate. cbn [e_t e_y e_yp]. do 3 (split; [reflexivity|]). split; [exact L|]. split; [exact Lyp|].
      intros q Hq. rewrite <- (Nyp q Hq). symmetry. apply rmv_mat_of. exact Hq.
  - destruct (init_dae_fields _ _ _ _ _ _ _ _ _ _ _ _ _ _ _ _ _ _ E) as (A1 & A2 & A3 & A4 & A5 & A6 & A7 & A8 & c1 & s1 & EI & A9).
    destruct (esd_init_good _ _ _ _ _ _ _ _ _ _ _ _ Hm EI Hne Hy Hsc Hms Hfs) as (r2 & h & yp0 & J0 & jc & B1 & B2 & B3 & B4 & B5 & B6 & _).
    rewrite L in Bn. split; [|split; [exact Bn|split; [exact A8|]]].
    + constructor; [unfold x_linear; rewrite A9, B6; reflexivity|exact A2|intros X EX; injection EX as <-; exact HM1|exact HJ|rewrite A1; exact HF|exists g; exact HR|].
      apply (lc_solve_dae m d (Some M1) J U k c0 (rt_d m RT) Hd0 A3 Hk HO Bn A2); [intros X EX; injection EX as <-; exact HM1|exact HJ|rewrite A4; exact HX].
    + exists y1, yp1. unfold lstate. do 3 (split; [assumption|]). split; [exact L1|]. split; [exact Lp|exact HY].
Qed.

Lemma preemptive_lin m d M J F c s w ha : lin_cfg m d M J F c -> w_curJ w = true -> w_rate w = NInf -> preemptive c s w ha = inl w.
Proof.
  intros HC E1 E2. unfold preemptive. rewrite E1, E2, andb_false_r, n0_RX. reflexivity.
Qed.

Lemma estep_lin m d M J F c r k s s' t y yp : real_tab m -> lin_cfg m d M J F c -> la_ok m c -> egood c r -> x_n c = d -> einv m c s -> tval s <> ctb r ->
  lstate d M F s t y yp -> w_J (e_w s) = map (map Fin) J -> estep_impl m c k s = IDone s' ->
  exists hr ks y' yp' j l lp, hr <> 0 /\ lstate d M F s' (t + hr) y' yp' /\ textbook m d M F t hr y ks y' /\ nth 0 ks [] = yp /\ nth (em_stages m - 1) ks [] = yp' /\ e_K s' = map (map Fin) ks /\
    e_hprev s' = Some (Fin hr) /\
    w_J (e_w s') = map (map Fin) J /\ w_nfi (e_w s') = w_nfi (e_w s) /\ w_nfs (e_w s') = (w_nfs (e_w s) + j)%nat /\
    w_calls (e_w s') = (w_calls (e_w s) ++ lp ++ l)%list /\ length lp = ((em_stages m - 1) * j)%nat /\ map fst l = map (fun i => Fin (t + rC m i * hr)) (seq 1 (em_stages m - 1)).
Proof.
  intros RT HC HA HG Hd HI Ht HS HJ H. pose proof HI as (I1 & I2 & I3 & I4 & I5 & I6 & I7 & I8 & I9 & I10). pose proof (lc_lin _ _ _ _ _ _ HC) as CL.
  destruct I2 as (h0 & Eh & Hh0). pose proof HS as (S1 & _). assert (Tv : tval s = t) by (unfold tval; rewrite S1; reflexivity). rewrite Tv in *.
  unfold estep_impl in H. rewrite S1, Eh in H.
  destruct (ereassess_real c r t h0 (w_std (e_w s)) HG Hh0 Ht) as (ha & std' & ER & Hstd & Hha & HM & HL). rewrite ER in H.
  destruct (preemptive_ok m c r s ha std' HA HG HI Hstd) as (w & EP & HW & _).
  rewrite (preemptive_lin m d M J F) in EP by (first [exact HC|exact (I8 CL)|exact (I9 CL)]).
  rewrite (preemptive_lin m d M J F) in H by (first [exact HC|exact (I8 CL)|exact (I9 CL)]).
  injection EP as EP. subst w.
  exact (eloop_lin m d M J F c r RT HC HA HG Hd s t y yp (emin r t h0) HS k _ ha false s' HW HJ ltac:(lra) H).
Qed.

(** every state of a history is a real state with M y' = F(t, y) *)
Lemma linear_state m o f d M J F t0 tb y0 c n v : linear_after m o f d M J F t0 tb y0 c n v ->
  (ostat v = ORunning \/ ostat v = OFinished) -> exists t y yp, lstate d M F (ost v) t y yp /\ w_J (e_w (ost v)) = map (map Fin) J.
Proof.
  intros (HA & s & HP & HH). destruct (linear_setup _ _ _ _ _ _ _ _ _ _ _ _ HA HP) as (HC & Hn & HJ & y & yp & HS).
  pose proof (linear_built _ _ _ _ _ _ _ _ _ _ _ _ HP) as HB. pose proof (esd_all_real m (proj1 HA)) as RT.
  remember (onew s) as v0. revert s HB HP HJ y yp HS Heqv0. induction HH as [v|v n v1 v2 k HH IH HS1]; intros s HB HP HJ y yp HS -> Hst.
  - exists t0, y, yp. auto.
  - assert (R1 : ostat v1 = ORunning) by (unfold ostep in HS1; destruct (ostat v1); [reflexivity|discriminate|discriminate]).
    destruct (IH s HB HP HJ y yp HS eq_refl (or_introl R1)) as (t & y' & yp' & L1 & L2).
    assert (HAf : esd_after m o f t0 tb (map Fin y0) c n v1) by (split; [exact HA|exists s; split; assumption]).
    destruct (esd_step_cases _ _ _ _ _ _ _ _ _ _ _ HAf HS1) as (r & G & E1 & E2 & E3 & _ & _ & _ & LA & _ & I1 & Ah & HD).
    destruct HD as [(D & _)|(_ & F1 & _)]; [|rewrite F1 in Hst; destruct Hst; discriminate].
    assert (Hne : tval (ost v1) <> ctb r) by (rewrite E1; intros E; rewrite E in Ah; lra).
    destruct (estep_lin m d M J F c r k _ _ t y' yp' RT HC LA G Hn I1 Hne L1 L2 D) as (hr & ks & y2 & yp2 & j & l & lp & B1 & B2 & B3 & B4 & B5 & B6 & B7 & B8 & _). eauto 6.
Qed.

(** ** C29 *)
(** Every successful step() on a linear problem is the exact step of the method: the stage
    equations are satisfied exactly, the first slope is the stored derivative (M yp = F(t, y)),
    the last slope is the next one, every trial evaluates fun once per implicit stage - one Newton
    iteration, at t + c_i h - and Newton never fails. *)
Theorem C29_linear_step m o f d M J F t0 tb y0 c n v k v' :
  linear_after m o f d M J F t0 tb y0 c n v -> esd_step m c k v = OOk v' -> (forall msg, ostat v' <> OFailed msg) ->
  exists t h y ks y', e_t (ost v) = Fin t /\ e_y (ost v) = map Fin y /\ h <> 0 /\
    e_t (ost v') = Fin (t + h) /\ e_y (ost v') = map Fin y' /\ e_K (ost v') = map (map Fin) ks /\
    irk_step (em_stages m) d (rA m) (rB m) (rC m) M F t h y ks y' /\
    e_yp (ost v) = map Fin (nth 0 ks []) /\ e_yp (ost v') = map Fin (nth (em_stages m - 1) ks []) /\
    exists j lp l, w_nfs (e_w (ost v')) = (w_nfs (e_w (ost v)) + j)%nat /\ w_nfi (e_w (ost v')) = w_nfi (e_w (ost v)) /\
      w_calls (e_w (ost v')) = (w_calls (e_w (ost v)) ++ lp ++ l)%list /\ length lp = ((em_stages m - 1) * j)%nat /\
      map fst l = map (fun i => Fin (t + rC m i * h)) (seq 1 (em_stages m - 1)).
Proof.
  intros HLA HS Hst. assert (R1 : ostat v = ORunning) by (unfold esd_step, ostep in HS; destruct (ostat v); [reflexivity|discriminate|discriminate]).
  destruct (linear_state _ _ _ _ _ _ _ _ _ _ _ _ _ HLA (or_introl R1)) as (t & y & yp & L1 & L2).
  destruct HLA as (HA & s & HP & HH). destruct (linear_setup _ _ _ _ _ _ _ _ _ _ _ _ HA HP) as (HC & Hn & _).
  pose proof (esd_all_real m (proj1 HA)) as RT.
  assert (HAf : esd_after m o f t0 tb (map Fin y0) c n v) by (split; [exact HA|exists s; split; [eapply linear_built; exact HP|exact HH]]).
  destruct (esd_step_cases _ _ _ _ _ _ _ _ _ _ _ HAf HS) as (r & G & E1 & E2 & E3 & _ & _ & _ & LA & _ & I1 & Ah & HD).
  destruct HD as [(D & _)|(_ & F1 & _)]; [|exfalso; exact (Hst _ F1)].
  assert (Hne : tval (ost v) <> ctb r) by (rewrite E1; intros E; rewrite E in Ah; lra).
  destruct (estep_lin m d M J F c r k _ _ t y yp RT HC LA G Hn I1 Hne L1 L2 D) as (hr & ks & y2 & yp2 & j & l & lp & B1 & B2 & (B3a & B3b & B3c) & B4 & B5 & B6 & B7 & B8 & B9 & B10 & B11 & B12 & B13).
  destruct L1 as (S1 & S2 & S3 & _). destruct B2 as (S1' & S2' & S3' & _).
  exists t, hr, y, ks, y2. do 6 (split; [assumption|]). split; [|split; [rewrite B4; exact S3|split; [rewrite B5; exact S3'|]]].
  - split; [exact B3a|]. split.
    + intros i Hi. destruct (B3b i ltac:(lia)) as (X1 & X2). split; [exact X1|]. intros q Hq. rewrite X2 by exact Hq. do 2 f_equal. apply rpoint_ext'.
      intros q0 _. unfold lcomb. apply rsum_tail0; [lia|]. intros l0 Hl0. rewrite (rt_low m RT) by lia. ring.
    + rewrite B3c. apply rpoint_ext'. intros q _. unfold lcomb. apply rsum_ext. intros l0 _. rewrite (rt_last m RT). reflexivity.
  - exists j, lp, l. auto.
Qed.

(** ** the hypotheses are met: y' = lam y with any of the classes *)
Lemma entry_fin m i l : real_tab m -> nth l (nth i (em_A m) []) (@n0 RX) = Fin (rA m i l).
Proof.
  intros RT. rewrite n0_RX. unfold rA. refine (eq_trans (f_equal (fun r : list xr => nth l r (Fin 0)) (rowfin (em_A m) i (rt_A m RT))) _).
  refine (eq_trans (map_nth Fin (map xval (nth i (em_A m) [])) 0 l) _). f_equal. apply xval_nth.
Qed.
Lemma xeqb_refl a : xeqb (Fin a) (Fin a) = true.
Proof. cbn. unfold Reqb. destruct (Req_EM_T a a); congruence. Qed.
Lemma last_app_nth {X} (l : list X) d0 : last l d0 = nth (length l - 1) l d0.
Proof. apply last_nth. Qed.
Lemma esd_class_ok_all m : In m (@esd_all RX) -> esd_class_ok m = true.
Proof.
  intros Hm. pose proof (esd_all_real m Hm) as RT. unfold esd_class_ok. change (neqb RX) with xeqb.
  assert (HB : Forall (fun p => xeqb (fst p) (snd p) = true) (combine (last (em_A m) []) (em_B m))).
  { assert (EB : em_B m = map Fin (map xval (em_B m))).
    { destruct Hm as [<-|[<-|[<-|[<-|[<-|[<-|[]]]]]]]; cbn [em_B TRBDF2_m TRX2_m KC3I_m KC4I_m KC4Ia_m Kv3I_m]; rewrite ?lv2_RX, ?lv_up; change (num RX) with xr; rewrite !map_map; apply map_ext; reflexivity. }
    rewrite last_app_nth, (rt_lenA m RT). rewrite (rowfin (em_A m) _ (rt_A m RT)), EB. set (u := map xval (nth _ _ _)). set (w := map xval (em_B m)).
    assert (H : forall l, nth l u 0 = nth l w 0).
    { intros l. unfold u, w. rewrite !xval_nth. pose proof (rt_last m RT l) as E. unfold rA, rB in E. exact E. }
    clearbody u w. revert w H. induction u as [|a u IH]; intros [|b w] H; cbn [map combine]; constructor.
    - cbn [fst snd]. pose proof (H 0%nat) as E. cbn [nth] in E. rewrite E. apply xeqb_refl.
    - apply IH. intros l. exact (H (S l)). }
  rewrite Forall_forall in HB. rewrite !andb_true_iff. split; [split; [split|]|].
  - apply forallb_forall. intros i Hi. apply in_seq in Hi. rewrite (entry_fin m i i RT), (rt_d m RT), (rt_diag m RT) by lia. apply xeqb_refl.
  - rewrite (entry_fin m 0 0 RT), (rt_00 m RT), n0_RX. apply xeqb_refl.
  - rewrite n0_RX. pose proof (rt_c0 m RT) as E. unfold rC in E. pose proof (allfin_map _ (rt_C m RT)) as EC. change (num RX) with xr in *. rewrite EC.
    rewrite (map_nth Fin (map xval (em_C m)) 0 0), xval_nth, E. apply xeqb_refl.
  - apply forallb_forall. exact HB.
Qed.

Definition xfin (x : xr) : bool := match x with Fin _ => true | _ => false end.
Definition lu_r (X : list (list xr)) : bool := forallb (forallb xfin) X.
Definition solve_r (X : list (list xr)) (b : list xr) : option (list xr) :=
  match X, b with [[Fin a]], [Fin x] => if Req_EM_T a 0 then None else Some [Fin (x / a)] | _, _ => None end.
Definition lam_x (lam : R) : xr -> list xr -> list xr := fun _ y => match y with [Fin a] => [Fin (lam * a)] | _ => [NaN] end.
Definition lam_r (lam : R) : R -> list R -> list R := fun _ y => [lam * nth 0 y 0].
Definition lam_opts : EOpts RX :=
  {| p_max_step := PInf; p_rtol := Fin (1/1000); p_rtol_is_float := true; p_atol := Scalar (Fin (1/1000000)); p_first_step := Some (Fin (1/2)); p_sc := ScNone; p_jac_each := false |}.
Example C29_case m lam : In m esd_all -> exists c s, esd_args m lam_opts 0 1 (map Fin [1]) /\
  linear_problem m lam_opts (lam_x lam) 1 None [[lam]] (lam_r lam) 0 1 [1] c s.
Proof.
  intros Hm. assert (HAr : esd_args m lam_opts 0 1 (map Fin [1])).
  { split; [exact Hm|]. split; [lra|]. split; [discriminate|]. split; [|split; [discriminate|intros E; injection E; discriminate]].
    cbn [p_sc lam_opts sc_or]. rewrite (proj2 (proj2 (esd_all_C m Hm))). apply esc_names. auto. }
  assert (HI : exists c s, esd_init m lam_opts lu_r solve_r (lam_x lam) (JacConst (map (map Fin) [[lam]])) (option_map (map (map Fin)) None) (Fin 0) (map Fin [1]) (Fin 1) = inl (c, s)).
  { assert (HV : exists p, validate_tol true (Fin (1/1000)) (Scalar (Fin (1/1000000))) (map Fin [1]) = inl p).
    { unfold validate_tol. rewrite n0_RX. cbn [negb nltb RX xltb]. unfold Rltb.
      destruct (Rlt_dec (1/1000000) 0); [lra|]. destruct (Rlt_dec (1/1000) 0); [lra|]. eexists. reflexivity. }
    destruct HV as [[rt at_] HV]. unfold esd_init. cbn [p_max_step p_rtol_is_float p_rtol p_atol lam_opts]. rewrite HV, n0_RX. cbn [nleb RX xleb].
    destruct HAr as (_ & _ & _ & Hsc & _). unfold esc_ok in Hsc. cbv zeta.
    destruct (esd_coefs (sc_or (p_sc lam_opts) (em_sc m))) as [[[[kb1 kb2] al] gg]|]; [|contradiction].
    rewrite (esd_class_ok_all m Hm). cbn [negb option_map]. 
    assert (EM : @mat_of RX 1 None = [[Fin 1]]) by (cbn [mat_of length map]; rewrite eye_fin; reflexivity).
    match goal with |- context [@mat_of RX ?a ?b] => change (@mat_of RX a b) with (@mat_of RX 1 None) end. rewrite EM. cbn [lu_r forallb xfin andb negb map lam_x solve_r].
    destruct (Req_EM_T 1 0); [lra|]. unfold esd_first. cbn [p_first_step lam_opts]. rewrite n0_RX. cbn [nleb RX xleb nltb nabs nsub]. unfold xsub. cbn [xopp xadd xabs xltb]. unfold Rleb, Rltb.
    destruct (Rle_dec (1/2) 0); [lra|]. destruct (Rlt_dec (Rabs (1 + - 0)) (1/2)) as [H|H]; [exfalso; rewrite Rabs_pos_eq in H; lra|]. eexists. eexists. reflexivity. }
  destruct HI as (c & s & HI). exists c, s. split; [exact HAr|]. eapply (LP_ode m lam_opts (lam_x lam) 1 None [[lam]] (lam_r lam) 0 1 [1] lu_r solve_r (fun _ _ => 0)); [exact HI| | |reflexivity| | | |].
  - split; [|split; [|split]].
    + intros t [|[] [|]]; reflexivity.
    + split; [reflexivity|]. constructor; [reflexivity|constructor].
    + intros X HX. unfold lu_r in HX. rewrite forallb_forall in HX. apply Forall_forall. intros r Hr. apply Forall_forall. intros x Hx. specialize (HX r Hr). rewrite forallb_forall in HX. specialize (HX x Hx).
      destruct x; try discriminate HX. eexists. reflexivity.
    + intros L b x E. unfold solve_r in E. destruct L as [|[|[a| | |] [|]] [|]]; try discriminate E. destruct b as [|[b| | |] [|]]; try discriminate E. destruct (Req_EM_T a 0); [discriminate E|]. injection E as <-.
      split; [constructor; [eexists; reflexivity|constructor]|reflexivity].
  - intros L b x [HL HF] Hb E. destruct L as [|row [|]]; try discriminate HL. inversion_clear HF as [|? ? H1 _]. destruct row as [|a [|]]; try discriminate H1. destruct b as [|b [|]]; try discriminate Hb.
    cbn [map solve_r] in E. destruct (Req_EM_T a 0); [discriminate E|]. injection E as <-. exists [b / a]. split; [reflexivity|]. split; [reflexivity|]. intros q Hq. replace q with 0%nat by lia.
    unfold rmv. cbn [rsum nth]. field. assumption.
  - split; [reflexivity|]. constructor; [reflexivity|constructor].
  - intros X EX. discriminate EX.
  - intros t y Hy. destruct y as [|a [|]]; try discriminate Hy. split; reflexivity.
  - intros t u q Hu Hq. destruct u as [|a [|]]; try discriminate Hu. replace q with 0%nat by lia. unfold rmv, lam_r. cbn [rsum nth]. ring.
Qed.
