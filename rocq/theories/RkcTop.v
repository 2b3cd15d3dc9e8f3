(** SSV2stab over the extended reals: step() terminates, histories, the constructor. *)
From Coquelicot Require Import Coquelicot.
From Coq Require Import String ZArith Reals Lra Psatz QArith Qreals Bool Lia List Arith.
From Verif Require Import Arith Common Stiff RK RX HStart RKInit RKReal RKStep HStartReal RKInitReal NormReal Prop_Tol Ode Dense OrderRK OrderModel SwagArr Rkc RkcGen Cheb RkcReal RkcOrd RkcRho RkcStep.
Import ListNotations.
Close Scope string_scope. Open Scope nat_scope. Open Scope R_scope.

Section Top.
Variables (c : RkcCfg RX) (d : nat) (F : R -> list R -> list R) (tb dir mx rt hm : R) (al : list R).
Hypothesis C : rcfg c d F tb dir mx rt hm al.

(** the next step size *)
Lemma fac_real s t y sp a e : rst d F t y sp s -> 0 <= a -> 0 <= e -> exists f, rkc_fac (rs_hold s) (rs_errold s) (Fin a) (Fin e) = Fin f /\ 0 <= f <= 10.
Proof.
  intros S Ha He. unfold rkc_fac. assert (E3 : ndiv RX n1 (lit 3) = Fin (1/3)) by apply third_RX. assert (E4 : ndiv RX (lit 2) (lit 3) = Fin (2/3)) by apply twothird_RX.
  change (num RX) with xr in *. rewrite E3, E4. rewrite !lit_RX. replace (Q2R (8#10)) with (8/10) by (unfold Q2R; cbn; lra). replace (Q2R 10) with 10 by (unfold Q2R; cbn; lra).
  destruct (rs_hold s) as [ho|] eqn:EH.
  - pose proof (st_hold _ _ _ _ _ _ S) as HH. rewrite EH in HH. destruct HH as (r & -> & Hr). destruct (st_errold _ _ _ _ _ _ S) as (eo & Ee & Heo). rewrite Ee.
    destruct (pow_nn_RX eo (1/3) Heo ltac:(lra)) as (p1 & P1 & Hp1). destruct (pow_nn_RX e (2/3) He ltac:(lra)) as (p2 & P2 & Hp2). change (num RX) with xr in *. rewrite P1, P2. cbn [nmul RX xmul nabs xabs].
    set (t1 := 8/10 * a * p1). set (t2 := Rabs r * p2). assert (0 <= t1) by (unfold t1; nra). assert (0 <= t2) by (unfold t2; pose proof (Rabs_pos r); nra).
    change (nltb RX (Fin t1) (Fin (10 * t2))) with (Rltb t1 (10 * t2)). destruct (Rltb_spec t1 (10 * t2)) as [L|L].
    + rewrite xdiv_fin by lra. eexists. split; [reflexivity|]. assert (0 < t2) by lra. split; [apply Rdiv_le_0_compat; lra|]. apply Rmult_le_reg_r with t2; [lra|]. replace (t1 / t2 * t2) with t1 by (field; lra). lra.
    + exists 10. split; [reflexivity|lra].
  - destruct (pow_nn_RX e (1/3) He ltac:(lra)) as (p2 & P2 & Hp2). change (num RX) with xr in *. rewrite P2. cbn [nmul RX xmul].
    change (nltb RX (Fin (8/10)) (Fin (10 * p2))) with (Rltb (8/10) (10 * p2)). destruct (Rltb_spec (8/10) (10 * p2)) as [L|L].
    + rewrite xdiv_fin by lra. eexists. split; [reflexivity|]. assert (0 < p2) by lra. split; [apply Rdiv_le_0_compat; lra|]. apply Rmult_le_reg_r with p2; [lra|]. replace (8/10 / p2 * p2) with (8/10) by (field; lra). lra.
    + exists 10. split; [reflexivity|lra].
Qed.
Lemma finish_real s t y sp h e hn y1 : rst d F t y sp s -> h <> 0 -> 0 <= e -> sqrt_tiny <= hn -> length y1 = d -> rs_v1 s = map Fin (F (t + h) y1) ->
  exists a', rst d F (t + h) y1 sp (rkc_finish c s (Fin h) (Fin (Rabs h)) (Fin hn) (Fin e) (map Fin y1)) /\
    rs_absh (rkc_finish c s (Fin h) (Fin (Rabs h)) (Fin hn) (Fin e) (map Fin y1)) = Some (Fin a') /\ sqrt_tiny <= a' <= Rmax hn mx /\ a' <= Rmax hn (10 * Rabs h).
Proof.
  intros S Hh He Hn Ly Hv. destruct (fac_real s t y sp (Rabs h) e S (Rabs_pos h) He) as (f & EF & Hf). assert (TP : 0 < sqrt_tiny) by apply sqrt_tiny_pos.
  assert (EA : rs_absh (rkc_finish c s (Fin h) (Fin (Rabs h)) (Fin hn) (Fin e) (map Fin y1)) = Some (Fin (Rmax hn (Rmin mx (Rmax (1/10) f * Rabs h))))).
  { cbn [rkc_finish rs_absh]. change (num RX) with xr in *. rewrite EF, (cf_mx _ _ _ _ _ _ _ _ _ C), lit_RX. replace (Q2R (1#10)) with (1/10) by (unfold Q2R; cbn; lra). rewrite pymax_fin. cbn [nmul RX xmul]. rewrite pymin_fin, pymax_fin. reflexivity. }
  exists (Rmax hn (Rmin mx (Rmax (1/10) f * Rabs h))). split; [|split; [exact EA|]].
  - pose proof (st_t _ _ _ _ _ _ S) as Tt. destruct S. constructor; try (cbn; auto; fail).
    + cbn [rkc_finish rs_t]. rewrite Tt. reflexivity.
    + rewrite EA. eexists. split; [reflexivity|]. eapply Rlt_le_trans; [|apply Rmax_l]. lra.
    + cbn. exists h. auto.
    + cbn. exists e. auto.
  - split; [split|].
    + eapply Rle_trans; [exact Hn|apply Rmax_l].
    + apply Rle_max_compat_l. apply Rmin_l.
    + apply Rle_max_compat_l. eapply Rle_trans; [apply Rmin_r|]. apply Rmult_le_compat_r; [apply Rabs_pos|]. apply Rmax_lub; lra.
Qed.

(** the radius used somewhere in a step: the old one or one determined at (t, y) *)
Definition sp_any (t : R) (y : list R) (sp sp' : R) : Prop := sp' = sp \/ sp_from c d F t y sp sp' true.
Lemma sp_any_from t y sp sp' new : sp_from c d F t y sp sp' new -> sp_any t y sp sp'.
Proof. destruct new; [right; assumption|left; assumption]. Qed.
Lemma sp_any_trans t y sp sp1 sp2 : sp_any t y sp sp1 -> sp_any t y sp1 sp2 -> sp_any t y sp sp2.
Proof. intros [->|H] [->|H2]; unfold sp_any; auto. Qed.

(** what an accepted step is: it started with the step size a0, which is the one kept from
    the previous step or the initial one, or a reduced one *)
Record good_step (t : R) (y : list R) (sp : R) (absh : option (num RX)) (s' : RkcSt RX) (sp' a0 : R) (m : nat) (h : R) (y1 : list R) (e : R) : Prop := {
  gs_trial : good_trial c F tb dir rt al t y a0 sp' m h y1 e;
  gs_e : 0 <= e < 1;
  gs_sp : sp_any t y sp sp';
  gs_a0 : 0 < a0;
  gs_start : start_size hm mx absh a0 \/ (sqrt_tiny <= a0 /\ exists a1, start_size hm mx absh a1 /\ a0 <= 88/100 * a1);
  gs_st : rst d F (t + h) y1 sp' s';
  gs_next : exists a', rs_absh s' = Some (Fin a') /\ sqrt_tiny <= a';
  gs_old : rs_v1 s' = map Fin y /\ rs_v2 s' = map Fin (F t y) }.

Lemma reject_shrinks t y a0 sp' m h y1 e a2 : good_trial c F tb dir rt al t y a0 sp' m h y1 e -> 0 < a0 -> 1 <= e -> a2 = 8/10 * Rabs h / Rpower e (1/3) -> a2 <= 88/100 * a0 /\ a2 <= 8/10 * Rabs h.
Proof.
  intros G Ha He ->. pose proof (gt_h _ _ _ _ _ _ _ _ _ _ _ _ _ _ G) as H1. destruct (stretch_le tb t a0 Ha) as [H2 _].
  assert (P : 1 <= Rpower e (1/3)). { apply Rle_trans with (Rpower e 0); [rewrite Rpower_O by lra; lra|apply Rle_Rpower; lra]. }
  assert (8/10 * Rabs h / Rpower e (1/3) <= 8/10 * Rabs h).
  { apply Rmult_le_reg_r with (Rpower e (1/3)); [lra|]. replace (8/10 * Rabs h / Rpower e (1/3) * Rpower e (1/3)) with (8/10 * Rabs h) by (field; lra). pose proof (Rabs_pos h). nra. }
  lra.
Qed.

Lemma loop_real : forall fuel t y sp s absh ysc, rst d F t y sp s -> t <> tb -> absh_is absh ->
  match rkc_loop ELX fuel c s absh ysc with
  | IDone s' => exists sp' a0 m h y1 e, good_step t y sp absh s' sp' a0 m h y1 e
  | IFail s' msg => rst d F t y (match rs_sprad s' with Fin q => q | _ => 0 end) s' /\ ((msg = rkc_norho /\ rc_rho c = None) \/ msg = rkc_toosmall)
  | IRaise _ => False
  | IFuel => True
  end.
Proof.
  induction fuel as [|fuel IH]; intros t y sp s absh ysc S Ht HA; cbn [rkc_loop]; [exact I|].
  pose proof (trial_real c d F tb dir mx rt hm al t y sp s absh ysc C S Ht HA) as T. destruct (rkc_trial ELX c s absh ysc) as [s1 msg|e0|s1 a1 y1|s1 h0 a0 hm0 er0 y0].
  - destruct T as (T1 & T2). split; [exact T1|]. destruct T2 as [T2|(T2 & _)]; tauto.
  - exact T.
  - destruct T as (sp' & a0 & m & h & u & e & a2 & SF & SS & A0 & G & He & -> & E2 & Hs & S1). assert (TP : 0 < sqrt_tiny) by apply sqrt_tiny_pos.
    specialize (IH t y sp' s1 (Some (Fin a2)) y1 S1 Ht ltac:(exists a2; split; [reflexivity|lra])).
    destruct (reject_shrinks _ _ _ _ _ _ _ _ _ G A0 He E2) as [B1 B2].
    change (num RX) with xr in *. destruct (rkc_loop ELX fuel c s1 (Some (Fin a2)) y1) as [s'|s' msg|e1|]; auto.
    destruct IH as (sp2 & a3 & m2 & h2 & y2 & e2 & [G2 E3 SP A3 ST S2 NX OLD]). exists sp2, a3, m2, h2, y2, e2. constructor; auto.
    + eapply sp_any_trans; [|exact SP]. eapply sp_any_from; exact SF.
    + right. destruct ST as [ST|(Q1 & a4 & Q2 & Q3)].
      * cbn [start_size] in ST. injection ST as <-. split; [exact Hs|]. exists a0. auto.
      * cbn [start_size] in Q2. injection Q2 as <-. split; [exact Q1|]. exists a0. split; [exact SS|]. lra.
  - destruct T as (sp' & b0 & m & h & u & e & hn & SF & SS & A0 & G & He & -> & -> & -> & Hn & -> & -> & Lu & V1 & S1).
    assert (Hh : h <> 0). { pose proof (gt_dir _ _ _ _ _ _ _ _ _ _ _ _ _ _ G). intros ->. rewrite Rmult_0_r in *. lra. }
    destruct (finish_real s1 t y sp' h e hn u S1 Hh (proj1 He) Hn Lu V1) as (a' & S2 & EA & HA' & _).
    exists sp', b0, m, h, u, e. constructor; auto.
    + eapply sp_any_from; exact SF.
    + exists a'. split; [exact EA|apply HA'].
    + split; [exact (st_yn _ _ _ _ _ _ S1)|exact (st_fn _ _ _ _ _ _ S1)].
Qed.

(** ** termination *)
Lemma loop_some_ends : forall n t y sp s a0 ysc, rst d F t y sp s -> t <> tb -> 0 < a0 -> a0 * (88/100) ^ n < sqrt_tiny ->
  forall k, (n < k)%nat -> rkc_loop ELX k c s (Some (Fin a0)) ysc <> IFuel.
Proof.
  induction n as [|n IH]; intros t y sp s a0 ysc S Ht Ha Hp k Hk; (destruct k as [|k]; [lia|]); cbn [rkc_loop];
    pose proof (trial_real c d F tb dir mx rt hm al t y sp s (Some (Fin a0)) ysc C S Ht ltac:(exists a0; auto)) as T; destruct (rkc_trial ELX c s (Some (Fin a0)) ysc) as [s1 msg|e0|s1 a1 y1|s1 h0 a3 hm0 er0 y0]; try discriminate;
    destruct T as (sp' & b0 & m & h & u & e & a2 & SF & SS & A0 & G & He & -> & E2 & Hs & S1); cbn [start_size] in SS; injection SS as <-; destruct (reject_shrinks _ _ _ _ _ _ _ _ _ G A0 He E2) as [B1 B2].
  - exfalso. cbn in Hp. lra.
  - assert (TP : 0 < sqrt_tiny) by apply sqrt_tiny_pos. apply (IH t y sp' s1 a2 y1 S1 Ht ltac:(lra)); [|lia]. cbn [pow] in Hp. assert (0 < (88/100)^n) by (apply pow_lt; lra). nra.
Qed.
Lemma small_power x : 0 < x -> exists n, x * (88/100)^n < sqrt_tiny.
Proof.
  intros Hx. assert (TP : 0 < sqrt_tiny) by apply sqrt_tiny_pos. destruct (pow_lt_1_zero (88/100)) with (y := sqrt_tiny / x) as (N & HN).
  { rewrite Rabs_pos_eq; lra. } { apply Rdiv_lt_0_compat; lra. }
  exists N. specialize (HN N ltac:(lia)). rewrite Rabs_pos_eq in HN by (apply pow_le; lra). apply Rmult_lt_compat_l with (r := x) in HN; [|lra]. replace (x * (sqrt_tiny / x)) with sqrt_tiny in HN by (field; lra). exact HN.
Qed.
Theorem step_ends t y sp s : rst d F t y sp s -> t <> tb -> exists N, forall k, (N <= k)%nat -> rkc_step_impl ELX c k s <> IFuel.
Proof.
  intros S Ht. unfold rkc_step_impl. pose proof (st_absh _ _ _ _ _ _ S) as HA. destruct (rs_absh s) as [a|].
  - destruct HA as (r & -> & Hr). destruct (small_power r Hr) as (n & Hn). exists (Datatypes.S n). intros k Hk. apply (loop_some_ends n t y sp s r _ S Ht Hr Hn). lia.
  - pose proof (trial_real c d F tb dir mx rt hm al t y sp s None (rs_y s) C S Ht I) as T.
    destruct (rkc_trial ELX c s None (rs_y s)) as [s1 msg|e0|s1 a1 y1|s1 h0 a3 hm0 er0 y0] eqn:ET;
      try (exists 1%nat; intros k Hk; destruct k as [|k]; [lia|]; cbn [rkc_loop]; change (num RX) with xr in *; rewrite ET; discriminate).
    destruct T as (sp' & b0 & m & h & u & e & a2 & SF & SS & A0 & G & He & -> & E2 & Hs & S1). assert (TP : 0 < sqrt_tiny) by apply sqrt_tiny_pos.
    destruct (small_power a2 ltac:(lra)) as (n & Hn). exists (Datatypes.S (Datatypes.S n)). intros k Hk. destruct k as [|k]; [lia|]. cbn [rkc_loop]. change (num RX) with xr in *. rewrite ET.
    apply (loop_some_ends n t y sp' s1 a2 _ S1 Ht ltac:(lra) Hn). lia.
Qed.

(** ** histories *)
(** at a step boundary: the state invariant, a radius satisfying P, kept step sizes at least lo *)
Definition rinv (P : R -> Prop) (lo : R) (s : RkcSt RX) : Prop := exists t y sp, rst d F t y sp s /\ P sp /\
  match rs_absh s with Some x => exists r, x = Fin r /\ lo <= r | None => True end.
Definition low (lo : R) : Prop := 0 < lo /\ lo <= sqrt_tiny /\ lo <= Rmin hm mx.
(** radii determined in the run satisfy P *)
Definition closed (P : R -> Prop) : Prop := forall t y sp sp', length y = d -> sp_from c d F t y sp sp' true -> P sp'.

Lemma rinv_fin P lo s : rinv P lo s -> exists x, v_t rkc_view s = Fin x.
Proof. intros (t & y & sp & S & _). exists t. apply S. Qed.
Lemma rinv_step P lo k s s' : closed P -> low lo -> rinv P lo s -> ahead rkc_view tb dir s -> rkc_step_impl ELX c k s = IDone s' ->
  exists t y sp sp' a0 m h y1 e, rst d F t y sp s /\ good_step t y sp (rs_absh s) s' sp' a0 m h y1 e /\ lo <= a0 /\ P sp' /\ rinv P lo s' /\
    Rabs h <= Rabs (tb - t) /\ 0 <= dir * (tb - (t + h)).
Proof.
  intros HP (L1 & L2 & L3) (t & y & sp & S & Psp & HA) Hah E. assert (Ht : t <> tb). { unfold ahead, tv in Hah. cbn [rkc_view v_t] in Hah. rewrite (st_t _ _ _ _ _ _ S) in Hah. intros ->. lra. }
  assert (HA' : absh_is (rs_absh s)). { unfold absh_is. destruct (rs_absh s) as [x|]; [|exact I]. destruct HA as (r & -> & Hr). exists r. split; [reflexivity|lra]. }
  pose proof (loop_real k t y sp s (rs_absh s) (rs_y s) S Ht HA') as T. unfold rkc_step_impl in E. change (num RX) with xr in *. rewrite E in T.
  destruct T as (sp' & a0 & m & h & y1 & e & G). exists t, y, sp, sp', a0, m, h, y1, e. split; [exact S|]. split; [exact G|].
  assert (Psp' : P sp'). { destruct (gs_sp _ _ _ _ _ _ _ _ _ _ _ G) as [->|Q]; [exact Psp|]. eapply HP; [|exact Q]. apply S. }
  assert (Hlo : lo <= a0).
  { destruct (gs_start _ _ _ _ _ _ _ _ _ _ _ G) as [Q|(Q & _)]; [|lra]. unfold start_size in Q. destruct (rs_absh s) as [x|]; [|lra]. destruct HA as (r & E1 & Hr). rewrite E1 in Q. injection Q as <-. exact Hr. }
  split; [exact Hlo|]. split; [exact Psp'|]. split.
  { exists (t + h), y1, sp'. split; [apply G|]. split; [exact Psp'|]. destruct (gs_next _ _ _ _ _ _ _ _ _ _ _ G) as (a' & E1 & H1). rewrite E1. exists a'. split; [reflexivity|lra]. }
  pose proof (gs_trial _ _ _ _ _ _ _ _ _ _ _ G) as GT. pose proof (gt_h _ _ _ _ _ _ _ _ _ _ _ _ _ _ GT) as H1. pose proof (gt_dir _ _ _ _ _ _ _ _ _ _ _ _ _ _ GT) as H2.
  destruct (stretch_le tb t a0 (gs_a0 _ _ _ _ _ _ _ _ _ _ _ G)) as [_ H3]. split; [lra|].
  unfold ahead, tv in Hah. cbn [rkc_view v_t] in Hah. rewrite (st_t _ _ _ _ _ _ S) in Hah.
  destruct (cf_dir1 _ _ _ _ _ _ _ _ _ C) as [D|D]; rewrite D in *; unfold Rabs in *; destruct (Rcase_abs h); destruct (Rcase_abs (tb - t)); lra.
Qed.
(** the smallest step that does not reach tb *)
Definition least (lo S : R) : R := Rmin lo ((IZR (rc_mmax c) * IZR (rc_mmax c) - 1) / (154/100 * S)).
Lemma least_pos lo S : 0 < lo -> 0 < S -> 0 < least lo S.
Proof.
  intros H1 H2. unfold least. apply Rmin_glb_lt; [exact H1|]. pose proof (cf_mm _ _ _ _ _ _ _ _ _ C) as MM. apply (IZR_le 2) in MM. apply Rdiv_lt_0_compat; nra.
Qed.
Lemma rinv_adv S lo k s s' : 0 < S -> closed (fun sp => sp <= S) -> low lo -> rinv (fun sp => sp <= S) lo s -> ahead rkc_view tb dir s -> rkc_step_impl ELX c k s = IDone s' ->
  ahead rkc_view tb dir s' -> least lo S <= dir * (tv rkc_view s' - tv rkc_view s).
Proof.
  intros HS HP HL HI Hah E Hah'. destruct (rinv_step _ lo k s s' HP HL HI Hah E) as (t & y & sp & sp' & a0 & m & h & y1 & e & St & G & Hlo & Psp & _ & _ & _).
  pose proof (gs_trial _ _ _ _ _ _ _ _ _ _ _ G) as GT. pose proof (gt_dir _ _ _ _ _ _ _ _ _ _ _ _ _ _ GT) as H2.
  unfold ahead, tv in *. cbn [rkc_view v_t] in *. rewrite (st_t _ _ _ _ _ _ (gs_st _ _ _ _ _ _ _ _ _ _ _ G)) in *. rewrite (st_t _ _ _ _ _ _ St) in *.
  assert (AH : dir * (t + h - t) = Rabs h) by (destruct (cf_dir1 _ _ _ _ _ _ _ _ _ C) as [D|D]; rewrite D in *; unfold Rabs; destruct (Rcase_abs h); lra). rewrite AH.
  destruct (gt_case _ _ _ _ _ _ _ _ _ _ _ _ _ _ GT) as [E1|(E1 & P1 & E2)].
  - unfold stretch in E1. destruct (Rle_dec _ _) as [Q|Q].
    + exfalso. destruct (cf_dir1 _ _ _ _ _ _ _ _ _ C) as [D|D]; rewrite D in *; unfold Rabs in E1; destruct (Rcase_abs h); destruct (Rcase_abs (tb - t)); lra.
    + rewrite E1. unfold least. eapply Rle_trans; [apply Rmin_l|exact Hlo].
  - rewrite E2. unfold least. eapply Rle_trans; [apply Rmin_r|]. rewrite INR_IZR_INZ, E1. pose proof (cf_mm _ _ _ _ _ _ _ _ _ C) as MM. apply (IZR_le 2) in MM.
    unfold Rdiv. apply Rmult_le_compat_l; [nra|]. apply Rinv_le_contravar; [nra|]. apply Rmult_le_compat_l; [lra|exact Psp].
Qed.
Lemma rinv_prog P lo s : low lo -> rinv P lo s -> ahead rkc_view tb dir s -> exists k s', rkc_step_impl ELX c k s = IDone s' \/ exists msg, rkc_step_impl ELX c k s = IFail s' msg.
Proof.
  intros (L1 & _) (t & y & sp & S & Psp & HA) Hah. assert (Ht : t <> tb). { unfold ahead, tv in Hah. cbn [rkc_view v_t] in Hah. rewrite (st_t _ _ _ _ _ _ S) in Hah. intros ->. lra. }
  assert (HA' : absh_is (rs_absh s)). { unfold absh_is. destruct (rs_absh s) as [x|]; [|exact I]. destruct HA as (r & -> & Hr). exists r. split; [reflexivity|lra]. }
  destruct (step_ends t y sp s S Ht) as (N & HN). exists N. specialize (HN N ltac:(lia)). pose proof (loop_real N t y sp s (rs_absh s) (rs_y s) S Ht HA') as T. unfold rkc_step_impl in *. change (num RX) with xr in *.
  destruct (rkc_loop ELX N c s (rs_absh s) (rs_y s)) as [s'|s' msg|e1|]; [exists s'; auto|exists s'; right; eauto|contradiction|contradiction].
Qed.
End Top.

(** ** the constructor *)
Definition given (o : RkcOpts RX) : Prop :=
  ro_max_step o <> NaN /\ ro_first_step o <> Some NaN /\ ro_rtol o <> NaN /\ no_nan (tol_values (ro_atol o)) /\ Forall (fun x => x <> PInf) (tol_values (ro_atol o)).
(** rho_jac returns finite nonnegative numbers *)
Definition rho_ok (d : nat) (r : option (num RX -> list (num RX) -> num RX)) : Prop :=
  match r with None => True | Some r => forall t y, length y = d -> exists q, r (Fin t) (map Fin y) = Fin q /\ 0 <= q end.
Lemma validated_atol isf rtol atol (y0 : list (num RX)) rtol' atol' : rtol <> NaN -> no_nan (tol_values atol) -> Forall (fun x => x <> PInf) (tol_values atol) ->
  validate_tol isf rtol atol y0 = inl (rtol', atol') -> exists r al, rtol' = Fin r /\ floor_rtol <= r <= 1/10 /\ bcast atol' (length y0) = map Fin al /\ length al = length y0 /\ Forall (fun a => floor_atol <= a) al.
Proof.
  intros HN HA HI HV. pose proof (C16_validated _ _ _ _ _ _ HN HA HV) as (G & SF & _). destruct G as [(r & -> & Hr) G].
  assert (HA' : forall x, In x (tol_values atol') -> exists a, x = Fin a /\ floor_atol <= a).
  { intros x Hx. rewrite Forall_forall in G. specialize (G x Hx). destruct x as [a| | |]; simpl in G; try tauto; [exists a; auto|]. exfalso.
    unfold validate_tol in HV. destruct atol as [a|l]; cbn [negb tol_values] in *.
    - destruct (nltb RX a n0); [discriminate|]. destruct isf; [|discriminate]. cbn [negb] in HV. destruct (nltb RX rtol n0); [discriminate|].
      apply inl_inv, pair_equal_spec in HV. destruct HV as [_ <-]. cbn [tol_values] in Hx. destruct Hx as [Hx|[]]. unfold npmax in Hx. rewrite tiny_RX in Hx. inversion HI; subst. inversion HA; subst.
      destruct a as [b| | |]; cbn in Hx; try congruence. destruct (Rleb _ b); congruence.
    - destruct (Nat.eqb _ _); [|discriminate]. cbn [negb] in HV. destruct (existsb _ l); [discriminate|]. destruct isf; [|discriminate]. cbn [negb] in HV. destruct (nltb RX rtol n0); [discriminate|].
      apply inl_inv, pair_equal_spec in HV. destruct HV as [_ <-]. cbn [tol_values] in Hx. apply in_map_iff in Hx. destruct Hx as (a & Hx & Ha). unfold npmax in Hx. rewrite tiny_RX in Hx.
      rewrite Forall_forall in HI. unfold no_nan in HA. rewrite Forall_forall in HA. specialize (HI a Ha). specialize (HA a Ha).
      destruct a as [b| | |]; cbn in Hx; try congruence. destruct (Rleb _ b); congruence. }
  destruct (bcast_fin atol' (length y0) HA') as (al & EA & LA & FA). { destruct atol, atol'; simpl in SF; try tauto. }
  exists r, al. auto.
Qed.
Theorem init_real o f t0 y0 tb c s d F y : rkc_init ELX o f (Fin t0) y0 (Fin tb) = inl (c, s) -> t0 <> tb -> (0 < d)%nat -> y0 = map Fin y -> length y = d -> lifts d F f -> given o -> rho_ok d (ro_rho o) ->
  exists dir mx rt hm al lo, rcfg c d F tb dir mx rt hm al /\ 0 < dir * (tb - t0) /\ rst d F t0 y 0 s /\ low mx hm lo /\ rinv d F (fun sp => sp = 0) lo s /\
    mx <= Rabs (tb - t0) /\ (forall M, ro_max_step o = Fin M -> mx <= M) /\ rs_absh s = ro_first_step o.
Proof.
  intros E Hne Hd Ey Ly HF (G1 & G2 & G3 & G4 & G5) HR. destruct (init_gen ELX _ _ _ _ _ _ _ E) as (I0 & Ef & Et & Eyy & Etb & Erho & Emm & _).
  unfold rkc_init in E. destruct (direction0_RX t0 tb Hne) as (dir & Ed & Hdir & Hpos).
  destruct (match ro_first_step o with None => _ | _ => _ end) as [ab|] eqn:EF; [|discriminate].
  destruct (ro_const_jac o) as [cj|]; [|discriminate].
  destruct (match ro_rho o with None => _ | _ => _ end) as [[]|]; [|discriminate].
  destruct (nleb RX (ro_max_step o) n0) eqn:EM; [discriminate|].
  destruct (validate_tol (ro_rtol_is_float o) (ro_rtol o) (ro_atol o) y0) as [[rt at_]|] eqn:EV; [|discriminate].
  destruct (validated_atol _ _ _ _ _ _ G3 G4 G5 EV) as (r & al & -> & Hr & EB & LB & FB).
  destruct (msqrt _) as [q|]; [|discriminate]. destruct (el_round ELX q) as [mm|]; [|discriminate].
  set (ms := @pymin RX (@pymin RX (ro_max_step o) _) _) in *.
  assert (MS : exists mx, ms = Fin mx /\ 0 < mx /\ mx <= Rabs (tb - t0) /\ (forall M, ro_max_step o = Fin M -> mx <= M)).
  { unfold ms. clear - G1 EM Hne. assert (P : 0 < Rabs (tb - t0)) by (apply Rabs_pos_lt; lra).
    assert (E1 : nabs RX (nsub RX (Fin tb) (Fin t0)) = Fin (Rabs (tb - t0))) by reflexivity. change (num RX) with xr in *. rewrite E1.
    assert (E2 : exists b, nsqrt RX (n_max RX) = Fin b /\ 0 < b).
    { assert (Q : exists M, n_max RX = Fin M /\ 0 < M) by (eexists; split; [reflexivity|]; assert (2 <= 2 ^ 971 )%R by (rewrite <- (pow_1 2) at 1; apply Rle_pow; lra || lia); assert (0 < 2 ^ 971) by (apply pow_lt; lra); try (unfold pow2); try apply Rmult_lt_0_compat; try (apply pow_lt; lra); try (assert (1 < 2 ^ 53) by (apply Rlt_pow_R1; lra || lia); lra)).
      destruct Q as (M & -> & HM). exists (sqrt M). split; [cbn [nsqrt RX xsqrt]; destruct (Rlt_dec M 0); [lra|reflexivity]|apply sqrt_lt_R0; exact HM]. }
    destruct E2 as (b & E2 & Hb). rewrite E2. rewrite n0_RX in EM. destruct (ro_max_step o) as [M| | |]; [| |cbn in EM; discriminate|congruence].
    - rewrite !pymin_fin. assert (0 < M) by (cbn in EM; apply Rleb_false in EM; exact EM). eexists. split; [reflexivity|]. split; [repeat apply Rmin_glb_lt; assumption|]. split.
      + eapply Rle_trans; [apply Rmin_l|apply Rmin_r].
      + intros M' X. injection X as <-. eapply Rle_trans; [apply Rmin_l|apply Rmin_l].
    - assert (X : @pymin RX PInf (Fin (Rabs (tb - t0))) = Fin (Rabs (tb - t0))) by reflexivity. change (num RX) with xr in *. rewrite X. rewrite pymin_fin. eexists. split; [reflexivity|]. split; [apply Rmin_glb_lt; assumption|]. split; [apply Rmin_l|discriminate]. }
  destruct MS as (mx & EMS & M0 & M1 & M2). clearbody ms. subst ms.
  assert (HH : exists hm, @pymax RX (nsqrt RX (n_tiny RX)) (nmul RX (nmul RX (lit 10) (n_small RX)) (if neqb RX (Fin tb) (n_inf RX) then nabs RX (Fin t0) else @pymax RX (nabs RX (Fin t0)) (nabs RX (Fin mx)))) = Fin hm /\ sqrt_tiny <= hm).
  { rewrite tiny_RX, nsmall_RX, lit_RX. change (neqb RX (Fin tb) (n_inf RX)) with false. cbn [nabs RX xabs]. rewrite pymax_fin. cbn [nmul RX xmul]. rewrite pymax_fin. eexists. split; [reflexivity|apply Rmax_l]. }
  destruct HH as (hm & EH & Hm). assert (TP : 0 < sqrt_tiny) by apply sqrt_tiny_pos.
  apply inl_pair_inj in E. destruct E as [<- <-].
  assert (AB : ab = ro_first_step o /\ match ab with None => True | Some x => exists r, x = Fin r /\ 0 < r end).
  { clear - EF G2. destruct (ro_first_step o) as [h|]; [|injection EF as <-; auto]. rewrite n0_RX in EF. destruct (nleb RX h (Fin 0)) eqn:E1; [discriminate|]. destruct (nltb RX _ h) eqn:E2; [discriminate|]. injection EF as <-. split; [reflexivity|].
    destruct h as [x| | |]; cbn in E1, E2; try discriminate; [|elim G2; reflexivity]. exists x. split; [reflexivity|]. apply Rleb_false in E1. exact E1. }
  destruct AB as [AB1 AB2].
  set (lo := Rmin (match ab with Some (Fin x) => x | _ => 1 end) (Rmin sqrt_tiny (Rmin hm mx))).
  assert (HC : rcfg (mkRC f (Fin tb) (direction0 (Fin t0) (Fin tb)) (Fin mx) (Fin r) at_ (@pymax RX (nsqrt RX (n_tiny RX)) (nmul RX (nmul RX (lit 10) (n_small RX)) (if neqb RX (Fin tb) (n_inf RX) then nabs RX (Fin t0) else @pymax RX (nabs RX (Fin t0)) (nabs RX (Fin mx))))) (Z.max mm 2) cj (ro_rho o)) d F tb dir mx r hm al).
  { constructor; cbn [rc_fun rc_tb rc_dir rc_max_step rc_rtol rc_atol rc_hmin rc_mmax rc_rho]; auto; try lia.
    - assert (0 < floor_rtol) by (unfold floor_rtol; apply Rmult_lt_0_compat; [lra|apply Rinv_0_lt_compat, pow_lt; lra]). lra.
    - rewrite Ey in EB. rewrite map_length, Ly in EB. exact EB.
    - rewrite LB, Ey. rewrite map_length. exact Ly.
    - eapply Forall_impl; [|exact FB]. intros a Ha. pose proof sqrt_tiny_pos. unfold floor_atol in Ha. lra.
    - lra. }
  assert (HS : rst d F t0 y 0 (mkRS (Fin t0) y0 ab None n0 y0 (f (Fin t0) y0) [] [] None 0 0 true false n0 0 0 0 [(Fin t0, y0)] [] 0 [])).
  { constructor; cbn [rs_t rs_y rs_absh rs_hold rs_errold rs_yn rs_fn rs_V rs_sprad]; auto; try lra.
    - rewrite Ey. apply HF. exact Ly.
    - exists 0. split; [apply n0_RX|lra].
    - apply n0_RX. }
  exists dir, mx, r, hm, al, lo. split; [exact HC|]. split; [exact Hpos|]. split; [exact HS|].
  assert (LO : low mx hm lo).
  { unfold low, lo. split; [|split].
    - repeat apply Rmin_glb_lt; try lra. destruct ab as [x|]; [|lra]. destruct AB2 as (r2 & -> & H2). exact H2.
    - eapply Rle_trans; [apply Rmin_r|apply Rmin_l].
    - eapply Rle_trans; [apply Rmin_r|apply Rmin_r]. }
  split; [exact LO|]. split.
  { exists t0, y, 0. split; [exact HS|]. split; [reflexivity|]. cbn [rs_absh]. unfold lo. destruct ab as [x|]; [|exact I]. destruct AB2 as (r2 & -> & H2). exists r2. split; [reflexivity|apply Rmin_l]. }
  split; [exact M1|]. split; [exact M2|exact AB1].
Qed.
