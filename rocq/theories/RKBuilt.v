(** Solvers obtained from the constructors (RungeKutta / RungeKuttaNystrom), and
    the consequences for all their histories. *)
From Coq Require Import String ZArith Reals Lra Psatz QArith Qreals Bool Lia List.
From Verif Require Import Arith Common Stiff RK RKGen RKHist RX RKReal HStart HStartReal RKInit RKInitReal RKStep.
Import ListNotations.
Open Scope R_scope.

(** Ordinary arguments: the interval is not empty, there is at least one
    unknown, the controller has 0 < safety < 1, no option is nan.  Nothing is
    asked of the right-hand side [fun_] or of the initial values. *)
Record ordinary (k : Cls RX) (o : Opts RX) (t0 tb : R) (y0 : list (num RX)) : Prop := {
  ord_interval : t0 <> tb;
  ord_y0 : y0 <> [];
  ord_nodes : allfin (k_C k);
  ord_sc : sc_ok (sc_or (o_sc o) (k_sc k));
  ord_max : o_max_step o <> NaN;
  ord_first : o_first_step o <> Some NaN
}.

(** [built o fun_ t0 y0 tb c s]: some explicit RK or Nystrom class constructed
    the solver with configuration c and initial state s. *)
Definition built (o : Opts RX) fun_ (t0 tb : R) y0 (c : Cfg RX) (s : St RX) : Prop :=
  (exists k, ordinary k o t0 tb y0 /\ rk_init k o fun_ (Fin t0) y0 (Fin tb) = inl (c, s)) \/
  (exists k vi, ordinary k o t0 tb y0 /\ rkn_init k vi o fun_ (Fin t0) y0 (Fin tb) = inl (c, s)).

Lemma rk_init_consts k o fun_ t0 y0 tb c s : rk_init k o fun_ t0 y0 tb = inl (c, s) ->
  h_min_b c = Fin (sqrt (/ 2 ^ 1022)) /\ tiny_err c = Fin (sqrt (/ 2 ^ 1022)).
Proof.
  unfold rk_init. intros H.
  destruct (nleb RX (o_max_step o) n0); [discriminate|].
  destruct (validate_tol (o_rtol_is_float o) (o_rtol o) (o_atol o) y0) as [[rt at_]|]; [|discriminate].
  destruct (init_stiff (k_stab k) (o_stiff o)) as [nsd|]; [|discriminate].
  destruct (sc_coefs (sc_or (o_sc o) (k_sc k))) as [[[[kb1 kb2] al] gg]|]; [|discriminate].
  cbv zeta in H.
  match type of H with match ?x with inl _ => _ | inr _ => _ end = _ => destruct x as [[? ?]|]; [|discriminate] end.
  apply inl_pair_inj in H. destruct H as [<- _]. cbn [h_min_b tiny_err].
  unfold h_min_b0. cbn [nsqrt n_tiny RX xsqrt].
  assert (0 < / 2 ^ 1022) by (apply Rinv_0_lt_compat, pow_lt; lra).
  destruct (Rlt_dec (/ 2 ^ 1022) 0); [lra|]. auto.
Qed.

Lemma good_cfg_ext c c' r :
  t_bound c' = t_bound c -> direction c' = direction c -> h_min_a c' = h_min_a c ->
  h_min_b c' = h_min_b c -> tiny_err c' = tiny_err c -> safety c' = safety c ->
  safety_sc c' = safety_sc c -> minbeta1 c' = minbeta1 c -> minbeta2 c' = minbeta2 c ->
  minalpha c' = minalpha c -> error_exponent c' = error_exponent c ->
  min_factor c' = min_factor c -> max_step c' = max_step c -> good_cfg c r -> good_cfg c' r.
Proof.
  intros E1 E2 E3 E4 E5 E6 E7 E8 E9 E10 E11 E12 E13 (H1 & H2 & H3).
  unfold good_cfg, cfg_is, max_ok in *. rewrite E1, E2, E3, E4, E5, E6, E7, E8, E9, E10, E11, E12, E13.
  auto.
Qed.

Theorem built_good o fun_ t0 tb y0 c s : built o fun_ t0 tb y0 c s ->
  exists r, good_cfg c r /\ good_st r s /\ RKReal.tb r = tb /\ mf r = 1/5 /\
    0 < dir r * (tb - t0) /\ hb r = sqrt (/ 2 ^ 1022) /\ te r = sqrt (/ 2 ^ 1022) /\
    t s = Fin t0 /\ y s = y0 /\ fresh c s /\ max_step c = o_max_step o /\
    h_previous s = None /\ standard_sc s = true /\ y0 <> [] /\ t0 <> tb.
Proof.
  assert (Hdir : forall c r, good_cfg c r -> forall s, good_st r s -> t s = Fin t0 -> RKReal.tb r = tb -> t0 <> tb ->
     0 < dir r * (tb - t0)).
  { intros c' r (_ & HR & _) s' ((tt & Ht & Hd) & _) Ht0 Htb Hne. rewrite Ht0 in Ht.
    injection Ht as <-. rewrite Htb in Hd. destruct HR as ([E|E]&_); rewrite E in *; lra. }
  intros [(k & [H1 H2 H3 H4 H5 H6] & H)|(k & vi & [H1 H2 H3 H4 H5 H6] & H)].
  - destruct (rk_init_good k o fun_ t0 tb y0 c s H H1 H2 H3 H4 H5 H6)
      as (r & HG & HS & E1 & E2 & E3 & E4 & E5 & E6 & E7 & E8 & E9).
    exists r. split; [exact HG|]. split; [exact HS|]. split; [exact E1|]. split; [exact E2|].
    split; [eapply Hdir; eauto|].
    assert (Hb : h_min_b c = Fin (sqrt (/ 2 ^ 1022)) /\ tiny_err c = Fin (sqrt (/ 2 ^ 1022))).
    { eapply rk_init_consts; eauto. }
    destruct Hb as [Hb1 Hb2].
    pose proof HG as ((_&_&_&G4&G5&_) & _). rewrite Hb1 in G4. rewrite Hb2 in G5.
    split; [injection G4; auto|]. split; [injection G5; auto|].
    split; [exact E3|]. split; [exact E4|]. split; [unfold fresh; rewrite E3, E4; exact E5|].
    split; [exact E6|]. split; [exact E8|]. split; [exact E9|]. auto.
  - unfold rkn_init in H.
    match type of H with context [rk_init k ?o' _ _ _ _] => set (o1 := o') in * end.
    destruct (rk_init k o1 fun_ (Fin t0) y0 (Fin tb)) as [[c1 s1]|] eqn:HI; [|discriminate].
    destruct (init_stiff (k_stab k) (o_stiff o)); [|discriminate].
    match type of H with (if ?b then _ else _) = _ => destruct b; [discriminate|] end.
    match type of H with (if ?b then _ else _) = _ => destruct b; [discriminate|] end.
    destruct (rk_init_good k o1 fun_ t0 tb y0 c1 s1 HI H1 H2 H3)
      as (r & HG & HS & E1 & E2 & E3 & E4 & E5 & E6 & E7 & E8 & E9); auto.
    assert (Hb : h_min_b c1 = Fin (sqrt (/ 2 ^ 1022)) /\ tiny_err c1 = Fin (sqrt (/ 2 ^ 1022))).
    { eapply rk_init_consts; eauto. }
    destruct Hb as [Hb1 Hb2].
    apply inl_pair_inj in H. destruct H as [Hc Hs].
    exists r.
    assert (HG' : good_cfg c r) by (subst c; eapply good_cfg_ext; [..|exact HG]; reflexivity).
    assert (HS' : good_st r s).
    { subst s. destruct HS as (S1 & S2 & S3 & S4). split; [exact S1|]. split; [exact S2|].
      split; [exact S3|]. cbn [standard_sc]. rewrite E9. discriminate. }
    split; [exact HG'|]. split; [exact HS'|]. split; [exact E1|]. split; [exact E2|].
    split; [apply (Hdir c r HG' s HS'); auto; subst s; exact E3|].
    pose proof HG as ((_&_&_&G4&G5&_) & _). rewrite Hb1 in G4. rewrite Hb2 in G5.
    split; [injection G4; auto|]. split; [injection G5; auto|].
    subst c s. cbn [t y f max_step h_previous standard_sc].
    split; [exact E3|]. split; [exact E4|]. split; [unfold fresh; cbn [f fn t y]; rewrite E5, E3, E4, E7; reflexivity|].
    split; [exact E6|]. auto.
Qed.

Lemma built_inv o fun_ t0 tb y0 c s : built o fun_ t0 tb y0 c s ->
  exists r, good_cfg c r /\ inv c r (new_solver s) /\ RKReal.tb r = tb /\ tval s = t0 /\
    0 < dir r * (tb - t0) /\ hb r = sqrt (/ 2 ^ 1022) /\ fresh c s /\ max_step c = o_max_step o.
Proof.
  intros H. destruct (built_good _ _ _ _ _ _ _ H) as (r & HG & HS & E1 & E2 & Hd & Hb & Ht & E3 & E4 & E5 & E6 & _).
  exists r. split; [exact HG|].
  assert (Hv : tval s = t0) by (unfold tval; rewrite E3; auto).
  split; [split; [apply good_live; exact HS|cbn [stat new_solver st]; rewrite E1, Hv; exact Hd]|].
  auto 8.
Qed.

(** the quantity min_step computed at the start of step() (common.py 312-315) *)
Definition code_min_step (c : Cfg RX) (s : St RX) : num RX :=
  pymax (nmul RX (h_min_a c) (nadd RX (nabs RX (t s)) (h_abs s))) (h_min_b c).

Lemma code_min_step_val c r s : good_cfg c r -> live r s -> code_min_step c s = Fin (min_step_at r s).
Proof.
  intros ((_&_&Ha&Hb&_) & _) (((tt & Ht) & _) & (h & Hh & _)).
  unfold code_min_step, min_step_at, tval, hval, min_step_of. rewrite Ha, Hb, Ht, Hh.
  change (nabs RX) with xabs. change (nadd RX) with xadd. change (nmul RX) with xmul. cbn [xabs xadd xmul].
  rewrite pymax_fin. reflexivity.
Qed.

Lemma max_above_min_code c r s : good_cfg c r -> live r s ->
  xleb (code_min_step c s) (max_step c) = true -> max_above_min c r s.
Proof.
  intros HG HL. rewrite (code_min_step_val c r s HG HL). unfold max_above_min.
  destruct (max_step c); simpl; auto. intros H. apply Rleb_true in H. exact H.
Qed.

(** times of all histories, default max_step = inf *)
Lemma history_within m c r v0 n v : min_stages m -> good_cfg c r -> inv c r v0 ->
  max_step c = PInf -> stat v0 = Running ->
  history m c v0 n v -> 0 <= dir r * (RKReal.tb r - tval (st v)) /\ 0 <= dir r * (tval (st v) - tval (st v0)) /\
    (stat v = Finished -> tval (st v) = RKReal.tb r).
Proof.
  intros Hmin HG HI HM HR0 H. induction H as [v|v0 n v1 v2 k H IH HS].
  - destruct HI as [_ HI]. rewrite HR0 in *. split; [lra|]. split; [|discriminate].
    replace (tval (st v) - tval (st v)) with 0 by ring. lra.
  - specialize (IH HI HR0). destruct IH as (I1 & I2 & _).
    pose proof (history_inv m c r _ _ _ Hmin HG HI H) as [HL HI1].
    destruct (ode_step_ok m c k v1 v2 Hmin HS) as [Hr [Hc|[Hc|Hc]]].
    + destruct Hc as (_ & _ & _ & Ht & _). destruct HG as ((Htb & _) & HR & _).
      assert (Hv : tval (st v2) = RKReal.tb r) by (unfold tval; rewrite Ht, Htb; auto).
      rewrite Hv. split; [replace (RKReal.tb r - RKReal.tb r) with 0 by ring; lra|].
      split; [|auto]. lra.
    + destruct Hc as (_ & Hst & Hdone). rewrite Hr in HI1.
      destruct (step_monotone m c r k (st v1) (st v2) Hmin HG HL HI1) as (M1 & M2 & _); auto.
      { unfold max_above_min. rewrite HM. exact I. }
      split; [exact M2|]. split; [lra|].
      intros HF. unfold ode_step in HS. rewrite Hr in HS.
      destruct (Nat.eqb (length (y (st v1))) 0 || neqb RX (t (st v1)) (t_bound c)) eqn:E0.
      * inversion HS; subst v2. unfold tval. cbn [st t]. destruct HG as ((Htb & _) & _). rewrite Htb. auto.
      * rewrite Hdone in HS. inversion HS as [[HE]]. rewrite <- HE in HF. cbn [stat st] in HF.
        destruct (step_basic m c r k (st v1) (st v2) Hmin HG HL) as (_ & _ & _ & _ & _ & _ & _ & HL2 & _); auto; [lra|].
        destruct HL2 as (((tt & Ht) & _) & _). destruct HG as ((Htb & Hdir & _) & HR & _).
        rewrite Ht, Htb, Hdir in HF. change (nsub RX) with xsub in HF. change (nmul RX) with xmul in HF.
        unfold xsub in HF. cbn [xopp xadd xmul] in HF. cbn in HF.
        replace (Q2R 0) with 0 in HF by (unfold Q2R; simpl; lra).
        destruct (Rleb_spec 0 (dir r * (tt + - RKReal.tb r))); [|discriminate].
        rewrite <- HE. unfold tval in *. cbn [st]. rewrite Ht in *.
        destruct HR as ([E|E]&_); rewrite E in *; lra.
    + destruct Hc as (msg & Es & (C1 & _) & _).
      unfold tval in *. rewrite C1. split; [exact I1|]. split; [exact I2|]. congruence.
Qed.
