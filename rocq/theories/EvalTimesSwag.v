(** Where SWAG evaluates fun: proofs for Prop_EvalTimes.v. *)
From Coq Require Import String ZArith Reals Lra Psatz QArith Qreals Bool Lia List Arith.
From Verif Require Import Arith Common Stiff RK HStart RKInit RX RKReal HStartReal RKInitReal RKStep Ode Swag SwagArr SwagCo SwagGen SwagTop SwagReal.
Import ListNotations.
Close Scope string_scope. Open Scope nat_scope. Open Scope R_scope.

(** the calls are made between t and t + D in the direction d *)
Definition sw_calls_in (t d D : R) (l : list (xr * list xr)) : Prop :=
  Forall (fun p => exists x, fst p = Fin x /\ 0 <= d * (x - t) <= D) l.
Lemma sw_calls_app t d D l l2 : sw_calls_in t d D l -> sw_calls_in t d D l2 -> sw_calls_in t d D (l ++ l2).
Proof. intros H1 H2. apply Forall_app. split; assumption. Qed.
Lemma sw_one t d D h p : 0 <= d * h <= D -> sw_calls_in t d D [(nadd RX (Fin t) (Fin h), p)].
Proof.
  intros H. constructor; [|constructor]. exists (t + h). split; [reflexivity|]. replace (t + h - t) with h by ring. exact H.
Qed.

Lemma rejects_times c tb d ms s i s' i' t h D : scfg c tb d -> rejects c ms s i s' i' -> hinv c d s t h -> d * h <= D ->
  exists l h', s_calls s' = (s_calls s ++ l)%list /\ sw_calls_in t d D l /\ hinv c d s' t h' /\ d * h' <= D.
Proof.
  intros C H. revert h. induction H as [s i|s i s1 s' i' E H IH]; intros h I HD.
  - exists [], h. rewrite app_nil_r. split; [reflexivity|]. split; [constructor|]. auto.
  - pose proof (hi_s _ _ _ _ _ I) as SI. destruct (trial_again _ _ _ _ _ (sc_kmax _ _ _ C) SI E) as (co & phi & p & yp & wt & e & knew & co' & phi' & TD & _ & _ & Es & X & B).
    destruct (retry_h_RX (S i) (erk e) h) as (q & Eq & Hq). pose proof (hi_d _ _ _ _ _ I) as Hd.
    assert (Eh1 : s_h s1 = Fin (h * q)). { rewrite Es. cbn [rejected s_h]. rewrite (hi_h _ _ _ _ _ I). exact Eq. }
    assert (I1 : hinv c d s1 t (h * q)).
    { constructor; [rewrite Es; cbn [rejected s_t]; apply (hi_t _ _ _ _ _ I)|exact Eh1| |exact X]. nra. }
    destruct (IH _ I1 ltac:(nra)) as (l & h' & L1 & L2 & L3 & L4).
    assert (EC : s_calls s1 = (s_calls s ++ [(nadd RX (Fin t) (Fin h), p)])%list).
    { rewrite Es. cbn [rejected s_calls]. rewrite (hi_t _ _ _ _ _ I), (hi_h _ _ _ _ _ I). reflexivity. }
    exists ((nadd RX (Fin t) (Fin h), p) :: l), h'. split; [rewrite L1, EC, <- app_assoc; reflexivity|].
    split; [|auto]. change ((nadd RX (Fin t) (Fin h), p) :: l) with ([(nadd RX (Fin t) (Fin h), p)] ++ l)%list.
    apply sw_calls_app; [apply sw_one; lra|exact L2].
Qed.

Definition sw_out (o : impl_res (SSt RX)) (P : list (xr * list xr) -> Prop) : Prop :=
  match o with IDone s' | IFail s' _ => P (s_calls s') | _ => True end.

Lemma step_times c tb d s t h fuel : scfg c tb d -> hinv c d s t h -> 0 < d * (tb - t) ->
  sw_out (swag_step fuel c s) (fun cl => exists l, cl = (s_calls s ++ l)%list /\ sw_calls_in t d (d * (tb - t)) l).
Proof.
  intros C I Ha.
  assert (Z : exists l, s_calls s = (s_calls s ++ l)%list /\ sw_calls_in t d (d * (tb - t)) l) by (exists []; rewrite app_nil_r; split; [reflexivity|constructor]).
  destruct (step_cases c s fuel (sc_kmax _ _ _ C) (hi_s _ _ _ _ _ I)) as [(_ & S)|(_ & [(m & S)|(_ & SC)])]; [rewrite S| |].
  - unfold sw_out, extrapolated. destruct (kle4_step c s). exact Z.
  - rewrite S. unfold sw_out, started. destruct (kle4_step c s). exact Z.
  - destruct (trial_h_RX c tb d s t h C (hi_t _ _ _ _ _ I) (hi_h _ _ _ _ _ I) (hi_d _ _ _ _ _ I) Ha) as (h0 & E0 & P1 & P2 & P3 & P4 & P5 & P6). rewrite E0 in SC.
    pose proof (started_hinv c d s t h h0 I P1) as I0.
    assert (D0 : d * h0 <= d * (tb - t)).
    { destruct (sc_d _ _ _ C) as [-> | ->]; revert P1 P3 Ha; unfold Rabs; destruct (Rcase_abs h0), (Rcase_abs (tb - t)); lra. }
    assert (EC0 : s_calls (started c s (Fin h0 : num RX)) = s_calls s) by (unfold started; destruct (kle4_step c s); reflexivity).
    destruct SC as [S|[(s1 & i1 & s' & Rj & T & S)|(s1 & i1 & s' & Rj & T & S)]]; rewrite S; [exact Logic.I| |].
    + destruct (rejects_times c tb d _ _ _ _ _ t h0 _ C Rj I0 D0) as (l & h1 & L1 & L2 & I1 & D1). rewrite EC0 in L1.
      destruct (trial_accept _ _ _ _ _ (sc_kmax _ _ _ C) (hi_s _ _ _ _ _ I1) T) as (co & phi & p & yp & wt & e & knew & TD & _ & _ & AS & _).
      pose proof (as_calls _ _ _ _ _ _ _ _ _ _ _ _ AS) as AC. rewrite (hi_t _ _ _ _ _ I1), (hi_h _ _ _ _ _ I1), L1 in AC.
      unfold sw_out. exists (l ++ [(nadd RX (Fin t) (Fin h1), p)] ++ [(nadd RX (Fin t) (Fin h1), s_y s')])%list.
      split; [rewrite AC, !app_assoc; reflexivity|]. pose proof (hi_d _ _ _ _ _ I1) as Hd.
      apply sw_calls_app; [exact L2|]. apply sw_calls_app; apply sw_one; lra.
    + destruct (rejects_times c tb d _ _ _ _ _ t h0 _ C Rj I0 D0) as (l & h1 & L1 & L2 & I1 & D1). rewrite EC0 in L1.
      destruct (trial_small _ _ _ _ _ (sc_kmax _ _ _ C) (hi_s _ _ _ _ _ I1) T) as (co & phi & p & yp & wt & e & knew & co' & phi' & TD & _ & _ & Es & _).
      unfold sw_out. exists (l ++ [(nadd RX (Fin t) (Fin h1), p)])%list. split.
      * unfold swag_abort. cbn [s_calls]. rewrite Es. cbn [rejected s_calls]. rewrite (hi_t _ _ _ _ _ I1), (hi_h _ _ _ _ _ I1), L1, app_assoc. reflexivity.
      * pose proof (hi_d _ _ _ _ _ I1) as Hd. apply sw_calls_app; [exact L2|]. apply sw_one; lra.
Qed.

Theorem swag_times o j fun_ (t0 tb : R) y0 c s n v : t0 <> tb -> y0 <> [] -> so_max o <> NaN -> so_first o <> Some NaN -> junk_ok (Z.to_nat (so_kmax o)) (length y0) j ->
  @swag_init RX o j fun_ (Fin t0) y0 (Fin tb) = inl (c, s) -> swag_hist c (onew s) n v ->
  exists l d, (d = 1 \/ d = -1) /\ 0 < d * (tb - t0) /\ s_calls (ost v) = (s_calls s ++ l)%list /\
    Forall (fun p => exists x, fst p = Fin x /\ 0 <= d * (x - t0) <= d * (tb - t0)) l.
Proof.
  intros H1 H2 H3 H4 J E H. destruct (init_RX o j fun_ t0 tb y0 c s H1 H2 H3 H4 J E) as (d & h & C & Hd & I & _).
  assert (P0 : place c tb d (onew s)) by (exists t0, h; auto).
  enough (Q : exists l, s_calls (ost v) = (s_calls s ++ l)%list /\ sw_calls_in t0 d (d * (tb - t0)) l /\
     (ostat v = ORunning -> exists t, s_t (ost v) = Fin t /\ 0 <= d * (t - t0))).
  { destruct Q as (l & Q1 & Q2 & _). exists l, d. split; [exact (sc_d _ _ _ C)|]. auto. }
  remember (onew s) as v0 eqn:Ev. induction H as [v0|v0 n v1 v2 fu Hw IH X].
  - subst v0. cbn [onew ost]. exists []. rewrite app_nil_r. split; [reflexivity|]. split; [constructor|]. intros _. exists t0. split; [exact (hi_t _ _ _ _ _ I)|lra].
  - specialize (IH Ev P0). subst v0. destruct IH as (l & Q1 & Q2 & Q3).
    pose proof (hist_RX c tb d _ _ _ C P0 Hw) as P1.
    destruct (call_RX c tb d v1 fu v2 C P1 X) as (_ & CE & R1). destruct (Q3 R1) as (t & Et & Ht).
    unfold place in P1. rewrite R1 in P1. destruct P1 as (t' & h1 & I1 & Ha). rewrite (hi_t _ _ _ _ _ I1) in Et. injection Et as ->.
    pose proof (step_times c tb d (ost v1) t h1 fu C I1 Ha) as HT.
    assert (SK : exists l2, s_calls (ost v2) = (s_calls (ost v1) ++ l2)%list /\ sw_calls_in t d (d * (tb - t)) l2).
    { unfold swag_call, ostep in X. rewrite R1 in X. destruct (_ || _).
      - apply OOk_inj in X. subst v2. exists []. rewrite app_nil_r. split; [reflexivity|constructor].
      - unfold swag_impl in X. destruct (swag_step fu c (ost v1)) as [s'|s' msg|e|]; try discriminate; apply OOk_inj in X; subst v2; exact HT. }
    destruct SK as (l2 & S1 & S2). exists (l ++ l2)%list. split; [rewrite S1, Q1, app_assoc; reflexivity|].
    split.
    + apply sw_calls_app; [exact Q2|]. eapply Forall_impl; [|exact S2]. intros p (x & Ex & Hx). exists x. split; [exact Ex|].
      replace (d * (x - t0)) with (d * (x - t) + d * (t - t0)) by ring. replace (d * (tb - t0)) with (d * (tb - t) + d * (t - t0)) by ring. lra.
    + intros R2. destruct CE as [E1 E2 E3|t' E1 E2 E3 E4|msg E1 E2|t' h2 hs h' E1 E2 M St]; try congruence.
      rewrite (hi_t _ _ _ _ _ I1) in E1. injection E1 as <-. exists (t + hs). split; [exact (mv_t _ _ _ _ _ _ _ _ M)|].
      pose proof (mv_dir _ _ _ _ _ _ _ _ M) as [M1 _]. replace (d * (t + hs - t0)) with (d * hs + d * (t - t0)) by ring. lra.
Qed.
