(** All evaluation times of a step lie inside the trial step (exact arithmetic). *)
From Coq Require Import String ZArith Reals Lra Psatz QArith Qreals Bool Lia List.
From Verif Require Import Arith Common Stiff RK RKGen RKHist RKCalls RX RKReal HStart HStartReal RKInit RKInitReal RKStep RKBuilt.
Import ListNotations.
Open Scope R_scope.

Implicit Types (m : Meth RX) (c : Cfg RX) (s : St RX) (v : Solver RX).

Definition nodes01 (C : list (num RX)) : Prop :=
  Forall (fun x => exists cc, x = Fin cc /\ 0 <= cc <= 1) C.

(** p is evaluated at a time between tt and tt + dir*h *)
Definition time_in (r : rconst) (tt h : R) (p : num RX * list (num RX)) : Prop :=
  exists x, fst p = Fin x /\ 0 <= dir r * (x - tt) <= h.

Lemma stage_time_in r C tt h p : rc_ok r -> nodes01 C -> 0 < h ->
  stage_time C (Fin tt) (nmul RX (Fin h) (Fin (dir r))) p -> time_in r tt h p.
Proof.
  intros HR HC Hh. assert (Hdd : dir r * dir r = 1) by (destruct HR as ([E|E]&_); rewrite E; lra).
  change (nmul RX) with xmul. cbn [xmul]. unfold time_in.
  intros [->|(i & Hi & ->)].
  - change (nadd RX) with xadd. cbn [xadd]. eexists; split; [reflexivity|].
    replace (dir r * (tt + h * dir r - tt)) with ((dir r * dir r) * h) by ring. rewrite Hdd. lra.
  - destruct (proj1 (Forall_forall _ C) HC (nth i C n0) (nth_In _ _ Hi)) as (cc & -> & Hcc).
    change (nadd RX) with xadd. change (nmul RX) with xmul. cbn [xadd xmul]. eexists; split; [reflexivity|].
    replace (dir r * (tt + cc * (h * dir r) - tt)) with ((dir r * dir r) * (cc * h)) by ring. rewrite Hdd. nra.
Qed.

Lemma time_in_mono r tt h h' p : h <= h' -> time_in r tt h p -> time_in r tt h' p.
Proof. intros H (x & H1 & H2). exists x. split; auto. lra. Qed.

Definition rstate (x : result RX) : option (St RX) :=
  match x with Done s => Some s | Fail s _ => Some s | _ => None end.

Lemma loop_times m c r C : min_stages m -> has_nodes m C -> nodes01 C -> cfg_is c r -> rc_ok r ->
  forall k s h ms rej s' tt, loop_st r s -> t s = Fin tt -> 0 < h ->
    rstate (rk_loop k m c s (Fin h) (Fin ms) rej) = Some s' ->
    exists l, calls s' = calls s ++ l /\ Forall (time_in r tt h) l.
Proof.
  intros Hmin HN HC Hcfg HR. pose proof (shrink_lt1 r HR) as Hq.
  induction k as [|k IH]; intros s h ms rej s' tt HS Ht Hh H; cbn [rk_loop] in H; [discriminate|].
  pose proof (trial_inv m c s (Fin h) (Fin ms) rej Hmin) as HT.
  assert (Hts : forall s1, tstate (trial_step m c s (Fin h) (Fin ms) rej) = Some s1 ->
      exists l, calls s1 = calls s ++ l /\ Forall (time_in r tt h) l).
  { intros s1 Hs1. destruct (trial_times m c C _ _ _ _ _ Hmin HN Hs1) as (l & El & Fl & _).
    exists l. split; [exact El|]. eapply Forall_impl; [|exact Fl]. intros p Hp.
    destruct Hcfg as (_ & Hd & _). rewrite Ht, Hd in Hp. eapply stage_time_in; eauto. }
  destruct (trial_step m c s (Fin h) (Fin ms) rej) as [s1 hh h1 tn yn en|s1 h1|s1 m1|e];
    try discriminate.
  - destruct (Hts _ eq_refl) as (l & El & Fl).
    destruct HT as (H0 & HCo & Hhh & Htn & Hlt & Hnf & _ & (Ks & HF & Hy & HK & He & _) & _).
    assert (Ht1 : t s1 = Fin tt) by (destruct HCo as (C1&_); congruence).
    unfold finish in H.
    assert (Hd : direction c = Fin (dir r)) by (destruct Hcfg as (_ & Hd & _); exact Hd).
    rewrite Hd in Hhh.
    assert (Htn' : fst (nadd RX (t s1) hh, yn) = nadd RX (Fin tt) hh) by (rewrite Ht1; reflexivity).
    assert (Hend : time_in r tt h (nadd RX (Fin tt) hh, yn)).
    { apply (stage_time_in r C); auto. left. subst hh. reflexivity. }
    destruct (m_fsal m) eqn:Hfs.
    + match type of H with context [diagnose ?a ?b ?x ?d ?z] => destruct (diagnose a b x d z) eqn:Hdg; [|discriminate] end.
      inversion H; subst. apply diagnose_calls_at in Hdg. destruct Hdg as (l2 & _ & E2 & _ & _ & F2 & _).
      cbn [calls t] in E2, F2. exists (l ++ l2). rewrite E2, El, app_assoc. split; [auto|].
      apply Forall_app; split; [exact Fl|]. eapply Forall_impl; [|exact F2].
      intros p Hp. destruct Hend as (x & Ex & Hx). cbn [fst] in Ex. exists x. rewrite Hp, Ht. split; [exact Ex|exact Hx].
    + match type of H with context [diagnose ?a ?b ?x ?d ?z] => destruct (diagnose a b x d z) eqn:Hdg; [|discriminate] end.
      inversion H; subst. apply diagnose_calls_at in Hdg. destruct Hdg as (l2 & _ & E2 & _ & _ & F2 & _).
      cbn [calls t] in E2, F2. eexists (l ++ [_] ++ l2). rewrite E2, El, <- !app_assoc. split; [reflexivity|].
      apply Forall_app; split; [exact Fl|]. apply Forall_app; split.
      * constructor; [|constructor]. rewrite Ht1. exact Hend.
      * eapply Forall_impl; [|exact F2].
        intros p Hp. destruct Hend as (x & Ex & Hx). cbn [fst] in Ex. exists x. rewrite Hp, Ht. split; [exact Ex|exact Hx].
  - destruct (Hts _ eq_refl) as (l & El & Fl).
    destruct HT as (H0 & HCo & Hsc & Hmx & Hnf & (en & Hh1 & Hen)).
    assert (xltb en (Fin 1) = false /\ xisnan en = false) as [Hlt Hnan].
    { destruct Hen as [(_ & Hgt & _)|(Hlt & Hnan & _)].
      - rewrite n1_RX in Hgt. cbn [nltb RX] in Hgt.
        destruct en; simpl in *; try discriminate; auto.
        split; auto. apply Rltb_true in Hgt. apply Rltb_false. lra.
      - rewrite n1_RX in Hlt. auto. }
    destruct (reject_factor_bounds c r en Hcfg HR Hlt Hnan) as (q & Hq1 & Hq2).
    rewrite Hq1 in Hh1. change (nmul RX) with xmul in Hh1. cbn [xmul] in Hh1. subst h1.
    pose proof (reject_loop_st r s s1 HCo Hsc Hmx HS) as HS1.
    assert (0 < mf r) by (destruct HR as (_&_&_&_&_&_&_&HH); lra).
    assert (Hhq : 0 < h * q) by (apply Rmult_lt_0_compat; lra).
    destruct (IH s1 (h * q) ms true s' tt HS1) as (l2 & E2 & F2); auto.
    { destruct HCo as (C1&_). congruence. }
    exists (l ++ l2). rewrite E2, El, app_assoc. split; [auto|].
    apply Forall_app; split; [exact Fl|]. eapply Forall_impl; [|exact F2].
    intros p. apply time_in_mono. nra.
  - inversion H; subst. apply Hts. reflexivity.
Qed.

Theorem step_times m c r C k s s' : min_stages m -> has_nodes m C -> nodes01 C -> good_cfg c r -> live r s ->
  dir r * (tb r - tval s) <> 0 ->
  rstate (step_impl k m c s) = Some s' ->
  exists l, calls s' = calls s ++ l /\ Forall (time_in r (tval s) (trial0 c r s)) l.
Proof.
  intros Hmin HN HC HG HL Hne H.
  pose proof (trial0_pos c r s HG HL Hne) as Hpos.
  destruct (step_unfold m c r k s HG HL) as (sc & Hsc & Hms & _ & He). rewrite He in H.
  destruct HG as (HCf & HR & HM). destruct HL as [HL (h & Hh & Hhp)].
  assert (HS : loop_st r (with_trial s sc (max_factor s) (jflstp s) (nfs s) (K s) (calls s))).
  { destruct sc; [apply loop_st_with; auto|]. apply loop_st_with; auto. left. symmetry; auto. }
  destruct HL as ((tt & Ht) & _).
  replace (tval s) with tt by (unfold tval; rewrite Ht; auto).
  destruct (loop_times m c r C Hmin HN HC HCf HR _ _ _ _ _ _ tt HS Ht Hpos H) as (l & E & F).
  exists l. auto.
Qed.

Lemma ode_step_st m c k v v' : ode_step k m c v = StepOk v' ->
  calls (st v') = calls (st v) \/ rstate (step_impl k m c (st v)) = Some (st v').
Proof.
  unfold ode_step. destruct (stat v); try discriminate.
  destruct (_ || _); [intros H; inversion H; subst; auto|].
  destruct (step_impl k m c (st v)); try discriminate; intros H; inversion H; subst; auto.
Qed.

(** default max_step: no evaluation between t0 and beyond t_bound in any history *)
Theorem history_times m c r C v0 n v : min_stages m -> has_nodes m C -> nodes01 C -> good_cfg c r ->
  inv c r v0 -> max_step c = PInf -> stat v0 = Running -> history m c v0 n v ->
  exists l, calls (st v) = calls (st v0) ++ l /\
    Forall (fun p => exists x, fst p = Fin x /\ 0 <= dir r * (x - tval (st v0)) /\ 0 <= dir r * (tb r - x)) l.
Proof.
  intros Hmin HN HC HG HI HM HR0 H. induction H as [v|v0 n v1 v2 k H IH HS].
  - exists []. rewrite app_nil_r. auto.
  - destruct (IH HI HR0) as (l & E & F).
    pose proof (history_inv m c r _ _ _ Hmin HG HI H) as [HL HI1].
    destruct (history_within m c r _ _ _ Hmin HG HI HM HR0 H) as (W1 & W2 & _).
    assert (HR1 : stat v1 = Running) by (unfold ode_step in HS; destruct (stat v1); auto; discriminate).
    rewrite HR1 in HI1.
    destruct (ode_step_st m c k v1 v2 HS) as [E1|E1]; [exists l; rewrite E1; auto|].
    assert (Hne : dir r * (tb r - tval (st v1)) <> 0) by lra.
    destruct (step_times m c r C k _ _ Hmin HN HC HG HL Hne E1) as (l2 & E2 & F2).
    exists (l ++ l2). rewrite E2, E, app_assoc. split; [auto|].
    apply Forall_app; split; [exact F|]. eapply Forall_impl; [|exact F2].
    intros p (x & Hx & Hx1 & Hx2). exists x. split; [exact Hx|].
    assert (HP : max_above_min c r (st v1)) by (unfold max_above_min; rewrite HM; exact I).
    destruct (trial0_le c r (st v1) HG HL HP) as [T1 _].
    assert (Hdist : dist r (st v1) = dir r * (tb r - tval (st v1))).
    { unfold dist. destruct HG as (_ & ([Ed|Ed]&_) & _); rewrite Ed in *.
      - rewrite Rabs_pos_eq by lra. lra.
      - rewrite Rabs_left by lra. lra. }
    lra.
Qed.
