(** Where CKdisc evaluates fun: proofs for Prop_EvalTimes.v. *)
From Coq Require Import String ZArith Reals Lra Psatz QArith Qreals Bool Lia List.
From Verif Require Import Arith Common Stiff RK RKGen RKHist RX RKReal HStart RKInit RKInitReal RKStep RKBuilt RKTop NormReal SpecRK
  Tableaux Classes Dense Ode CK CKGen CKReal CKTop.
Import ListNotations.
Close Scope string_scope.
Open Scope nat_scope.
(** an overflow leaves the calls of the whole trial in the log *)
Lemma ck_abort_calls {A : Arith} (c : Cfg A) (s : CKst A) ha ms rej s' msg : ck_trial c s ha ms rej = CkAbort s' msg ->
  s' = s \/ ck_new_calls (ckb s) (ckb s') (nmul A ha (direction c)).
Proof.
  unfold ck_trial. destruct (nltb A ha ms); [intros H; injection H as <- _; left; reflexivity|].
  set (s0 := ckb s). set (h := nmul A ha (direction c)). change (CKdisc_meth (length (y s0))) with (ck_m s0).
  destruct (stages (ck_m s0) (fn c) (t s0) (y s0) h 1 [f s0] (calls s0)) as [K1 cl1] eqn:S1.
  assert (O0 : ck_ok c s0 h [f s0]) by (split; [reflexivity|intros i Hi; simpl in Hi; lia]).
  destruct (stages_more c s0 h 1 _ _ _ _ O0 ltac:(simpl; lia) ltac:(simpl; lia) S1) as (O1 & L1 & _ & l1 & C1 & N1 & F1).
  cbn [length] in L1. destruct (nltb A _ _); [|discriminate].
  destruct (stages (ck_m s0) (fn c) (t s0) (y s0) h 2 K1 cl1) as [K2 cl2] eqn:S2.
  destruct (stages_more c s0 h 2 _ _ _ _ O1 ltac:(lia) ltac:(lia) S2) as (O2 & L2 & _ & l2 & C2 & N2 & F2).
  rewrite L1 in L2. cbn in L2. cbv zeta. destruct (nltb A _ _).
  2:{ destruct (nltb A _ n1); [|discriminate]. destruct (ck_cand _ _ _ _ _ _ _) as [yn en]. destruct (nltb A en n1); discriminate. }
  destruct (stages (ck_m s0) (fn c) (t s0) (y s0) h 2 K2 cl2) as [K3 cl3] eqn:S3.
  destruct (stages_more c s0 h 2 _ _ _ _ O2 ltac:(lia) ltac:(lia) S3) as (O3 & L3 & _ & l3 & C3 & N3 & F3).
  destruct (ck_cand c (lv CKdisc_B) _ _ _ _ _) as [y5 en5]. destruct (nltb A _ n1); [discriminate|].
  destruct (_ || _).
  - intros H. injection H as <- _. right. exists (l1 ++ l2 ++ l3)%list.
    split; [cbn; rewrite C3, C2, C1, !app_assoc; reflexivity|].
    split; [rewrite !app_length; lia|]. apply Forall_app; split; auto. apply Forall_app; auto.
  - destruct (ck_cand c (row 1 CKdisc_B_fallback) _ _ _ _ _) as [y3 en3]. destruct (_ && _); [discriminate|].
    destruct (nltb A _ n1); [|discriminate]. destruct (ck_cand _ _ _ _ _ _ _) as [yn en]. destruct (nltb A en n1); discriminate.
Qed.

Open Scope R_scope.

Implicit Types (c : Cfg RX) (s : CKst RX).

(** the calls are made between t and t + D in the direction d *)
Definition ck_calls_in (t d D : R) (l : list (xr * list xr)) : Prop :=
  Forall (fun p => exists x, fst p = Fin x /\ 0 <= d * (x - t) <= D) l.
Lemma ck_calls_app t d D l l2 : ck_calls_in t d D l -> ck_calls_in t d D l2 -> ck_calls_in t d D (l ++ l2).
Proof. intros H1 H2. apply Forall_app. split; assumption. Qed.

Lemma ck_node i : exists q, nth i (@lv RX CKdisc_C) (@n0 RX) = Fin q /\ 0 <= q <= 1.
Proof.
  assert (H : Forall (fun x : num RX => exists q, x = Fin q /\ 0 <= q <= 1) (@lv RX CKdisc_C)).
  { unfold lv. apply Forall_forall. intros x Hx. apply in_map_iff in Hx. destruct Hx as (q & <- & Hq).
    assert (B : forallb (fun q => Qle_bool 0 q && Qle_bool q 1) CKdisc_C = true) by (vm_compute; reflexivity).
    rewrite forallb_forall in B. specialize (B q Hq). apply andb_true_iff in B. destruct B as [B1 B2].
    apply Qle_bool_iff in B1, B2. apply Qle_Rle in B1, B2. exists (Q2R q). split; [reflexivity|].
    rewrite RMicromega.Q2R_0, RMicromega.Q2R_1 in *. lra. }
  destruct (Nat.lt_ge_cases i (length (@lv RX CKdisc_C))) as [L|L].
  - rewrite Forall_forall in H. apply H. apply nth_In. exact L.
  - rewrite nth_overflow by exact L. exists 0. rewrite n0_RX. split; [reflexivity|lra].
Qed.

Lemma ck_new_in (s0 s0' : St RX) t d h D : (d = 1 \/ d = -1) -> RK.t s0 = Fin t -> 0 <= h <= D -> ck_new_calls s0 s0' (Fin (h * d)) ->
  exists l, calls s0' = (calls s0 ++ l)%list /\ ck_calls_in t d D l.
Proof.
  intros Hd Et Hh (l & E & _ & H). exists l. split; [exact E|]. eapply Forall_impl; [|exact H]. intros p (i & _ & Ep).
  destruct (ck_node i) as (q & Eq & Hq). rewrite Eq, Et in Ep. cbn [nmul nadd RX xmul xadd] in Ep.
  exists (t + q * (h * d)). split; [exact Ep|].
  replace (d * (t + q * (h * d) - t)) with (d * d * (q * h)) by ring.
  assert (Hc2 : d * d = 1) by (destruct Hd as [-> | ->]; lra). rewrite Hc2, Rmult_1_l. split; [nra|].
  apply Rle_trans with (1 * h); [apply Rmult_le_compat_r; lra|lra].
Qed.

Definition ck_out (o : impl_res (CKst RX)) (P : list (xr * list xr) -> Prop) : Prop :=
  match o with IDone s' | IFail s' _ => P (calls (ckb s')) | _ => True end.

Lemma ck_loop_times c d t : direction c = Fin d -> (d = 1 \/ d = -1) -> forall k s h ms rej D, ck_ranges s -> RK.t (ckb s) = Fin t -> 0 < h <= D ->
  ck_out (ck_loop k c s (Fin h) (Fin ms) rej) (fun cl => exists l, cl = (calls (ckb s) ++ l)%list /\ ck_calls_in t d D l).
Proof.
  intros Ed Hd. induction k as [|k IH]; intros s h ms rej D HR Et Hh; cbn [ck_loop]; [exact I|].
  pose proof (ck_trial_ranges c s (Fin h) (Fin ms) rej HR) as HRR.
  pose proof (ck_trial_inv c s (Fin h) (Fin ms) rej) as HT. cbv zeta in HT.
  destruct (ck_trial c s (Fin h) (Fin ms) rej) as [s1 m1|s1 h1|s1 ord hh h1 yn] eqn:ET.
  - cbn [ck_out]. destruct (ck_abort_calls _ _ _ _ _ _ _ ET) as [->|HN].
    + exists []. rewrite app_nil_r. split; [reflexivity|constructor].
    + rewrite Ed in HN. change (nmul RX (Fin h) (Fin d)) with (Fin (h * d)) in HN. exact (ck_new_in _ _ t d h D Hd Et ltac:(lra) HN).
  - destruct (ck_reject_shrinks c s h (Fin ms) rej s1 h1 HR ET) as (q & -> & Hq).
    destruct HT as (_ & HC & _ & _ & _ & HN & _). rewrite Ed in HN. change (nmul RX (Fin h) (Fin d)) with (Fin (h * d)) in HN.
    destruct (ck_new_in _ _ t d h D Hd Et ltac:(lra) HN) as (l & El & Hl).
    assert (Et1 : RK.t (ckb s1) = Fin t) by (destruct HC as (C1 & _); rewrite C1; exact Et).
    pose proof (IH s1 (h * q) ms true D HRR Et1 ltac:(nra)) as H.
    unfold ck_out in *. destruct (ck_loop k c s1 (Fin (h * q)) (Fin ms) true) as [s'|s' msg|e|]; try exact I;
      destruct H as (l2 & E2 & I2); (exists (l ++ l2)%list; split; [rewrite E2, El, app_assoc; reflexivity|apply ck_calls_app; assumption]).
  - destruct (ck_accept_real c s h (Fin ms) rej s1 ord hh h1 yn d Ed ltac:(lra) ET) as (_ & B2 & _).
    destruct HT as (_ & HC & _ & _ & HN & _). rewrite Ed in HN. change (nmul RX (Fin h) (Fin d)) with (Fin (h * d)) in HN.
    destruct (ck_new_in _ _ t d h D Hd Et ltac:(lra) HN) as (l & El & Hl).
    cbn [ck_out ck_finish ckb calls]. exists (l ++ [(nadd RX (RK.t (ckb s1)) hh, yn)])%list.
    split; [rewrite El, app_assoc; reflexivity|]. apply ck_calls_app; [exact Hl|]. constructor; [|constructor].
    exists (t + ck_theta ord * h * d). cbn [fst]. destruct HC as (C1 & _). rewrite C1, Et, B2. split; [reflexivity|].
    pose proof (theta_pos ord) as Th. set (th := ck_theta ord) in *.
    replace (d * (t + th * h * d - t)) with (d * d * (th * h)) by ring.
    assert (Hc2 : d * d = 1) by (destruct Hd as [-> | ->]; lra). rewrite Hc2, Rmult_1_l. split; [nra|].
    apply Rle_trans with (1 * h); [apply Rmult_le_compat_r; lra|lra].
Qed.

Lemma ck_step_times c r k s : good_cfg c r -> ck_live r s -> 0 < dir r * (tb r - tval (ckb s)) -> max_above_min c r (ckb s) ->
  ck_out (ck_step_impl k c s) (fun cl => exists l, cl = (calls (ckb s) ++ l)%list /\
    ck_calls_in (tval (ckb s)) (dir r) (dir r * (tb r - tval (ckb s))) l).
Proof.
  intros HG (HL & Hsc & HR) Hd HP. unfold ck_step_impl.
  destruct (ck_reassess c r (ckb s) HG HL) as (sc & Er & _ & _). rewrite Er.
  pose proof (trial0_pos c r (ckb s) HG HL ltac:(lra)) as Hpos. destruct (trial0_le c r (ckb s) HG HL HP) as [T1 _].
  destruct HG as ((_ & Hdd & _) & (Hdir & _) & _).
  assert (Dd : dist r (ckb s) = dir r * (tb r - tval (ckb s))).
  { unfold dist. destruct Hdir as [E|E]; rewrite E in *; [rewrite Rabs_pos_eq|rewrite Rabs_left1]; lra. }
  rewrite <- Dd. destruct HL as (((tt & Ht) & _) & _). assert (Et : tval (ckb s) = tt) by (unfold tval; rewrite Ht; reflexivity). rewrite Et.
  match goal with |- ck_out (ck_loop _ _ ?x _ _ _) _ => assert (HRx : ck_ranges x) by exact HR; assert (Hx : RK.t (ckb x) = Fin tt) by exact Ht end.
  exact (ck_loop_times c (dir r) tt Hdd Hdir k _ _ _ false (dist r (ckb s)) HRx Hx (conj Hpos T1)).
Qed.

Theorem ck_times_lim o fun_ t0 tb y0 c s n v : ck_built o fun_ t0 tb y0 c s ->
  ohist ck_view (t_bound c) (direction c) (fun k => ck_step_impl k c) (onew s) n v ->
  (forall j w, (j < n)%nat -> ohist ck_view (t_bound c) (direction c) (fun k => ck_step_impl k c) (onew s) j w ->
     max_step c = PInf \/ xleb (code_min_step c (ckb (ost w))) (max_step c) = true) ->
  exists l d, (d = 1 \/ d = -1) /\ 0 < d * (tb - t0) /\ calls (ckb (ost v)) = (calls (ckb s) ++ l)%list /\
    Forall (fun p => exists x, fst p = Fin x /\ 0 <= d * (x - t0) <= d * (tb - t0)) l.
Proof.
  intros HB HH HM.
  destruct (ck_built_good _ _ _ _ _ _ _ HB) as (r & HG & HL0 & E1 & Hd & Hb & Et & _).
  assert (Hcd : dir r = 1 \/ dir r = -1) by (destruct HG as (_ & (D & _) & _); exact D).
  remember (onew s) as v0 eqn:Ev.
  enough (Q : exists l, calls (ckb (ost v)) = (calls (ckb s) ++ l)%list /\ ck_calls_in t0 (dir r) (dir r * (tb - t0)) l /\
     (ostat v = ORunning -> 0 <= dir r * (tval (ckb (ost v)) - t0))).
  { destruct Q as (l & Q1 & Q2 & _). exists l, (dir r). auto. }
  induction HH as [v0|v0 n v1 v2 k H IH HS].
  - subst v0. exists []. rewrite app_nil_r. split; [reflexivity|]. split; [constructor|]. cbn [onew ost]. unfold tval. rewrite Et. lra.
  - assert (HMn := HM n v1 ltac:(lia) H). specialize (IH Ev (fun j w Hj => HM j w ltac:(lia))). destruct IH as (l & Q1 & Q2 & Q3). subst v0.
    assert (HA : ck_after o fun_ t0 tb y0 c n v1) by (exists s; split; [exact HB|exact H]).
    assert (R1 : ostat v1 = ORunning) by (unfold ostep in HS; destruct (ostat v1); [reflexivity|discriminate|discriminate]).
    specialize (Q3 R1).
    destruct (ck_step_cases _ _ _ _ _ _ _ _ _ _ HA HS) as (r' & HG' & F1 & F2 & _ & EM & _ & _ & _ & (I1 & _) & Ah & HCs).
    assert (Er : dir r' = dir r).
    { destruct HG as ((_ & D1 & _) & _). destruct HG' as ((_ & D2 & _) & _). congruence. }
    assert (MA : max_above_min c r' (ckb (ost v1))) by (destruct HMn as [E|E]; [unfold max_above_min; rewrite E; exact I|exact (max_above_min_code c r' _ HG' (proj1 I1) E)]).
    assert (Ah' : 0 < dir r' * (RKReal.tb r' - tval (ckb (ost v1)))) by (rewrite F1; exact Ah).
    pose proof (ck_step_times c r' k (ost v1) HG' I1 Ah' MA) as HT. rewrite F1, Er in HT. rewrite Er in Ah.
    assert (TT : forall l2, ck_calls_in (tval (ckb (ost v1))) (dir r) (dir r * (tb - tval (ckb (ost v1)))) l2 -> ck_calls_in t0 (dir r) (dir r * (tb - t0)) l2).
    { intros l2 H2. eapply Forall_impl; [|exact H2]. intros p (x & Ex & Hx). exists x. split; [exact Ex|]. clear - Hx Q3 Ah. set (u := dir r) in *. split; nra. }
    destruct HCs as [(HD & _ & _ & HCs)|[(msg & HF & Es & _)|(He & _ & Es)]].
    + rewrite HD in HT. destruct HT as (l2 & T1 & T2). exists (l ++ l2)%list. split; [rewrite T1, Q1, app_assoc; reflexivity|].
      split; [apply ck_calls_app; [exact Q2|apply TT; exact T2]|]. intros _.
      destruct (ck_step_monotone c r' k _ _ HG' I1 Ah' MA HD) as (M1 & _). rewrite Er in M1. nra.
    + rewrite HF in HT. destruct HT as (l2 & T1 & T2). exists (l ++ l2)%list. split; [rewrite T1, Q1, app_assoc; reflexivity|].
      split; [apply ck_calls_app; [exact Q2|apply TT; exact T2]|]. intros E. rewrite Es in E. discriminate.
    + assert (EC : calls (ckb (ost v2)) = calls (ckb (ost v1))).
      { unfold ostep in HS. rewrite R1 in HS. cbn [ck_view v_n v_t] in HS. rewrite He in HS. cbn [length Nat.eqb orb] in HS. injection HS as <-. reflexivity. }
      exists l. split; [rewrite EC; exact Q1|]. split; [exact Q2|]. intros E. rewrite Es in E. discriminate.
Qed.

Theorem ck_times o fun_ t0 tb y0 c s n v : ck_built o fun_ t0 tb y0 c s ->
  ohist ck_view (t_bound c) (direction c) (fun k => ck_step_impl k c) (onew s) n v -> o_max_step o = PInf ->
  exists l d, (d = 1 \/ d = -1) /\ 0 < d * (tb - t0) /\ calls (ckb (ost v)) = (calls (ckb s) ++ l)%list /\
    Forall (fun p => exists x, fst p = Fin x /\ 0 <= d * (x - t0) <= d * (tb - t0)) l.
Proof.
  intros HB HH HM. apply (ck_times_lim _ _ _ _ _ _ _ _ _ HB HH). intros j w _ _. left.
  destruct (ck_built_good _ _ _ _ _ _ _ HB) as (r & _ & _ & _ & _ & _ & _ & _ & _ & EM & _). rewrite EM. exact HM.
Qed.
