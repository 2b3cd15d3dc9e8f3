(** Properties of SWAG, the variable order Adams method: C34, C35, C36, C37.
    The solver is that of Swag.v.  [swag_hist c v n v']: n step() calls returned and lead from
    v to v'.  [junk_ok]: the arrays of np.empty have the shapes asked for, any contents. *)
From Coq Require Import String ZArith Reals Lra Psatz QArith Qreals Bool Lia List Arith.
From Coquelicot Require Import Coquelicot.
From Verif Require Import Arith Common Stiff RK HStart RKInit Ode QX RX RKReal RKStep HStartReal RKInitReal NormReal OrderRK OrderModel DenseReal DenseStep Swag SwagArr SwagCo SwagGen SwagTop SwagReal Adams SwagHist.
Import ListNotations.
Close Scope string_scope. Open Scope nat_scope. 

(** ** C34: the order (every arithmetic) *)
(** the constructor accepted the arguments and n step() calls returned, leading to v *)
Definition swag_after {A : Arith} o fun_ (t0 : num A) y0 tb c n v : Prop :=
  exists j s, junk_ok (Z.to_nat (so_kmax o)) (length y0) j /\ swag_init o j fun_ t0 y0 tb = inl (c, s) /\ swag_hist c (onew s) n v.
(** t_bound is a number for which direction * (t_bound - t_bound) >= 0, e.g. any finite one *)
Lemma after_inv {A : Arith} o fun_ (t0 : num A) y0 tb c n v : swag_after o fun_ t0 y0 tb c n v -> finite_bound c ->
  kmax_ok c /\ s_kmax c = Z.to_nat (so_kmax o) /\ vinv c v.
Proof.
  intros (j & s & J & I & H) F. destruct (init_inv _ _ _ _ _ _ _ _ I J) as (K & SI & E & _).
  split; [exact K|]. split; [exact E|]. apply (hist_inv c _ _ _ K F (new_inv c s K SI) H).
Qed.

(** the planned order is between 1 and k_max; step() raises no exception (all array accesses
    are in range, all shapes agree, no name is unbound) *)
Theorem C34_order_and_no_exceptions {A : Arith} o fun_ (t0 : num A) y0 tb c n v :
  swag_after o fun_ t0 y0 tb c n v -> finite_bound c ->
  1 <= s_k (ost v) <= Z.to_nat (so_kmax o) /\ (1 <= so_kmax o <= 12)%Z /\
  (ostat v = ORunning -> forall fuel e, swag_call c fuel v <> OExn e).
Proof.
  intros H F. destruct (after_inv _ _ _ _ _ _ _ _ H F) as (K & E & V1 & V2). rewrite <- E. split; [exact V1|]. split.
  - unfold kmax_ok in K. destruct H as (j & s & _ & I & _). clear - I. unfold swag_init in I. destruct ((0 <? so_kmax o)%Z && (so_kmax o <? 13)%Z) eqn:B; [|discriminate]. apply andb_prop in B. destruct B as [B1 B2]. apply Z.ltb_lt in B1. apply Z.ltb_lt in B2. lia.
  - intros R fuel e X. specialize (V2 R). unfold swag_call, ostep in X. rewrite R in X. destruct (_ || _); [discriminate|]. unfold swag_impl in X.
    destruct (step_cases c (ost v) fuel K V2) as [(B & S)|(B & [(msg & S)|(_ & [S|[(s1 & i1 & s' & R1 & T & S)|(s1 & i1 & s' & R1 & T & S)]])])]; rewrite S in X; discriminate.
Qed.

(** What a returned call does to order and counters: it failed, or it was the final
    extrapolation (order reported as 0, no evaluation), or it took a step of order k with r
    rejected trials: k is the planned order lowered by at most one per rejection and 1 from
    the third on, the next planned order differs from k by at most one, fun was called r + 2
    times, y_old is the old y, and the cached derivative is that of the new point. *)
Inductive order_effect {A : Arith} (c : SCfg A) (v v' : OSolver A (SSt A)) : Prop :=
| oe_empty : length (s_y (ost v)) = 0 \/ neqb A (s_t (ost v)) (s_tb c) = true -> ostat v' = OFinished -> order_effect c v v'
| oe_fail msg : ostat v' = OFailed msg -> s_t (ost v') = s_t (ost v) -> s_y (ost v') = s_y (ost v) -> s_k (ost v') = s_k (ost v) -> s_h (ost v') = s_h (ost v) -> order_effect c v v'
| oe_last : nleb A (nabs A (nsub A (s_tb c) (s_t (ost v)))) (nmul A sw_fouru (nabs A (s_t (ost v)))) = true -> s_t (ost v') = s_tb c -> s_kold (ost v') = 0 -> ostat v' = OFinished ->
    s_y (ost v') = vadd (s_y (ost v)) (vscale (nsub A (s_tb c) (s_t (ost v))) (s_yp (ost v))) -> s_calls (ost v') = s_calls (ost v) -> order_effect c v v'
| oe_step r : s_nfs (ost v') = s_nfs (ost v) + r ->
    1 <= s_kold (ost v') <= s_k (ost v) ->
    (r = 0 -> s_kold (ost v') = s_k (ost v)) -> (r < 3 -> s_k (ost v) - r <= s_kold (ost v')) -> (3 <= r -> s_kold (ost v') = 1) ->
    s_k (ost v') <= s_kold (ost v') + 1 -> s_kold (ost v') <= s_k (ost v') + 1 ->
    length (s_calls (ost v')) = length (s_calls (ost v)) + r + 2 ->
    s_yold (ost v') = s_y (ost v) -> s_yp (ost v') = s_fn c (s_t (ost v')) (s_y (ost v')) -> order_effect c v v'.

Lemma rejects_calls {A : Arith} (c : SCfg A) ms s i s' i' : kmax_ok c -> rejects c ms s i s' i' -> sinv c s -> length (s_calls s') + i = length (s_calls s) + i'.
Proof.
  intros HK H. induction H as [|s i s1 s' i' E H IH]; intros I; [lia|].
  destruct (trial_again _ _ _ _ _ HK I E) as (co & phi & p & yp & wt & e & knew & co' & phi' & _ & _ & _ & -> & X & _).
  specialize (IH X). unfold rejected in IH. cbn [s_calls] in IH. rewrite app_length in IH. cbn [length] in IH. lia.
Qed.

Theorem C34_order_changes {A : Arith} o fun_ (t0 : num A) y0 tb c n v fuel v' :
  swag_after o fun_ t0 y0 tb c n v -> finite_bound c -> swag_call c fuel v = OOk v' -> ostat v = ORunning /\ order_effect c v v'.
Proof.
  intros H F X. destruct (after_inv _ _ _ _ _ _ _ _ H F) as (K & E & V1 & V2).
  unfold swag_call, ostep in X. destruct (ostat v) eqn:R; try discriminate. split; [reflexivity|]. specialize (V2 eq_refl).
  destruct (Nat.eqb (v_n sw_view (ost v)) 0 || _) eqn:B0.
  { injection X as <-. apply oe_empty; [|reflexivity]. apply orb_prop in B0. destruct B0 as [B0|B0]; [left; apply Nat.eqb_eq; exact B0|right; exact B0]. }
  unfold swag_impl in X.
  destruct (step_cases c (ost v) fuel K V2) as [(B & S)|(B & [(msg & S)|(_ & [S|[(s1 & i1 & s' & R1 & T & S)|(s1 & i1 & s' & R1 & T & S)]])])]; rewrite S in X; try discriminate; injection X as <-.
  - unfold extrapolated. destruct (kle4_step c (ost v)) as [kle nt]. apply oe_last; cbn [ost ostat s_t s_kold s_y s_calls sw_set v_t sw_view]; try reflexivity; [exact B|]. rewrite F. reflexivity.
  - unfold started. destruct (kle4_step c (ost v)) as [kle nt]. eapply oe_fail; reflexivity.
  - pose proof (started_inv c (ost v) (trial_h c (ost v)) V2) as I0.
    pose proof (rejects_inv _ _ _ _ _ _ K R1 I0) as I1. pose proof (rejects_frame _ _ _ _ _ _ K R1 I0) as (F1 & F2 & F3 & F4 & F5 & F6 & F7 & _). pose proof (rejects_order _ _ _ _ _ _ K R1 I0) as (O1 & O2 & O3). pose proof (rejects_calls _ _ _ _ _ _ K R1 I0) as C1.
    destruct (trial_accept _ _ _ _ _ K I1 T) as (co & phi & p & yp & wt & e & knew & TD & _ & I2 & AS & ST).
    assert (Es : s_k (started c (ost v) (trial_h c (ost v))) = s_k (ost v) /\ s_nfs (started c (ost v) (trial_h c (ost v))) = s_nfs (ost v) /\ s_calls (started c (ost v) (trial_h c (ost v))) = s_calls (ost v) /\ s_y (started c (ost v) (trial_h c (ost v))) = s_y (ost v)) by (unfold started; destruct (kle4_step c (ost v)); auto).
    destruct Es as (Ek & En & Ec & Ey). rewrite Ek in *. rewrite En in *. rewrite Ec in *. rewrite Ey in *.
    destruct ST as (_ & Nf & _). destruct AS. cbn [ost ostat]. apply (oe_step c v _ i1); cbn [ost].
    + rewrite Nf. lia.
    + rewrite as_kold. lia.
    + intros ->. rewrite as_kold. destruct (Nat.leb_spec 3 0); lia.
    + intros Hr. rewrite as_kold. destruct (Nat.leb_spec 3 i1); lia.
    + intros Hr. rewrite as_kold. apply O3; lia.
    + rewrite as_kold. lia.
    + rewrite as_kold. lia.
    + rewrite as_calls. rewrite !app_length. cbn [length]. lia.
    + rewrite as_yold. exact F2.
    + rewrite as_yp. rewrite as_t. reflexivity.
  - unfold swag_abort, started. destruct (kle4_step c (ost v)) as [kle nt]. eapply oe_fail; reflexivity.
Qed.

(** ** C37, first part: the cached coefficients (every arithmetic) *)
(** The Adams coefficients of a trial by the textbook table, no caching: row 0 is
    1/((i+1)(i+2)), row l is row l-1 minus alpha_l times the shifted row l-1; g_0 = 1,
    g_1 = 1/2, g_l is the head of row l-1. *)
Fixpoint g_row {A : Arith} (al : nat -> num A) (l i : nat) : num A :=
  match l with
  | O => ndiv A n1 (nmul A (nofnat (i + 1)) (nadd A (nofnat (i + 1)) n1))
  | S l' => nsub A (g_row al l' i) (nmul A (al (S l')) (g_row al l' (i + 1)))
  end.
Definition g_scratch {A : Arith} (al : nat -> num A) (i : nat) : num A :=
  match i with O => n1 | S O => lit (1#2) | S l => g_row al l 0 end.
Lemma g_scratch_gref {A : Arith} (al : nat -> num A) i : g_scratch al i = gref al i.
Proof.
  assert (H : forall l i, g_row al l i = W al l i) by (induction l; intros; cbn [g_row W]; [reflexivity|rewrite !IHl; reflexivity]).
  destruct i as [|[|l]]; [reflexivity|reflexivity|apply H].
Qed.
(** In every trial of every history (order changes, repeated step sizes and rejections in any
    pattern) the coefficients g[0..k] left by the caching scheme of v, w, gi, iv are, bit for
    bit, those of the table computed from scratch from the current alpha. *)
Theorem C37_coefficients {A : Arith} o fun_ (t0 : num A) y0 tb c n v s1 r :
  swag_after o fun_ t0 y0 tb c n v -> finite_bound c -> ostat v = ORunning ->
  rejects c (min_step (ost v)) (started c (ost v) (trial_h c (ost v))) 0 s1 r ->
  exists co, block1 (s_kmax c) (s_co s1) (s_k s1) (s_kold s1) (s_h s1) (s_hold s1) = inl co /\
    forall i, i <= s_k s1 -> nth i (gg co) n0 = g_scratch (fun j => nth j (alpha co) n0) i.
Proof.
  intros H F R RJ. destruct (after_inv _ _ _ _ _ _ _ _ H F) as (K & E & V1 & V2). specialize (V2 R).
  pose proof (rejects_inv _ _ _ _ _ _ K RJ (started_inv c _ _ V2)) as I1.
  destruct (swag_trial_ok c s1 r (min_step (ost v)) K I1) as (co & phi & p & yp & wt & e & knew & TD & _).
  exists co. destruct TD. split; [exact td_block1|]. intros i Hi. rewrite g_scratch_gref. apply (cd_g _ _ _ td_done i Hi).
Qed.

(** ** C36: time (exact arithmetic, any fun, also one returning nan or inf) *)
Open Scope R_scope.
Record swag_real (o : SOpts RX) fun_ (t0 tb : R) y0 c n v : Prop := {
  sr_ne : t0 <> tb; sr_y : y0 <> []; sr_max : so_max o <> NaN; sr_first : so_first o <> Some NaN;
  sr_after : swag_after o fun_ (Fin t0 : num RX) y0 (Fin tb : num RX) c n v }.
Lemma swag_real_place o fun_ t0 tb y0 c n v : swag_real o fun_ t0 tb y0 c n v -> exists d, scfg c tb d /\ 0 < d * (tb - t0) /\ place c tb d v /\ s_max c = so_max o /\ finite_bound c.
Proof.
  intros [H1 H2 H3 H4 (j & s & J & E & H)]. destruct (init_RX o j fun_ t0 tb y0 c s H1 H2 H3 H4 J E) as (d & h & C & Hd & I & _).
  exists d. split; [exact C|]. split; [exact Hd|]. split.
  - eapply hist_RX; [exact C| |exact H]. exists t0, h. auto.
  - destruct (init_inv _ _ _ _ _ _ _ _ E J) as (_ & _ & _ & _ & _ & _ & X & _). split; [exact X|].
    unfold finite_bound. rewrite (sc_tb _ _ _ C), (sc_dir _ _ _ C), n0_RX. cbn [nsub RX xsub xopp xadd nmul xmul nleb xleb]. apply Rleb_true. lra.
Qed.

(** the same bound on the step size as in the code: 4 * u * |t| with u the spacing constant *)
Definition spacing (t : R) : R := 4 * small * Rabs t.

(** Each returned call: it failed and left t alone; or t_bound was within the spacing and is
    reached exactly by one Euler step, the run is finished; or it took a step hs in the right
    direction, not past t_bound, not larger than the planned step or max_step, not smaller
    than the spacing; the status is finished exactly when t = t_bound; the step planned next
    is 2 hs, hs, or hs times a factor in [0.5, 0.9] (but at least the spacing). *)
Theorem C36_step o fun_ t0 tb y0 c n v fuel v' : swag_real o fun_ t0 tb y0 c n v -> swag_call c fuel v = OOk v' ->
  exists d t, (d = 1 \/ d = -1) /\ 0 < d * (tb - t0) /\ ostat v = ORunning /\ s_t (ost v) = Fin t /\ 0 < d * (tb - t) /\
   ((s_y (ost v) = [] /\ ostat v' = OFinished /\ s_t (ost v') = Fin tb) \/
    (exists msg, ostat v' = OFailed msg /\ s_t (ost v') = Fin t) \/
    (Rabs (tb - t) <= spacing t /\ ostat v' = OFinished /\ s_t (ost v') = Fin tb) \/
    (exists h hs h', s_h (ost v) = Fin h /\ s_t (ost v') = Fin (t + hs) /\ s_h (ost v') = Fin h' /\
       0 <= d * hs /\ 0 <= d * (tb - (t + hs)) /\ Rabs hs <= Rabs h /\ spacing t <= Rabs hs /\
       (forall m, so_max o = Fin m -> Rabs hs <= m) /\
       (t + hs = tb -> ostat v' = OFinished) /\ (t + hs <> tb -> ostat v' = ORunning) /\
       (h' = 2 * hs \/ h' = hs \/ exists q, 1/2 <= q <= 9/10 /\ Rabs h' = Rmax (Rabs hs * q) (spacing t) /\ 0 <= hs * h'))).
Proof.
  intros H X. destruct (swag_real_place _ _ _ _ _ _ _ _ H) as (d & C & Hd & P & Em & _).
  destruct (call_RX c tb d v fuel v' C P X) as (P' & CE & R). unfold place in P. rewrite R in P. destruct P as (t & h & I & Ht).
  exists d, t. split; [exact (sc_d _ _ _ C)|]. split; [exact Hd|]. split; [exact R|]. split; [exact (hi_t _ _ _ _ _ I)|]. split; [exact Ht|].
  destruct CE as [E1 E2 E3|t' E1 E2 E3 E4|msg E1 E2|t' h1 hs h' E1 E2 M St].
  - left. auto.
  - right; right; left. rewrite (hi_t _ _ _ _ _ I) in E1. injection E1 as <-. split; [exact E2|]. split; [exact E3|]. rewrite E4. unfold extrapolated. destruct (kle4_step c (ost v)). exact (sc_tb _ _ _ C).
  - right; left. exists msg. rewrite E2. split; [exact E1|exact (hi_t _ _ _ _ _ I)].
  - right; right; right. rewrite (hi_t _ _ _ _ _ I) in E1. injection E1 as <-. exists h1, hs, h'. destruct M. split; [exact E2|]. split; [exact mv_t|]. split; [exact (hi_h _ _ _ _ _ mv_inv)|].
    split; [lra|]. split; [lra|]. split; [exact mv_le|]. split; [exact mv_min|]. split; [intros m Hm; apply mv_max; congruence|].
    split; [intros Q; destruct St as [[_ S2]|[S1 _]]; [rewrite Q in S2; lra|exact S1]|]. split; [intros Q; destruct St as [[S1 _]|[_ S2]]; [exact S1|contradiction]|]. exact mv_next.
Qed.

(** the step() call returns if t is not 0: the number of trials is bounded *)
Theorem C36_step_returns o fun_ t0 tb y0 c n v t : swag_real o fun_ t0 tb y0 c n v -> ostat v = ORunning -> s_t (ost v) = Fin t -> t <> 0 ->
  exists N, forall fuel, (N <= fuel)%nat -> exists v', swag_call c fuel v = OOk v'.
Proof.
  intros H R Et Hn. destruct (swag_real_place _ _ _ _ _ _ _ _ H) as (d & C & Hd & P & Em & FB). unfold place in P. rewrite R in P. destruct P as (t' & h & I & Ht).
  rewrite (hi_t _ _ _ _ _ I) in Et. injection Et as ->. pose proof (smin_pos' t Hn) as SP.
  destruct (INR_big (smin t) (Rabs h) SP (Rabs_pos h)) as (N & HN). exists N. intros fuel Hf.
  assert (B : Rabs h < smin t * 2 ^ fuel).
  { apply Rlt_le_trans with (smin t * INR N). { lra. }
    apply Rmult_le_compat_l; [lra|]. clear - Hf. assert (X : forall n, INR n <= 2 ^ n). { induction n as [|n IH]; [simpl; lra|]. rewrite S_INR. cbn [pow]. assert (1 <= 2 ^ n) by (apply pow_R1_Rle; lra). lra. }
    eapply Rle_trans; [apply (le_INR N fuel Hf)|apply X]. }
  pose proof (step_ends c tb d (ost v) t h fuel C I Ht B) as NF.
  pose proof (C34_order_and_no_exceptions _ _ _ _ _ _ _ _ (sr_after _ _ _ _ _ _ _ _ H) FB) as (_ & _ & NE). specialize (NE R fuel).
  unfold swag_call, ostep in *. rewrite R in *. destruct (_ || _); [eexists; reflexivity|]. unfold swag_impl in *. destruct (swag_step fuel c (ost v)) as [s'|s' msg|e|]; try (eexists; reflexivity); [exfalso; exact (NE e eq_refl)|exfalso; apply NF; reflexivity].
Qed.

(** the run ends: with t0, t_bound on the same side of 0 the number of calls is bounded *)
Theorem C36_run_ends o fun_ t0 tb y0 c n v : swag_real o fun_ t0 tb y0 c n v -> 0 < t0 * tb -> ostat v = ORunning ->
  INR n * spacing (Rmin (Rabs t0) (Rabs tb)) <= Rabs (tb - t0).
Proof.
  intros H Hs. set (m := Rmin (Rabs t0) (Rabs tb)).
  pose proof H as [H1 H2 H3 H4 (j & s & J & E & HH)]. destruct (init_RX o j fun_ t0 tb y0 c s H1 H2 H3 H4 J E) as (d & h & C & Hd & I & _).
  assert (P0 : place c tb d (onew s)) by (exists t0, h; auto).
  assert (Hm : 0 <= m) by (unfold m; apply Rmin_glb; apply Rabs_pos).
  assert (Am : Rabs m = m) by (apply Rabs_pos_eq; exact Hm).
  enough (Q : forall k w, swag_hist c (onew s) k w -> ostat w = ORunning -> exists t, s_t (ost w) = Fin t /\ INR k * spacing m <= d * (t - t0) /\ 0 <= d * (t - t0) /\ 0 < d * (tb - t)).
  { intros R. destruct (Q _ _ HH R) as (t & _ & Q1 & Q2 & Q3). destruct (sc_d _ _ _ C) as [-> | ->]; unfold Rabs; destruct (Rcase_abs (tb - t0)); lra. }
  intros k w Hw. clear H HH. remember (onew s) as v0 eqn:Ev. induction Hw as [v0|v0 k w1 w2 fu Hw IH X]; intros R.
  - subst v0. exists t0. cbn [onew ost]. split; [exact (hi_t _ _ _ _ _ I)|]. split; [simpl; lra|]. lra.
  - assert (P1 : place c tb d w1) by (eapply hist_RX; [exact C|exact P0|subst v0; exact Hw]).
    destruct (call_RX c tb d w1 fu w2 C P1 X) as (P2 & CE & R1). destruct (IH Ev P0 R1) as (t & Et & B1 & B2 & B3).
    destruct CE as [E1 E2 E3|t' E1 E2 E3 E4|msg E1 E2|t' h1 hs h' E1 E2 M St]; try congruence.
    rewrite Et in E1. injection E1 as <-. destruct M. exists (t + hs). split; [exact mv_t|].
    assert (Habs : Rabs hs = d * hs) by (destruct (sc_d _ _ _ C) as [-> | ->]; unfold Rabs; destruct (Rcase_abs hs); lra).
    assert (Hsp : spacing m <= spacing t).
    { unfold spacing. pose proof small_pos. apply Rmult_le_compat_l; [lra|]. rewrite Am. unfold m.
      destruct (sc_d _ _ _ C) as [D | D]; rewrite D in *; unfold Rmin, Rabs; repeat destruct (Rcase_abs _); destruct (Rle_dec _ _); try lra; nra. }
    change (smin t) with (spacing t) in mv_min. rewrite S_INR. destruct St as [[_ S2]|[S1 _]]; [|congruence]. split; [lra|]. split; lra.
Qed.

(** and it does end: some sequence of calls, each given enough trials, finishes or fails *)
Theorem C36_run_completes o fun_ t0 tb y0 c v0 : swag_real o fun_ t0 tb y0 c 0 v0 -> 0 < t0 * tb ->
  exists n v, swag_hist c v0 n v /\ ostat v <> ORunning.
Proof.
  intros H Hs. assert (R0 : ostat v0 = ORunning /\ v0 = onew (ost v0)).
  { destruct H as [_ _ _ _ (j & s & _ & _ & HH)]. inversion HH; subst. auto. }
  assert (T : forall n v, swag_hist c v0 n v -> swag_real o fun_ t0 tb y0 c n v).
  { intros n v Hh. destruct H as [H1 H2 H3 H4 (j & s & J & E & HH)]. inversion HH; subst. constructor; auto. exists j, s. auto. }
  assert (Q : forall k, (exists n v, swag_hist c v0 n v /\ ostat v <> ORunning) \/ exists v, swag_hist c v0 k v /\ ostat v = ORunning).
  { induction k as [|k IH]; [right; exists v0; split; [constructor|apply R0]|]. destruct IH as [IH|(v & Hv & Rv)]; [left; exact IH|].
    pose proof (T _ _ Hv) as Hr. destruct (swag_real_place _ _ _ _ _ _ _ _ Hr) as (d & C & Hd & P & _). unfold place in P. rewrite Rv in P. destruct P as (t & h & I & Ht).
    assert (Hb : 0 <= d * (t - t0)).
    { destruct Hr as [H1 H2 H3 H4 (j & s & J & E & HH)]. destruct (init_RX o j fun_ t0 tb y0 c s H1 H2 H3 H4 J E) as (d' & h' & C' & _ & I' & _).
      assert (d' = d) by (pose proof (sc_dir _ _ _ C) as A1; rewrite (sc_dir _ _ _ C') in A1; injection A1; auto). subst d'.
      assert (Z : forall k w, swag_hist c (onew s) k w -> forall x, s_t (ost w) = Fin x -> 0 <= d * (x - t0)).
      { clear HH. intros k' w Hw. remember (onew s) as v1 eqn:Ev. induction Hw as [v1|v1 k' w1 w2 fu Hw IHw X]; intros x Ex.
        - subst v1. cbn [onew ost] in Ex. rewrite (hi_t _ _ _ _ _ I') in Ex. injection Ex as <-. lra.
        - assert (P1 : place c tb d w1) by (eapply hist_RX; [exact C| |subst v1; exact Hw]; exists t0, h'; auto).
          destruct (call_RX c tb d w1 fu w2 C P1 X) as (P2 & CE & R1). destruct CE as [E1 E2 E3|t' E1 E2 E3 E4|msg E1 E2|t' h1 hs h'' E1 E2 M St].
          + rewrite E3 in Ex. injection Ex as <-. lra.
          + unfold place in P2. rewrite E3 in P2. rewrite P2 in Ex. injection Ex as <-. lra.
          + apply (IHw Ev). congruence.
          + rewrite (mv_t _ _ _ _ _ _ _ _ M) in Ex. injection Ex as <-. specialize (IHw Ev _ E1). destruct (mv_dir _ _ _ _ _ _ _ _ M). lra. }
      apply (Z _ _ HH). exact (hi_t _ _ _ _ _ I). }
    assert (Nt : t <> 0) by (intros ->; destruct (sc_d _ _ _ C) as [-> | ->]; nra).
    destruct (C36_step_returns _ _ _ _ _ _ _ _ _ Hr Rv (hi_t _ _ _ _ _ I) Nt) as (N & HN). destruct (HN N (le_n N)) as (v' & Ev').
    assert (Hv' : swag_hist c v0 (S k) v') by (eapply ohS; [exact Hv|exact Ev']).
    destruct (ostat v') eqn:Rv'; [right; exists v'; auto|left; exists (S k), v'; split; [exact Hv'|congruence]|left; exists (S k), v'; split; [exact Hv'|congruence]]. }
  assert (Pm : 0 < spacing (Rmin (Rabs t0) (Rabs tb))).
  { apply smin_pos'. assert (t0 <> 0 /\ tb <> 0) as [? ?] by (split; intros ->; lra). pose proof (Rabs_pos_lt t0 ltac:(auto)). pose proof (Rabs_pos_lt tb ltac:(auto)). unfold Rmin. destruct (Rle_dec _ _); lra. }
  destruct (INR_big _ (Rabs (tb - t0)) Pm (Rabs_pos _)) as (K & HK).
  destruct (Q K) as [X|(v & Hv & Rv)]; [exact X|]. exfalso. pose proof (C36_run_ends _ _ _ _ _ _ _ _ (T _ _ Hv) Hs Rv) as B. lra.
Qed.

(** ** C35: a rejected trial (exact arithmetic, finite fun) *)
(** [strace c v0 ps v]: v is reached from v0 by accepted steps that all moved; ps are the
    points visited, newest first.  [lifts n F f]: the user's f computes the real function F. *)
Inductive strace (c : SCfg RX) : pts_t -> OSolver RX (SSt RX) -> pts_t -> OSolver RX (SSt RX) -> Prop :=
| tr0 p v : strace c p v p v
| trS p0 v0 ps v fuel v' t t' yr : strace c p0 v0 ps v -> swag_call c fuel v = OOk v' -> (forall m, ostat v' <> OFailed m) ->
    s_t (ost v) = Fin t -> s_t (ost v') = Fin t' -> t' <> t -> s_y (ost v') = map Fin yr -> strace c p0 v0 ((t', yr) :: ps) v'.

Record swag_run (o : SOpts RX) fun_ (t0 tb : R) (y0 : list R) n F c ps v : Prop := {
  sw_ne : t0 <> tb; sw_y : y0 <> []; sw_max : so_max o <> NaN; sw_first : so_first o <> Some NaN;
  sw_F : lifts n F fun_; sw_n : length y0 = n;
  sw_after : exists j s, junk_ok (Z.to_nat (so_kmax o)) n j /\ swag_init o j fun_ (Fin t0) (map Fin y0) (Fin tb) = inl (c, s) /\
    strace c [(t0, y0)] (onew s) ps v }.

Lemma swag_run_ghost o fun_ t0 tb y0 n F c ps v : swag_run o fun_ t0 tb y0 n F c ps v ->
  exists d, scfg c tb d /\ lifts n F (s_fn c) /\ place c tb d v /\ (ostat v = ORunning -> ghost d n F (ost v) ps).
Proof.
  intros [H1 H2 H3 H4 HL Hn (j & s & J & E & H)].
  assert (J' : junk_ok (Z.to_nat (so_kmax o)) (length (map Fin y0 : list (num RX))) j) by (rewrite map_length, Hn; exact J).
  assert (Hy' : map Fin y0 <> []) by (destruct y0; [congruence|discriminate]).
  destruct (init_RX o j fun_ t0 tb (map Fin y0) c s H1 Hy' H3 H4 J' E) as (d & h & C & Hd & I & _).
  destruct (init_inv _ _ _ _ _ _ _ _ E J') as (_ & _ & _ & Ef & _).
  exists d. split; [exact C|]. rewrite Ef. split; [exact HL|].
  remember (onew s) as v0 eqn:Ev. remember [(t0, y0)] as p0 eqn:Ep. revert Ev Ep. induction H as [p v|p0 v0 ps v fuel v' t t' yr H IH X NF Et Et' Nt Ey]; intros Ev Ep.
  - subst. split; [exists t0, h; auto|]. intros _. cbn [onew ost]. eapply init_ghost; eauto.
  - destruct (IH Ev Ep) as (P & G). destruct (call_RX c tb d v fuel v' C P X) as (P' & CE & R). split; [exact P'|]. intros R'.
    specialize (G R). unfold place in P. rewrite R in P. destruct P as (t2 & h2 & I2 & Ht2). assert (t2 = t) by (pose proof (hi_t _ _ _ _ _ I2) as Q; rewrite Et in Q; injection Q; auto). subst t2.
    unfold swag_call, ostep in X. rewrite R in X. destruct (_ || _); [apply OOk_inj in X; subst v'; discriminate|]. unfold swag_impl in X.
    destruct (swag_step fuel c (ost v)) as [s'|s' msg|e|] eqn:SS; try discriminate; [|apply OOk_inj in X; subst v'; discriminate].
    assert (Es : ost v' = s') by (apply OOk_inj in X; subst v'; reflexivity). 
    assert (Far : smin t < Rabs (tb - t)).
    { destruct CE as [E1 E2 E3|t3 E1 E2 E3 E4|msg E1 E2|t3 h3 hs h' E1 E2 M St]; try congruence.
      destruct (step_RX c tb d (ost v) t h2 fuel C I2 Ht2) as [(B & S)|(B & _)]; [|exact B].
      exfalso. rewrite SS in S. injection S as S. apply OOk_inj in X. assert (Q : s_t s' = Fin tb) by (rewrite S; unfold extrapolated; destruct (kle4_step c (ost v)); exact (sc_tb _ _ _ C)).
      pose proof (status_RX c tb d s' _ C Q) as Q2. subst v'. cbn [ostat] in R'. rewrite Q2 in R'. replace (Rleb 0 (d * (tb - tb))) with true in R'; [discriminate|]. symmetry. apply Rleb_true. lra. }
    rewrite Es in *. assert (HL' : lifts n F (s_fn c)) by (rewrite Ef; exact HL). destruct (step_ghost c tb d n F (ost v) t h2 ps fuel s' t' HL' C I2 Ht2 G Far SS Et' Nt) as (k & hs & pr & yr' & _ & _ & _ & _ & _ & Ey' & _ & _ & _ & _ & _ & G').
    assert (yr' = yr) by (rewrite Ey in Ey'; apply map_inj_fin; congruence). subst yr'. exact G'.
Qed.

(** After any number of rejected trials of a step the difference table [phi] and the step
    sums [psi] used by the next trial are exactly those before the first trial, and t, y,
    the previous step size and order are unchanged, whatever the order was reduced to. *)
Theorem C35_restored o fun_ t0 tb y0 n F c ps v s1 r h1 : swag_run o fun_ t0 tb y0 n F c ps v -> ostat v = ORunning ->
  rejects c (min_step (ost v)) (started c (ost v) (trial_h c (ost v))) 0 s1 r -> s_h s1 = Fin h1 -> h1 <> 0 ->
  (s_k s1 <= s_k (ost v))%nat /\
  (forall i, (i < s_k s1)%nat -> nth i (s_phi s1) [] = nth i (s_phi (ost v)) []) /\
  (forall i, (i + 1 < s_k s1)%nat -> nth i (psi (s_co s1)) (Fin 0 : num RX) = nth i (psi (s_co (ost v))) (Fin 0 : num RX)) /\
  s_t s1 = s_t (ost v) /\ s_y s1 = s_y (ost v) /\ s_hold s1 = s_hold (ost v) /\ s_kold s1 = s_kold (ost v).
Proof.
  intros H R RJ Eh Nh. destruct (swag_run_ghost _ _ _ _ _ _ _ _ _ _ H) as (d & C & HL & P & G). specialize (G R). unfold place in P. rewrite R in P. destruct P as (t & h & I & Ht).
  destruct (trial_h_RX c tb d (ost v) t h C (hi_t _ _ _ _ _ I) (hi_h _ _ _ _ _ I) (hi_d _ _ _ _ _ I) Ht) as (h0 & E0 & P1 & _). rewrite E0 in *.
  pose proof (started_hinv c d (ost v) t h h0 I P1) as I0. pose proof (started_ghost c d n F (ost v) ps (Fin h0 : num RX) G) as G0.
  pose proof (rejects_frame _ _ _ _ _ _ (sc_kmax _ _ _ C) RJ (started_inv c _ _ (hi_s _ _ _ _ _ I))) as (F1 & F2 & F3 & F4 & F5 & _).
  rewrite (min_step_RX (ost v) t (hi_t _ _ _ _ _ I)) in RJ.
  destruct (rejects_ghost c tb d _ n F _ _ s1 r t h0 h1 ps C RJ I0 G0 Eh Nh) as (G1 & D1 & K1 & Q1 & Q2).
  destruct (started_fields c (ost v) (Fin h0 : num RX)) as (K & Ph & Co & Y & Ko). rewrite K in K1. rewrite Ph in Q1. rewrite Co in Q2.
  split; [exact K1|]. split; [exact Q1|]. split; [intros i Hi; specialize (Q2 i Hi); rewrite n0_RX in Q2; exact Q2|].
  rewrite F1, F2, F4, F5. unfold started. destruct (kle4_step c (ost v)). auto.
Qed.

(** ** C37: the step is a variable step Adams method in PECE form *)
(** A step from t with past points t_0 = t, t_1, ... and order k: the predicted value (the
    argument of the first of its two fun calls) is y plus the integral over the step of the polynomial of
    degree < k through the last k values of fun (Adams-Bashforth), and the result is y plus
    the integral of the polynomial of degree <= k that moreover has the value of fun at the
    predicted point (Adams-Moulton); k is the order reported. *)
Theorem C37_adams o fun_ t0 tb y0 n F c ps v fuel v' t t' : swag_run o fun_ t0 tb y0 n F c ps v -> swag_call c fuel v = OOk v' ->
  s_t (ost v) = Fin t -> s_t (ost v') = Fin t' -> t' <> t -> spacing t < Rabs (tb - t) ->
  exists pr yr, let k := s_kold (ost v') in (1 <= k <= length ps)%nat /\ fst (nth 0 ps (0, [])) = t /\ s_y (ost v) = map Fin (snd (nth 0 ps (0, []))) /\
    s_y (ost v') = map Fin yr /\ length yr = n /\ length pr = n /\ In (Fin t', map Fin pr) (s_calls (ost v')) /\
    (forall i j, (i < j)%nat -> (j < length ps)%nat -> fst (nth i ps (0, [])) <> fst (nth j ps (0, []))) /\
    forall q, (q < n)%nat ->
      let fpast j := nth q (F (fst (nth j ps (0, []))) (snd (nth j ps (0, [])))) 0 in
      let y := nth q (snd (nth 0 ps (0, []))) 0 in
      (exists P, (length P <= k)%nat /\ forall j, (j < k)%nat -> peval P (fst (nth j ps (0, []))) = fpast j) /\
      (exists P, (length P <= k + 1)%nat /\ (forall j, (j < k)%nat -> peval P (fst (nth j ps (0, []))) = fpast j) /\ peval P t' = nth q (F t' pr) 0) /\
      (forall P, (length P <= k)%nat -> (forall j, (j < k)%nat -> peval P (fst (nth j ps (0, []))) = fpast j) ->
         is_RInt (peval P) t t' (nth q pr 0 - y)) /\
      (forall P, (length P <= k + 1)%nat -> (forall j, (j < k)%nat -> peval P (fst (nth j ps (0, []))) = fpast j) -> peval P t' = nth q (F t' pr) 0 ->
         is_RInt (peval P) t t' (nth q yr 0 - y)).
Proof.
  intros H X Et Et' Nt Far. destruct (swag_run_ghost _ _ _ _ _ _ _ _ _ _ H) as (d & C & HL & P & G).
  destruct (call_RX c tb d v fuel v' C P X) as (P' & CE & R). specialize (G R). unfold place in P. rewrite R in P. destruct P as (t2 & h2 & I2 & Ht2). assert (t2 = t) by (pose proof (hi_t _ _ _ _ _ I2) as Q; rewrite Et in Q; injection Q; auto). subst t2.
  assert (SS : swag_step fuel c (ost v) = IDone (ost v')).
  { unfold swag_call, ostep in X. rewrite R in X. destruct (Nat.eqb (v_n sw_view (ost v)) 0 || _) eqn:B0.
    - exfalso. apply orb_prop in B0. destruct B0 as [B0|B0].
      + apply Nat.eqb_eq in B0. cbn [v_n sw_view] in B0. destruct (gh_y _ _ _ _ _ G) as (Gy & Gl). rewrite Gy, map_length, Gl in B0. destruct H. subst n. destruct y0; [congruence|discriminate].
      + cbn [v_t sw_view] in B0. rewrite Et, (sc_tb _ _ _ C) in B0. cbn [neqb RX xeqb] in B0. apply Reqb_true in B0. subst. lra.
    - unfold swag_impl in X. destruct (swag_step fuel c (ost v)) as [s'|s' msg|e|] eqn:S; try discriminate.
      + apply OOk_inj in X. subst v'. reflexivity.
      + exfalso. pose proof (fail_t _ _ _ _ _ (sc_kmax _ _ _ C) (hi_s _ _ _ _ _ I2) S) as FT. apply OOk_inj in X. subst v'. cbn [ost] in Et'. rewrite FT, Et in Et'. injection Et' as ->. congruence. }
  destruct (step_ghost c tb d n F (ost v) t h2 ps fuel (ost v') t' HL C I2 Ht2 G Far SS Et' Nt) as (k & hs & pr & yr & E1 & D1 & Ek & Lk & _ & Ey & Ly & Lp & Ic & Np & Ny & G').
  assert (Ept : pt ps 0 = t). { pose proof (gh_t _ _ _ _ _ G) as Q. rewrite Et in Q. injection Q; auto. }
  pose proof (gh_decr _ _ _ _ _ G) as DC.
  exists pr, yr. cbv zeta. rewrite <- Ek. split; [exact Lk|]. split; [exact Ept|]. split; [exact (proj1 (gh_y _ _ _ _ _ G))|]. do 4 (split; [assumption|]).
  split. { intros i j Hij Hj Q. pose proof (decr_lt d ps i j DC Hij Hj) as Z. unfold pt in Z. rewrite Q in Z. lra. }
  intros q Hq. assert (DD : distinct (pt ps) k) by (apply (decr_distinct d ps k DC); lia).
  split; [exact (interp_exists (pt ps) (pf F ps q) k DD)|]. split.
  { destruct (interp_exists (fun j => if (j <? k)%nat then pt ps j else t') (fun j => if (j <? k)%nat then pf F ps q j else nth q (F t' pr) 0) (k + 1)) as (Q & Q1 & Q2).
    - intros i j Hij Hj. destruct (Nat.ltb_spec i k); [|lia]. destruct (Nat.ltb_spec j k); [apply DD; lia|]. intros Z. pose proof (decr_new d ps hs i DC D1 ltac:(lia)) as W. rewrite Ept, <- E1, Z in W. lra.
    - exists Q. split; [exact Q1|]. split.
      + intros j Hj. specialize (Q2 j ltac:(lia)). cbv beta in Q2. destruct (Nat.ltb_spec j k); [exact Q2|lia].
      + specialize (Q2 k ltac:(lia)). cbv beta in Q2. destruct (Nat.ltb_spec k k); [lia|exact Q2]. }
  assert (IN : forall P b, nth q b 0 = nth q (py ps 0) 0 + (peval (pint P) (pt ps 0 + hs) - peval (pint P) (pt ps 0)) -> is_RInt (peval P) t t' (nth q b 0 - nth q (py ps 0) 0)).
  { intros P0 b Q. rewrite Ept, <- E1 in Q. replace (nth q b 0 - nth q (py ps 0) 0) with (peval (pint P0) t' - peval (pint P0) t) by lra. rewrite <- (pint_deriv P0) at 1. apply poly_int. }
  split.
  - intros P0 L0 I0. apply IN. rewrite (Np q Hq). eapply pred_meaning; [exact (sc_d _ _ _ C)|exact DC|exact D1|exact Lk|rewrite pint_len; lia|]. intros j Hj. rewrite pint_deriv. apply I0. exact Hj.
  - intros P0 L0 I0 Z. apply IN. rewrite (Ny q Hq). eapply corr_meaning; [exact (sc_d _ _ _ C)|exact DC|exact D1|exact Lk|rewrite pint_len; lia| |].
    + intros j Hj. rewrite pint_deriv. apply I0. exact Hj.
    + rewrite pint_deriv, Ept, <- E1. exact Z.
Qed.

(** Exactness: if the last k points lie on a polynomial solution u of degree <= k, the step
    stays on it. *)
Theorem C37_polynomial_exact o fun_ t0 tb y0 n F c ps v fuel v' t t' (u : nat -> list R) : swag_run o fun_ t0 tb y0 n F c ps v -> swag_call c fuel v = OOk v' ->
  s_t (ost v) = Fin t -> s_t (ost v') = Fin t' -> t' <> t -> spacing t < Rabs (tb - t) ->
  (forall q, (q < n)%nat -> (length (u q) <= s_kold (ost v') + 1)%nat) ->
  (forall x q, (q < n)%nat -> nth q (F x (map (fun i => peval (u i) x) (seq 0 n))) 0 = peval (pderiv (u q)) x) ->
  (forall j, (j < s_kold (ost v'))%nat -> snd (nth j ps (0, [])) = map (fun i => peval (u i) (fst (nth j ps (0, [])))) (seq 0 n)) ->
  s_y (ost v') = map Fin (map (fun i => peval (u i) t') (seq 0 n)).
Proof.
  intros H X Et Et' Nt Far Hdeg Hsol Hpast. destruct (C37_adams _ _ _ _ _ _ _ _ _ _ _ _ _ _ H X Et Et' Nt Far) as (pr & yr & Lk & E0 & _ & Ey & Ly & Lp & _ & _ & Q). cbv zeta in *. set (k := s_kold (ost v')) in *.
  assert (Ldp : forall p, length (pderiv p) = (length p - 1)%nat). { assert (PA : forall p m, length (paux m p) = length p) by (induction p as [|b p IHp]; intros m; [reflexivity|]; cbn [paux length]; rewrite IHp; reflexivity). intros [|a p]; [reflexivity|]. cbn [pderiv length]. rewrite PA. lia. }
  assert (NQ : forall x q, (q < n)%nat -> nth q (map (fun i => peval (u i) x) (seq 0 n)) 0 = peval (u q) x) by (intros x q Hq; exact (nth_map_seq_gen (fun i => peval (u i) x) 0 n 0 q Hq)).
  assert (Int : forall q b, is_RInt (peval (pderiv (u q))) t t' (b - peval (u q) t) -> b = peval (u q) t').
  { intros q b Hb. pose proof (is_RInt_unique _ _ _ _ Hb) as U1. pose proof (is_RInt_unique _ _ _ _ (poly_int (u q) t t')) as U2. rewrite U1 in U2. cbv [Rminus] in U2. lra. }
  assert (y00 : forall q, (q < n)%nat -> nth q (snd (nth 0 ps (0, []))) 0 = peval (u q) t) by (intros q Hq; rewrite (Hpast 0%nat) by lia; rewrite E0; apply NQ; exact Hq).
  assert (PP : forall q, (q < n)%nat -> forall j, (j < k)%nat -> peval (pderiv (u q)) (fst (nth j ps (0, []))) = nth q (F (fst (nth j ps (0, []))) (snd (nth j ps (0, [])))) 0) by (intros q Hq j Hj; rewrite (Hpast j Hj), Hsol by exact Hq; reflexivity).
  assert (Epr : pr = map (fun i => peval (u i) t') (seq 0 n)).
  { apply nth_ext with 0 0; [rewrite map_length, seq_length; exact Lp|]. intros q Hq. rewrite Lp in Hq. rewrite NQ by exact Hq. destruct (Q q Hq) as (_ & _ & Q3 & _). apply Int. rewrite <- (y00 q Hq). apply Q3; [rewrite Ldp; specialize (Hdeg q Hq); lia|apply PP; exact Hq]. }
  rewrite Ey. f_equal. apply nth_ext with 0 0; [rewrite map_length, seq_length; exact Ly|]. intros q Hq. rewrite Ly in Hq. rewrite NQ by exact Hq. destruct (Q q Hq) as (_ & _ & _ & Q4). apply Int. rewrite <- (y00 q Hq). apply Q4; [rewrite Ldp; specialize (Hdeg q Hq); lia|apply PP; exact Hq|]. rewrite Epr, Hsol by exact Hq. reflexivity.
Qed.

(** ** cases *)
Definition sw_opts (fs : option (num RX)) (mx : num RX) (k : Z) : SOpts RX :=
  {| so_max := mx; so_rtol := Fin (1/1000); so_rtol_float := true; so_atol := Scalar (Fin (1/1000000)); so_first := fs; so_kmax := k |}.
Definition zero_junk {A : Arith} (kmax n : nat) : Junk A :=
  {| e_phi := repeat (repeat n0 n) (kmax + 2); e_psi := repeat n0 kmax; e_alpha := repeat n0 kmax; e_beta := repeat n0 kmax; e_sig := repeat n0 (kmax + 1);
     e_v := repeat n0 kmax; e_w := repeat n0 kmax; e_g := repeat n0 (kmax + 1); e_gi := repeat n0 (kmax - 1) |}.
Lemma zero_junk_ok {A : Arith} kmax n : junk_ok kmax n (@zero_junk A kmax n).
Proof. unfold junk_ok, zero_junk. cbn [e_phi e_psi e_alpha e_beta e_sig e_v e_w e_g e_gi]. rewrite !repeat_length. repeat split; auto. intros col Hc. apply repeat_spec in Hc. subst. apply repeat_length. Qed.

(** the constructor accepts every problem with default tolerances: the hypotheses of the
    theorems above can be met for every fun, t0 <> t_bound and y0 *)
Theorem C36_case fun_ t0 tb y0 k : t0 <> tb -> y0 <> [] -> (1 <= k <= 12)%Z -> exists c v, swag_real (sw_opts None PInf k) fun_ t0 tb y0 c 0 v /\ ostat v = ORunning.
Proof.
  intros Hne Hy Hk. set (j := @zero_junk RX (Z.to_nat k) (length y0)). pose proof (@zero_junk_ok RX (Z.to_nat k) (length y0)) as J. fold j in J.
  assert (HI : exists c s, swag_init (sw_opts None PInf k) j fun_ (Fin t0) y0 (Fin tb) = inl (c, s)).
  { unfold swag_init. cbn [sw_opts so_max so_rtol so_rtol_float so_atol so_first so_kmax].
    replace ((0 <? k)%Z && (k <? 13)%Z) with true by (symmetry; apply andb_true_intro; split; apply Z.ltb_lt; lia). cbn [negb]. rewrite n0_RX. cbn [nleb RX xleb].
    assert (HV : exists p, validate_tol true (Fin (1/1000)) (Scalar (Fin (1/1000000))) y0 = inl p).
    { unfold validate_tol. rewrite n0_RX. cbn [negb nltb RX xltb]. unfold Rltb. destruct (Rlt_dec (1/1000000) 0); [lra|]. destruct (Rlt_dec (1/1000) 0); [lra|]. eauto. }
    destruct HV as ((rt, at_) & ->). destruct (h_start _ _ _ _ _ _ _ _ _ _) as [h cl]. cbv zeta. destruct J as (J1 & J1b & J2 & J3 & J4 & J5 & J6 & J7 & J8 & J9).
    rewrite (aset_ok (e_phi j)) by (rewrite J1; lia). rewrite aset_ok by (rewrite len_upd; rewrite J1; lia). rewrite (aset_ok (e_sig j)) by lia. rewrite (aset_ok (e_g j)) by lia. rewrite aset_ok by (rewrite len_upd; lia). eauto. }
  destruct HI as (c & s & E). exists c, (onew s). split; [|reflexivity]. constructor; auto; try discriminate. exists j, s. split; [exact J|]. split; [exact E|]. constructor.
Qed.

(** a run in rounded arithmetic: y' = -y on [1, 4]: the order rises to 4 or more, steps are
    rejected, the run finishes at t_bound with y close to exp(-3) *)
Definition mkso {A : Arith} (mx rt at_ : num A) (fs : option (num A)) (k : Z) : SOpts A := {| so_max := mx; so_rtol := rt; so_rtol_float := true; so_atol := Scalar at_; so_first := fs; so_kmax := k |}.
Definition qopts (k : Z) : SOpts QX := @mkso QX QPInf (QF (1#10000)) (QF (1#1000000)) None k.
Fixpoint qgo (c : SCfg QX) (n : nat) (v : OSolver QX (SSt QX)) (acc : list nat) : list nat * option (OSolver QX (SSt QX)) :=
  match n with
  | O => (acc, Some v)
  | S m => match ostat v with
           | ORunning => match swag_call c 60 v with OOk v' => qgo c m v' (acc ++ [s_kold (ost v')]) | _ => (acc, None) end
           | _ => (acc, Some v)
           end
  end.
Definition qrun (o : SOpts QX) f t0 y0 tb n := match swag_init o (@zero_junk QX (Z.to_nat (so_kmax o)) (length y0)) f t0 y0 tb with inl (c, s) => qgo c n (onew s) [] | inr _ => ([], None) end.
Definition qsum (r : list nat * option (OSolver QX (SSt QX))) : list nat * nat * bool * bool :=
  (fst r, match snd r with Some v => s_nfs (ost v) | None => 0%nat end,
   match snd r with Some v => match ostat v with OFinished => true | _ => false end | None => false end,
   match snd r with Some v => match s_y (ost v) with [y] => q_leb (q_abs (q_sub y (QF (497#10000)))) (QF (1#1000)) | _ => false end | None => false end).
Definition sdecay : num QX -> list (num QX) -> list (num QX) := fun _ y => map (fun a => q_opp a) y.
Example C34_case : qsum (qrun (qopts 12) sdecay (QF 1) [QF 1] (QF 4) 40) =
  ([1; 1; 2; 2; 2; 2; 2; 3; 3; 3; 3; 4; 4; 4; 4; 4; 5; 5; 6; 6]%nat, 1%nat, true, true).
Proof. vm_compute. reflexivity. Qed.

(** ** C36 fails at t = 0: the minimum step is 0 there, so step() need not return *)
Record stuck (c : SCfg RX) (s : SSt RX) : Prop := {
  sk_k : s_k s = 1%nat; sk_t : s_t s = Fin 0; sk_y : length (s_y s) = 1%nat; sk_h : exists h, s_h s = Fin h /\ h <> 0; sk_phi : length (nth 0 (s_phi s) []) = 1%nat; sk_inv : sinv c s }.
Lemma xmul_nan a : xmul NaN a = NaN. Proof. reflexivity. Qed.
Lemma norm_nan : @norm RX [NaN] = NaN.
Proof. reflexivity. Qed.
Lemma norm_nil : @norm RX [] = NaN.
Proof.
  unfold norm. cbn [length]. rewrite nofnat_RX. change (@ndot RX [] []) with (@n0 RX). rewrite n0_RX. cbn [ndiv RX xdiv INR].
  destruct (Req_EM_T 0 0) as [_|N]; [|lra]. unfold xsgn, inf_of_sign. destruct (Rlt_dec 0 0); [lra|]. destruct (Rlt_dec 0 0); [lra|].
  repeat match goal with |- context [if ?b then _ else _] => destruct b; try lra end; reflexivity.
Qed.
Lemma stuck_trial c s i : kmax_ok c -> (forall t y, t <> 0 -> s_fn c (Fin t) y = [NaN]) -> stuck c s ->
  exists s', swag_trial c s i (Fin 0 : num RX) = inl (SAgain s') /\ stuck c s'.
Proof.
  intros K HF [Ek Et Ey (h & Eh & Hh) Ep I].
  destruct (swag_trial_ok c s i (Fin 0 : num RX) K I) as (co & phi & p & yp & wt & e & knew & TD & CA).
  destruct TD as [_ _ _ _ Tp Ty _ Te Tk Tr]. rewrite Ek in *. rewrite Et, Eh in Ty. cbn [nadd RX xadd] in Ty. replace (0 + h) with h in Ty by lra. rewrite (HF h p Hh) in Ty.
  assert (L0 : exists z, nth 0 phi [] = [z]).
  { pose proof (ps_km1 _ _ _ _ _ _ _ Tp) as Q. change (1 - 1)%nat with 0%nat in Q. rewrite Q. unfold star. destruct (nth 0 (s_phi s) []) as [|z [|]] eqn:Z; try discriminate.
    change (num RX) with xr in *. destruct (_ && _); unfold vscale; rewrite ?Z; eexists; reflexivity. }
  destruct L0 as (z & Ez).
  assert (T4 : vsub yp (nth 0 phi []) = [NaN]) by (rewrite Ty, Ez; reflexivity).
  assert (NN : @norm RX (map2 (nmul RX) [NaN] (map (fun x => ndiv RX n1 x) wt)) = NaN) by (destruct wt as [|w wt]; [exact norm_nil|destruct wt; reflexivity]).
  assert (AN : forall a : xr, xmul a NaN = NaN) by (intros []; reflexivity).
  assert (Er : err e = NaN). { rewrite Tr. rewrite T4. rewrite NN. rewrite Eh. reflexivity. }
  assert (Ek2 : erk e = NaN).
  { revert Te. unfold estimate. cbn [Nat.ltb Nat.leb]. unfold aget at 1. destruct (nth_error phi 0) as [ph0|] eqn:E0; [|discriminate].
    assert (ph0 = nth 0 phi []) by (symmetry; apply nth_error_nth; exact E0). subst ph0. rewrite T4. rewrite NN.
    destruct (aget (gg co) _) as [ga|]; [|discriminate]. destruct (aget (gg co) _) as [gb|]; [|discriminate]. destruct (aget (sig co) _) as [sg|]; [|discriminate]. destruct (aget sw_gstr _) as [gs|]; [|discriminate].
    intros Q. apply inl_inj in Q. subst e. cbn [erk]. rewrite Eh. reflexivity. }
  destruct CA as [(B & _)|(B & co' & phi' & RS & SI & E)].
  { rewrite Er in B. discriminate. }
  assert (Rh : @retry_h RX (S i) (erk e) (s_h s) = Fin (h * (1/2))).
  { unfold retry_h. rewrite Ek2, Eh, p5_RX, quart_RX, half_RX. change (nmul RX (Fin (1/4)) NaN) with NaN. cbn [nltb RX xltb]. rewrite andb_false_r. reflexivity. }
  cbv zeta in E. cbn [rejected s_h] in E. rewrite Rh in E. cbn [nabs RX xabs nltb xltb] in E. destruct (Rltb_spec (Rabs (h * (1/2))) 0) as [L|L]; [pose proof (Rabs_pos (h * (1/2))); lra|].
  eexists. split; [exact E|].
  assert (Kn : knew = 1%nat) by (destruct Tk as (_ & [Q|[_ Q]] & _); lia).
  constructor; cbn [rejected s_k s_t s_y s_h s_phi].
  - unfold retry_k. rewrite Kn. destruct (3 <=? S i)%nat; reflexivity.
  - exact Et.
  - exact Ey.
  - exists (h * (1/2)). split; [exact Rh|lra].
  - rewrite (rs_lo _ _ _ _ _ _ RS) by lia. rewrite map_length, Ez. pose proof (ps_k _ _ _ _ _ _ _ Tp) as Q. change (0 + 1)%nat with 1%nat. rewrite Q. unfold zeros. destruct (s_y s) as [|y1 [|]]; try discriminate. reflexivity.
  - exact SI.
Qed.

Lemma stuck_loop c s0 : kmax_ok c -> (forall t y, t <> 0 -> s_fn c (Fin t) y = [NaN]) -> forall fuel s i, stuck c s -> swag_loop fuel c s0 s i (Fin 0 : num RX) = IFuel.
Proof. intros K HF. induction fuel as [|fuel IH]; intros s i H; [reflexivity|]. cbn [swag_loop]. destruct (stuck_trial c s i K HF H) as (s' & E & H'). rewrite E. apply IH. exact H'. Qed.
Lemma not_tight (wt : list (num RX)) : nltb RX sw_p5eps (nmul RX sw_twou (norm (vdiv [Fin 0] wt))) = false.
Proof.
  assert (Z : vdiv ([Fin 0] : list (num RX)) wt = [] \/ vdiv ([Fin 0] : list (num RX)) wt = [NaN] \/ vdiv ([Fin 0] : list (num RX)) wt = map Fin [0]).
  { destruct wt as [|w wt]; [left; reflexivity|right]. unfold vdiv. cbn [map2]. destruct wt; cbn [map2]; change (ndiv RX) with xdiv; unfold xdiv.
    all: destruct w as [w| | |]; try (right; reflexivity); try (left; reflexivity).
    all: destruct (Req_EM_T w 0) as [E|E]; [left|right; cbn [map]; f_equal; f_equal; field; exact E].
    all: unfold inf_of_sign, xsgn; destruct (Rlt_dec 0 0); [lra|]; repeat match goal with |- context [if ?b then _ else _] => destruct b; try lra end; reflexivity. }
  rewrite p5_RX. destruct Z as [Z|[Z|Z]]; rewrite Z; [rewrite norm_nil; reflexivity|reflexivity|].
  rewrite norm_fin by discriminate. assert (X : rms [0] = 0). { unfold rms. cbn. rewrite Rmult_0_r, ?Rplus_0_l, ?Rplus_0_r. unfold Rdiv. rewrite Rmult_0_l. apply sqrt_0. }
  rewrite X. assert (T : exists a, @sw_twou RX = Fin a) by (eexists; unfold sw_twou; rewrite nsmall_RX; reflexivity). destruct T as (a & ->). cbn [nmul RX xmul nltb xltb]. unfold Rltb. destruct (Rlt_dec _ _); [lra|reflexivity].
Qed.

(** For every fun that returns nan as soon as t is not 0, started at t0 = 0 with y0 = [0]
    (whatever the options), the first step() call does not return, however many trials are
    allowed.  The code has no other bound on the number of trials.  At every other t0 the
    same problem fails with "Required step size ..." (C36_step_returns). *)
Theorem C36_hang_refuted o fun_ tb c v : swag_real o fun_ 0 tb [Fin 0] c 0 v ->
  (forall t y, t <> 0 -> fun_ (Fin t) y = [NaN]) -> length (fun_ (Fin 0) [Fin 0]) = 1%nat ->
  ostat v = ORunning /\ forall fuel, swag_call c fuel v = OFuel.
Proof.
  intros [H1 H2 H3 H4 (j & s & J & E & H)] HN HL. inversion H; subst. split; [reflexivity|]. intros fuel.
  destruct (init_RX o j fun_ 0 tb _ c s H1 H2 H3 H4 J E) as (d & h & C & Hd & I & Hh & _).
  destruct (init_inv _ _ _ _ _ _ _ _ E J) as (K & SI & _ & Ef & Etb & _ & _ & Et & Ey & _ & Ek & Eko & _ & Ep & _).
  unfold swag_call, ostep, onew. cbn [ostat ost v_n sw_view v_t]. rewrite Ey. cbn [length Nat.eqb orb]. rewrite Et, Etb. cbn [neqb RX xeqb].
  assert (B0 : Reqb 0 tb = false) by (apply Reqb_false; exact H1). rewrite B0. unfold swag_impl, swag_step.
  destruct (kle4_step c s) as [kle nt] eqn:EK. rewrite Et, Etb, fouru_RX. change (nmul RX (Fin (4 * small)) (nabs RX (Fin 0))) with (Fin (4 * small * Rabs 0)). rewrite Rabs_R0, Rmult_0_r.
  change (nabs RX (nsub RX (Fin tb) (Fin 0))) with (Fin (Rabs (tb + - 0))). cbn [nleb RX xleb].
  destruct (Rleb_spec (Rabs (tb + - 0)) 0) as [L|L]. { exfalso. pose proof (Rabs_pos_lt (tb + - 0) ltac:(lra)). lra. }
  destruct (trial_h_RX c tb d s 0 h C (hi_t _ _ _ _ _ I) (hi_h _ _ _ _ _ I) (hi_d _ _ _ _ _ I) Hd) as (h0 & E0 & P1 & _ & _ & _ & P5 & _). rewrite E0. cbv zeta.
  change (nabs RX (Fin h0)) with (Fin (Rabs h0)). change (nltb RX (Fin (Rabs h0)) (Fin 0)) with (Rltb (Rabs h0) 0).
  destruct (Rltb_spec (Rabs h0) 0) as [L0|L0]; [pose proof (Rabs_pos h0); lra|]. rewrite Ey. pose proof (not_tight (s_wt s)) as NT. rewrite NT.
  rewrite stuck_loop; [reflexivity|exact K|intros; rewrite Ef; auto|].
  assert (ST : sinv c (sw_set s (Fin 0 : num RX) [Fin 0] [Fin 0] (Fin h0) (s_kold s) kle nt)). { destruct SI as [S1 S2]. constructor; [exact S1|exact S2]. }
  constructor; cbn [sw_set s_k s_t s_y s_h s_phi]; [exact Ek|reflexivity|reflexivity| |rewrite Ep; exact HL|exact ST].
  exists h0. split; [reflexivity|]. apply P5. intros ->. lra.
Qed.
Example C36_hang_case : exists fun_ c v, swag_real (sw_opts None PInf 12) fun_ 0 1 [Fin 0] c 0 v /\ (forall t y, t <> 0 -> fun_ (Fin t) y = [NaN]) /\ length (fun_ (Fin 0) [Fin 0]) = 1%nat.
Proof.
  exists (fun t _ => match t with Fin x => if Req_EM_T x 0 then [Fin 1] else [NaN] | _ => [NaN] end). 
  destruct (C36_case (fun t _ => match t with Fin x => if Req_EM_T x 0 then [Fin 1] else [NaN] | _ => [NaN] end) 0 1 [Fin 0] 12) as (c & v & H & _); [lra|discriminate|lia|].
  exists c, v. split; [exact H|]. split; [intros t y Ht; destruct (Req_EM_T t 0); [contradiction|reflexivity]|destruct (Req_EM_T 0 0); reflexivity].
Qed.

(** C35, C37: every finite problem with default tolerances meets the hypotheses at its start,
    and for y' = 1 from t0 = 1, y0 = 0, first_step = 1/2 the first call takes a step to 3/2 *)
Lemma npmax_two a b : exists m, @npmax RX (Fin a) (Fin b) = Fin m /\ a <= m /\ b <= m.
Proof. unfold npmax. cbn. destruct (Rleb_spec b a); eexists; (split; [reflexivity|lra]). Qed.
Lemma npmin_two a b : exists m, @npmin RX (Fin a) (Fin b) = Fin m /\ (m = a \/ m = b).
Proof. unfold npmin. cbn. destruct (Rleb_spec a b); eexists; (split; [reflexivity|auto]). Qed.
Lemma swag_builds o fun_ (t0 tb : R) (y0 : list R) : so_rtol o = Fin (1/1000) -> so_rtol_float o = true -> so_atol o = Scalar (Fin (1/1000000)) -> (1 <= so_kmax o <= 12)%Z ->
  so_max o = PInf -> (so_first o = None \/ exists f, so_first o = Some (Fin f) /\ 0 < f <= Rabs (tb - t0)) ->
  exists j c s rt a, junk_ok (Z.to_nat (so_kmax o)) (length y0) j /\ swag_init o j fun_ (Fin t0) (map Fin y0) (Fin tb) = inl (c, s) /\ s_rtol c = Fin rt /\ 0 <= rt /\ s_atol c = Scalar (Fin a) /\ 0 < a.
Proof.
  intros E1 E2 E3 Hk E5 E6. set (j := @zero_junk RX (Z.to_nat (so_kmax o)) (length y0)). pose proof (@zero_junk_ok RX (Z.to_nat (so_kmax o)) (length y0)) as J. fold j in J.
  exists j. unfold swag_init. rewrite E1, E2, E3, E5.
  replace ((0 <? so_kmax o)%Z && (so_kmax o <? 13)%Z) with true by (symmetry; apply andb_true_intro; split; apply Z.ltb_lt; lia). cbn [negb]. rewrite n0_RX. cbn [nleb RX xleb].
  assert (HV : exists rt a, validate_tol true (Fin (1/1000)) (Scalar (Fin (1/1000000))) (map Fin y0 : list (num RX)) = inl (Fin rt, Scalar (Fin a)) /\ 0 <= rt /\ 0 < a).
  { unfold validate_tol. rewrite n0_RX. cbn [negb nltb RX xltb]. unfold Rltb. destruct (Rlt_dec (1/1000000) 0); [lra|]. destruct (Rlt_dec (1/1000) 0); [lra|]. cbv zeta.
    cbn [nsqrt n_tiny RX xsqrt n_epsneg]. pose proof sqrt_tiny_pos. destruct (Rlt_dec (/ 2 ^ 1022) 0) as [L|L]. { exfalso. pose proof (Rinv_0_lt_compat (2 ^ 1022) ltac:(apply pow_lt; lra)). lra. }
    rewrite !lit_RX. assert (E : 0 < / 2 ^ 53) by (apply Rinv_0_lt_compat, pow_lt; lra). cbn [nmul RX xmul].
    destruct (npmax_two (1/1000) (Q2R 10 * / 2 ^ 53)) as (m1 & -> & M1 & _). destruct (npmin_two m1 (Q2R (1#10))) as (m2 & -> & M2). destruct (npmax_two (1/1000000) (sqrt (/ 2 ^ 1022))) as (m3 & -> & M3 & _).
    exists m2, m3. split; [reflexivity|]. assert (0 < Q2R (1#10)) by (unfold Q2R; cbn; lra). split; [destruct M2; subst m2; lra|lra]. }
  destruct HV as (rt & a & -> & Hrt & Ha).
  match goal with |- context [match ?x with inl x0 => let '(h, cl) := x0 in _ | inr e => _ end] => assert (HF : exists h cl, x = inl (h, cl)) end.
  { destruct E6 as [->|(f & -> & Hf)]; [destruct (h_start _ _ _ _ _ _ _ _ _ _) as [h cl]; eauto|].
    cbn [nleb RX xleb]. destruct (Rleb_spec f 0); [lra|]. change (nabs RX (nsub RX (Fin tb) (Fin t0))) with (Fin (Rabs (tb + - t0))). cbn [nltb RX xltb]. destruct (Rltb_spec (Rabs (tb + - t0)) f) as [L|L]; [unfold Rminus in Hf; lra|]. eauto. }
  destruct HF as (h & cl & ->). cbv zeta. pose proof J as JJ. destruct J as (J1 & J1b & J2 & J3 & J4 & J5 & J6 & J7 & J8 & J9).
  rewrite (aset_ok (e_phi j)) by (rewrite J1; lia). rewrite aset_ok by (rewrite len_upd; rewrite J1; lia). rewrite (aset_ok (e_sig j)) by lia. rewrite (aset_ok (e_g j)) by lia. rewrite aset_ok by (rewrite len_upd; lia).
  do 4 eexists. split; [exact JJ|]. split; [reflexivity|]. cbn [s_rtol s_atol]. auto.
Qed.
Theorem C35_case fun_ t0 tb y0 n F k : t0 <> tb -> y0 <> [] -> (1 <= k <= 12)%Z -> lifts n F fun_ -> length y0 = n ->
  exists c v, swag_run (sw_opts None PInf k) fun_ t0 tb y0 n F c [(t0, y0)] v /\ ostat v = ORunning.
Proof.
  intros. destruct (swag_builds (sw_opts None PInf k) fun_ t0 tb y0) as (j & c & s & rt & a & J & E & _); auto.
  exists c, (onew s). split; [|reflexivity]. constructor; auto; try discriminate. exists j, s. split; [congruence|]. split; [exact E|constructor].
Qed.
Definition one_F : R -> list R -> list R := fun _ _ => [1].
Definition one_rhs : num RX -> list (num RX) -> list (num RX) := fun _ _ => [Fin 1].
Example C37_case : exists c v v', swag_run (sw_opts (Some (Fin (1/2))) PInf 12) one_rhs 1 2 [0] 1 one_F c [(1, [0])] v /\
  swag_call c 1 v = OOk v' /\ s_t (ost v) = Fin 1 /\ s_t (ost v') = Fin (3/2) /\ spacing 1 < Rabs (2 - 1) /\ s_y (ost v') = [Fin (1/2)] /\ ostat v' = ORunning.
Proof.
  assert (HL : lifts 1 one_F one_rhs) by (unfold lifts; intros; split; reflexivity).
  destruct (swag_builds (sw_opts (Some (Fin (1/2))) PInf 12) one_rhs 1 2 [0]) as (j & c & s & rt & a & J & E & Er & Hr & Ea & Ha); auto; [cbn; lia|right; exists (1/2); split; [reflexivity|]; rewrite Rabs_pos_eq; lra|].
  assert (SR : swag_run (sw_opts (Some (Fin (1/2))) PInf 12) one_rhs 1 2 [0] 1 one_F c [(1, [0])] (onew s)).
  { constructor; auto; try discriminate; try lra. exists j, s. split; [exact J|]. split; [exact E|constructor]. }
  assert (J' : junk_ok (Z.to_nat 12) (length (map Fin [0] : list (num RX))) j) by exact J.
  assert (N12 : 1 <> 2) by lra. destruct (init_RX (sw_opts (Some (Fin (1/2))) PInf 12) j one_rhs 1 2 (map Fin [0]) c s N12 ltac:(discriminate) ltac:(discriminate) ltac:(discriminate) J' E) as (d & h & C & Hd & I & Hh & Hf & _).
  specialize (Hf (1/2) eq_refl). assert (Ed : d = 1) by (destruct (sc_d _ _ _ C); lra). subst d. assert (Eh : h = 1/2) by (rewrite Rabs_pos_eq in Hf; lra). subst h.
  destruct (init_inv _ _ _ _ _ _ _ _ E J') as (K & SI & _ & Ef & Etb & _ & Em & Et & Ey & _ & Ek & _).
  assert (G : ghost 1 1 one_F s [(1, [0])]) by (exact (init_ghost _ _ _ _ _ _ [0] _ _ _ _ HL eq_refl J E)).
  assert (Sp : spacing 1 < 1). { unfold spacing, small. rewrite Rabs_R1. assert (/ 2 ^ 53 <= / 2 ^ 10) by (apply Rinv_le_contravar; [apply pow_lt; lra|apply Rle_pow; [lra|lia]]). assert (/ 2 ^ 105 <= / 2 ^ 10) by (apply Rinv_le_contravar; [apply pow_lt; lra|apply Rle_pow; [lra|lia]]). lra. }
  assert (Sp2 : smin 1 < 1/2). { unfold smin, small. rewrite Rabs_R1. assert (/ 2 ^ 53 <= / 2 ^ 10) by (apply Rinv_le_contravar; [apply pow_lt; lra|apply Rle_pow; [lra|lia]]). assert (/ 2 ^ 105 <= / 2 ^ 10) by (apply Rinv_le_contravar; [apply pow_lt; lra|apply Rle_pow; [lra|lia]]). lra. }
  destruct (trial_h_RX c 2 1 s 1 (1/2) C (hi_t _ _ _ _ _ I) (hi_h _ _ _ _ _ I) (hi_d _ _ _ _ _ I) Hd) as (h0 & E0 & _ & _ & _ & _ & _ & P6).
  assert (h0 = 1/2) as ->. { apply P6. split; [lra|]. intros m Hm. rewrite Em in Hm. discriminate. }
  set (s1 := started c s (Fin (1/2) : num RX)).
  assert (I1 : hinv c 1 s1 1 (1/2)) by (apply (started_hinv c 1 s 1 (1/2)); [exact I|lra]). assert (G1 : ghost 1 1 one_F s1 [(1, [0])]) by (apply started_ghost; exact G).
  assert (Ek1 : s_k s1 = 1%nat) by (unfold s1; rewrite (proj1 (started_fields c s _)); exact Ek).
  destruct (swag_trial_ok c s1 0 (Fin (smin 1) : num RX) K (hi_s _ _ _ _ _ I1)) as (co & phi & p & yp & wt & e & knew & TD & CA).
  destruct (trial_real c 1 1 one_F s1 _ (1/2) co phi p yp wt e knew G1 (hi_h _ _ _ _ _ I1) ltac:(lra) (hi_s _ _ _ _ _ I1) TD) as (_ & Rp & _ & Rq & Rg & _).
  rewrite Ek1 in *. specialize (Rp 0%nat ltac:(lia)).
  assert (Ep0 : nth 0 phi [] = [Fin 1]). { eapply reals_unique; [exact Rp|]. exists [1]. do 2 (split; [reflexivity|]). intros q Hq. replace q with 0%nat by lia. cbn. unfold sdd, dd, pf, one_F, nprod. cbn. lra. }
  assert (Epp : exists pv, p = [Fin pv]). { destruct Rq as (l & -> & L & _). destruct l as [|x [|]]; try discriminate. eexists; reflexivity. }
  destruct Epp as (pv & Ep).
  assert (Ewt : exists w, wt = [Fin w] /\ 0 < w).
  { rewrite (td_wt _ _ _ _ _ _ _ _ _ TD), Ep, Er, Ea. unfold s1. destruct (started_fields c s (Fin (1/2) : num RX)) as (_ & _ & _ & Q & _). rewrite Q, Ey. cbn [map]. unfold calculate_scale_mean, bcast, vadd. cbn [length repeat map map2]. rewrite half_RX. cbn [nmul nadd nabs RX xmul xadd xabs].
    eexists. split; [reflexivity|]. pose proof (Rabs_pos pv). pose proof (Rabs_pos 0). nra. }
  destruct Ewt as (w & Ewt & Hw).
  assert (Eyp : yp = [Fin 1]) by (rewrite (td_yp _ _ _ _ _ _ _ _ _ TD), Ef; reflexivity).
  assert (Eer : nleb RX (err e) sw_eps = true).
  { rewrite (td_err _ _ _ _ _ _ _ _ _ TD). rewrite Ek1, Ep0, Eyp, Ewt, (hi_h _ _ _ _ _ I1). change (1 - 1)%nat with 0%nat. rewrite (Rg 0%nat) by lia. rewrite (Rg 1%nat) by lia.
    match goal with |- context [norm ?x] => assert (NX : x = map Fin [0]) end.
    { unfold vsub. cbn [map2 map]. change (ndiv RX) with xdiv. change (nmul RX) with xmul. rewrite n1_RX. cbn [nsub RX xsub xopp xadd xdiv]. destruct (Req_EM_T w 0); [lra|]. cbn [xmul]. f_equal. f_equal. ring. }
    rewrite NX, norm_fin by discriminate. unfold sw_eps. rewrite n1_RX. cbn [nabs nmul nsub RX xabs xmul xsub xopp xadd nleb xleb]. apply Rleb_true.
    assert (X : rms [0] = 0). { unfold rms. cbn. rewrite Rmult_0_r, ?Rplus_0_l, ?Rplus_0_r. unfold Rdiv. rewrite Rmult_0_l. apply sqrt_0. } rewrite X. cbn [gr]. lra. }
  destruct CA as [(_ & s' & ET & SI' & AS & _)|(B & _)]; [|rewrite Eer in B; discriminate].
  assert (ES : swag_step 1 c s = IDone s').
  { unfold swag_step. unfold s1, started in ET. destruct (kle4_step c s) as [kle nt]. cbv zeta. fold (min_step s). rewrite (min_step_RX s 1 (hi_t _ _ _ _ _ I)). fold (smin 1). rewrite E0, Et, Etb.
    change (nabs RX (nsub RX (Fin 2) (Fin 1))) with (Fin (Rabs (2 + - (1)))). change (nleb RX (Fin (Rabs (2 + - (1)))) (Fin (smin 1))) with (Rleb (Rabs (2 + - (1))) (smin 1)).
    destruct (Rleb_spec (Rabs (2 + - (1))) (smin 1)) as [L|L]. { exfalso. rewrite Rabs_pos_eq in L by lra. lra. }
    change (nltb RX (nabs RX (Fin (1/2))) (Fin (smin 1))) with (Rltb (Rabs (1/2)) (smin 1)). destruct (Rltb_spec (Rabs (1/2)) (smin 1)) as [L1|L1]. { exfalso. rewrite Rabs_pos_eq in L1 by lra. lra. }
    rewrite Ey. cbn [map]. pose proof (not_tight (s_wt s)) as NT. rewrite NT. cbn [swag_loop]. rewrite Et, Ey in ET. cbn [map] in ET. rewrite ET. reflexivity. }
  assert (Et3 : s_t s' = Fin (3/2)). { rewrite (as_t _ _ _ _ _ _ _ _ _ _ _ _ AS), (hi_t _ _ _ _ _ I1), (hi_h _ _ _ _ _ I1). cbn [nadd RX xadd]. f_equal. lra. }
  assert (EC : swag_call c 1 (onew s) = OOk (mkO s' ORunning (Some (Fin 1)))).
  { unfold swag_call, ostep, onew. cbn [ostat ost v_n sw_view v_t]. rewrite Ey, Et, Etb. cbn [map length Nat.eqb orb neqb RX xeqb]. assert (B0 : Reqb 1 2 = false) by (apply Reqb_false; lra). rewrite B0. unfold swag_impl. rewrite ES. 
    pose proof (status_RX c 2 1 s' (3/2) C Et3) as Q. rewrite Etb in Q. cbn [v_t sw_view] in Q. rewrite Q. replace (Rleb 0 (1 * (3/2 - 2))) with false; [reflexivity|]. symmetry. apply Rleb_false. lra. }
  exists c, (onew s), (mkO s' ORunning (Some (Fin 1))). split; [exact SR|]. split; [exact EC|]. split; [exact Et|]. split; [exact Et3|]. split; [rewrite Rabs_pos_eq; lra|]. split; [|reflexivity].
  assert (X := C37_polynomial_exact _ _ _ _ _ _ _ _ _ _ 1%nat _ 1 (3/2) (fun _ => [-(1); 1]) SR EC Et Et3 ltac:(lra) ltac:(rewrite Rabs_pos_eq; lra)). cbn [ost] in X.
  rewrite (as_kold _ _ _ _ _ _ _ _ _ _ _ _ AS) in X. cbn [ost]. rewrite X.
  - cbn. f_equal. f_equal. lra.
  - intros q Hq. cbn. lia.
  - intros x q Hq. replace q with 0%nat by lia. cbn. lra.
  - intros q Hq. replace q with 0%nat by lia. cbn. f_equal. lra.
Qed.
