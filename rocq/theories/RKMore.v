(** Further lemmas about explicit RK stepping, used by Prop_RK.v. *)
From Coq Require Import String ZArith Reals Lra Psatz QArith Qreals Bool Lia List.
From Verif Require Import Arith Common Stiff RK RKGen RKHist RX RKReal HStart RKInit RKInitReal RKStep RKBuilt SpecRK.
Import ListNotations.
Open Scope nat_scope.

Section Any.
Context {A : Arith}.
Notation num := (num A).
Notation vec := (list num).
Implicit Types (m : Meth A) (c : Cfg A) (s : St A) (v : Solver A).

(** ** what a failure means *)

(** an overflow abort comes from the error norm of a full trial step *)
Lemma trial_overflow m c s ha ms rej s' : min_stages m ->
  trial_step m c s ha ms rej = Abort s' OVERFLOW ->
  exists Ks, let h := nmul A ha (direction c) in
    full_stages m c (t s) (y s) (f s) h Ks /\
    let yn := m_sol m (y s) h Ks in
    let en := err_norm c (y s) yn (m_err m h (if m_fsal m then Ks ++ [fn c (nadd A (t s) h) yn] else Ks)) in
    (nisnan A en || nisinf A en) = true.
Proof.
  intros Hmin. unfold trial_step.
  destruct (nltb A ha ms) eqn:Hsmall; [discriminate|].
  set (h := nmul A ha (direction c)).
  set (npre := match m_pre m with None => m_stages m - 1 | Some _ => m_stages m - 2 end).
  destruct (stages m (fn c) (t s) (y s) h npre [f s] (calls s)) as [K1 cl1] eqn:HS1.
  set (pre := match m_pre m with None => None | Some g =>
      let '(y_pre, err) := g (y s) h K1 in Some (err_norm c (y s) y_pre err) end).
  destruct (match pre with Some e => nltb A n1 e | None => false end); [discriminate|].
  assert (HS2 : exists K2 cl2,
     (match m_pre m with None => (K1, cl1)
        | Some _ => stages m (fn c) (t s) (y s) h 1 K1 cl1 end) = (K2, cl2) /\
      full_stages m c (t s) (y s) (f s) h K2).
  { assert (HA : stages m (fn c) (t s) (y s) h (m_stages m - 1) [f s] (calls s) =
       match m_pre m with None => (K1, cl1)
        | Some _ => stages m (fn c) (t s) (y s) h 1 K1 cl1 end).
    { unfold npre, min_stages in *. destruct (m_pre m).
      - replace (m_stages m - 1) with ((m_stages m - 2) + 1) by lia.
        rewrite stages_app. rewrite HS1. reflexivity.
      - exact HS1. }
    rewrite <- HA.
    destruct (stages m (fn c) (t s) (y s) h (m_stages m - 1) [f s] (calls s)) as [K2 cl2] eqn:HS2.
    exists K2, cl2. split; [reflexivity|].
    apply stages_spec in HS2. simpl length in HS2. destruct HS2 as (HL2 & HF2 & HE2 & HC2).
    assert (Hs : 1 <= m_stages m) by (unfold min_stages in Hmin; destruct (m_pre m); lia).
    split; [lia|]. split.
    - rewrite (firstn_nth_agree [f s] K2 1 0 [] HF2); auto.
    - intros i Hi. apply HE2. lia. }
  destruct HS2 as (K2 & cl2 & -> & HFS).
  intros H. exists K2. cbv zeta. split; [exact HFS|]. revert H.
  unfold comp_sol_err. destruct (m_fsal m).
  - set (yn := m_sol m (y s) h K2). set (K3 := K2 ++ [fn c (nadd A (t s) h) yn]).
    destruct (nltb A (err_norm c (y s) yn (m_err m h K3)) n1).
    + destruct (accept_factor c s (standard_sc s) h (err_norm c (y s) yn (m_err m h K3))); discriminate.
    + destruct (_ || _); [reflexivity|discriminate].
  - set (yn := m_sol m (y s) h K2).
    destruct (nltb A (err_norm c (y s) yn (m_err m h K2)) n1).
    + destruct (accept_factor c s (standard_sc s) h (err_norm c (y s) yn (m_err m h K2))); discriminate.
    + destruct (_ || _); [reflexivity|discriminate].
Qed.

Lemma loop_overflow m c fuel : min_stages m -> forall s ha ms rej s',
  rk_loop fuel m c s ha ms rej = Fail s' OVERFLOW ->
  exists h Ks, full_stages m c (t s) (y s) (f s) h Ks /\
    let yn := m_sol m (y s) h Ks in
    let en := err_norm c (y s) yn (m_err m h (if m_fsal m then Ks ++ [fn c (nadd A (t s) h) yn] else Ks)) in
    (nisnan A en || nisinf A en) = true.
Proof.
  intros Hmin. induction fuel as [|fuel IH]; intros s ha ms rej s' H; cbn [rk_loop] in H; [discriminate|].
  pose proof (trial_inv m c s ha ms rej Hmin) as HT.
  destruct (trial_step m c s ha ms rej) as [s1 h h1 tn yn en|s1 h1|s1 m1|e] eqn:ET; try discriminate.
  - unfold finish in H.
    match type of H with context [if m_fsal m then ?a else ?b] =>
      destruct (if m_fsal m then a else b) end.
    match type of H with context [diagnose ?a ?b ?x ?d ?e] =>
      destruct (diagnose a b x d e) end; discriminate.
  - destruct HT as (_ & (C1&C2&C3&_) & _). apply IH in H. rewrite C1, C2, C3 in H. exact H.
  - inversion H; subst. apply trial_overflow in ET; auto. destruct ET as (Ks & HE).
    eexists; exists Ks. exact HE.
Qed.

Lemma step_overflow m c k s s' : min_stages m -> step_impl k m c s = Fail s' OVERFLOW ->
  exists h Ks, full_stages m c (t s) (y s) (f s) h Ks /\
    let yn := m_sol m (y s) h Ks in
    let en := err_norm c (y s) yn (m_err m h (if m_fsal m then Ks ++ [fn c (nadd A (t s) h) yn] else Ks)) in
    (nisnan A en || nisinf A en) = true.
Proof.
  intros Hmin H. unfold step_impl in H. destruct (reassess_stepsize c s) as [[h0 ms] sc].
  apply loop_overflow in H; auto.
Qed.

(** ** scratch attributes do not influence a trial: needed for the hang *)
Definition scratch_eq s s' : Prop :=
  t s' = t s /\ y s' = y s /\ f s' = f s /\ standard_sc s' = standard_sc s /\
  max_factor s' = max_factor s /\ h_previous s' = h_previous s /\ error_norm_old s' = error_norm_old s.

Lemma stages_fst m g tt yy h k : forall K cl cl2,
  fst (stages m g tt yy h k K cl) = fst (stages m g tt yy h k K cl2).
Proof. induction k; intros; simpl; auto. Qed.

Lemma trial_scratch m c s s2 ha ms rej s1 h1 : scratch_eq s s2 ->
  trial_step m c s ha ms rej = Reject s1 h1 ->
  exists s3, trial_step m c s2 ha ms true = Reject s3 h1 /\ scratch_eq s s3.
Proof.
  intros (E1&E2&E3&E4&E5&E6&E7). unfold trial_step.
  destruct (nltb A ha ms); [discriminate|].
  rewrite E1, E2, E3, E4, E5.
  set (h := nmul A ha (direction c)).
  set (npre := match m_pre m with None => m_stages m - 1 | Some _ => m_stages m - 2 end).
  pose proof (stages_fst m (fn c) (t s) (y s) h npre [f s] (calls s) (calls s2)) as HK.
  destruct (stages m (fn c) (t s) (y s) h npre [f s] (calls s)) as [K1 cl1].
  destruct (stages m (fn c) (t s) (y s) h npre [f s] (calls s2)) as [K1' cl1'].
  cbn [fst] in HK. subst K1'.
  set (pre := match m_pre m with None => None | Some g =>
      let '(y_pre, err) := g (y s) h K1 in Some (err_norm c (y s) y_pre err) end).
  destruct (match pre with Some e => nltb A n1 e | None => false end).
  { intros H. injection H as <- <-. eexists; split; [reflexivity|].
    unfold scratch_eq; cbn [with_trial t y f standard_sc max_factor h_previous error_norm_old].
    rewrite E1, E2, E3, E6, E7. repeat split. }
  assert (HK2 : exists K2 cl2 cl2', (match m_pre m with None => (K1, cl1)
        | Some _ => stages m (fn c) (t s) (y s) h 1 K1 cl1 end) = (K2, cl2) /\
      (match m_pre m with None => (K1, cl1')
        | Some _ => stages m (fn c) (t s) (y s) h 1 K1 cl1' end) = (K2, cl2')).
  { destruct (m_pre m); [|eauto].
    pose proof (stages_fst m (fn c) (t s) (y s) h 1 K1 cl1 cl1') as HK'.
    destruct (stages m (fn c) (t s) (y s) h 1 K1 cl1) as [K2 cl2].
    destruct (stages m (fn c) (t s) (y s) h 1 K1 cl1') as [K2' cl2'].
    cbn [fst] in HK'. subst. eauto. }
  destruct HK2 as (K2 & cl2 & cl2' & -> & ->).
  unfold comp_sol_err.
  set (K3 := if m_fsal m then K2 ++ [fn c (nadd A (t s) h) (m_sol m (y s) h K2)] else K2).
  destruct (m_fsal m).
  - destruct (nltb A _ n1).
    + match goal with |- context [accept_factor c s ?sc ?h ?e] => destruct (accept_factor c s sc h e) end; discriminate.
    + destruct (_ || _); [discriminate|]. intros H. injection H as <- <-.
      eexists; split; [reflexivity|].
      unfold scratch_eq; cbn [with_trial t y f standard_sc max_factor h_previous error_norm_old].
      rewrite E1, E2, E3, E6, E7. repeat split.
  - destruct (nltb A _ n1).
    + match goal with |- context [accept_factor c s ?sc ?h ?e] => destruct (accept_factor c s sc h e) end; discriminate.
    + destruct (_ || _); [discriminate|]. intros H. injection H as <- <-.
      eexists; split; [reflexivity|].
      unfold scratch_eq; cbn [with_trial t y f standard_sc max_factor h_previous error_norm_old].
      rewrite E1, E2, E3, E6, E7. repeat split.
Qed.

(** a trial that is rejected with an unchanged step size is repeated for ever *)
Lemma loop_hangs m c s ha ms rej s1 : trial_step m c s ha ms rej = Reject s1 ha ->
  forall k, rk_loop k m c s ha ms rej = OutOfFuel.
Proof.
  intros H k. destruct k as [|k]; [reflexivity|]. cbn [rk_loop]. rewrite H.
  assert (HS : scratch_eq s s1).
  { destruct (trial_scratch m c s s ha ms rej s1 ha) as (s3 & H3 & E3); [repeat split|exact H|].
    clear - H.
    unfold trial_step in H. destruct (nltb A ha ms); [discriminate|].
    destruct (stages _ _ _ _ _ _ _ _) as [K1 cl1] in H.
    match type of H with (if ?b then _ else _) = _ => destruct b end.
    { injection H as <- _. repeat split. }
    match type of H with (let '(_, _) := ?p in _) = _ => destruct p as [K2 cl2] end.
    unfold comp_sol_err in H. destruct (m_fsal m).
    all: destruct (nltb A _ n1) in H;
     [match type of H with context [accept_factor ?c0 ?s0 ?sc ?h ?e] => destruct (accept_factor c0 s0 sc h e) end; discriminate|].
    all: destruct (_ || _) in H; [discriminate|injection H as <- _; repeat split]. }
  revert s1 HS H. induction k as [|k IH]; intros s1 HS H; [reflexivity|].
  cbn [rk_loop]. destruct (trial_scratch m c s s1 ha ms rej s1 ha HS H) as (s3 & -> & HS3).
  destruct (trial_scratch m c s s ha ms rej s1 ha) as (s4 & _ & _); [repeat split|exact H|].
  clear IH.
  assert (G : forall k s3, scratch_eq s s3 -> rk_loop k m c s3 ha ms true = OutOfFuel).
  { clear - H. induction k as [|k IH]; intros s3 HS; [reflexivity|]. cbn [rk_loop].
    destruct (trial_scratch m c s s3 ha ms rej s1 ha HS H) as (s4 & -> & HS4). auto. }
  apply G; exact HS3.
Qed.

(** ** number of evaluations of one whole step() *)
Lemma step_cost m c k s s' : min_stages m -> nfev_stiff_detect c = 0 ->
  step_impl k m c s = Done s' ->
  exists k1 k2, (m_pre m = None -> k1 = 0) /\ nfs s' = nfs s + k1 + k2 /\
    length (calls s') = length (calls s) + cost_of m k1 k2.
Proof.
  intros Hmin Hn H. unfold step_impl in H. destruct (reassess_stepsize c s) as [[h0 ms] sc].
  apply rk_loop_cost in H; auto.
Qed.

(** ** the small-step message: some trial was below the minimum step *)
Lemma step_fail m c k s s' msg : min_stages m -> step_impl k m c s = Fail s' msg ->
  same_core s s' /\
  match msg with
  | TOO_SMALL_STEP => exists ha', nltb A ha' (pymax (nmul A (h_min_a c) (nadd A (nabs A (t s)) (h_abs s))) (h_min_b c)) = true
  | OVERFLOW => True
  end.
Proof.
  intros Hmin H. unfold step_impl in H.
  assert (E : snd (fst (reassess_stepsize c s)) =
     pymax (nmul A (h_min_a c) (nadd A (nabs A (t s)) (h_abs s))) (h_min_b c)).
  { unfold reassess_stepsize. destruct (_ || _); destruct (nltb A _ _); try destruct (nltb A _ _); reflexivity. }
  destruct (reassess_stepsize c s) as [[h0 ms] sc]. cbn [fst snd] in E. subst ms.
  apply rk_loop_fail in H; auto. destruct H as [H1 H2].
  split; [eapply same_core_trans; [apply same_core_with_trial|exact H1]|].
  destruct msg; auto.
Qed.

End Any.

Open Scope R_scope.

(** ** an error norm below one bounds every component (exact arithmetic) *)
Lemma nsum_sq_fin : forall (l : list xr) acc x, (forall z, In z l -> exists a, z = xmul a a) ->
  fold_left xadd l (Fin acc) = x -> xltb x PInf = true -> x <> NInf ->
  exists rs, l = map Fin rs /\ x = Fin (fold_left Rplus rs acc) /\ Forall (fun z => 0 <= z) rs.
Proof.
  induction l as [|z l IH]; intros acc x Hsq H Hx Hn.
  - simpl in H. exists []. simpl. auto.
  - cbn [fold_left] in H. destruct (Hsq z (or_introl eq_refl)) as (a & Ha).
    assert (Hst : forall w, w = PInf \/ w = NaN -> forall l, (forall z, In z l -> exists a, z = xmul a a) ->
       fold_left xadd l w = PInf \/ fold_left xadd l w = NaN).
    { clear. intros w Hw l. revert w Hw. induction l as [|z l IH]; intros w Hw Hl; [exact Hw|]. cbn [fold_left].
      apply IH; [|intros; apply Hl; right; auto].
      destruct (Hl z (or_introl eq_refl)) as (a & ->).
      destruct Hw as [-> | ->]; [|right; reflexivity].
      destruct a as [a| | |]; cbn [xmul].
      - left; reflexivity.
      - left. unfold inf_of_sign, xsgn. destruct (Rlt_dec 0 (1*1)); [reflexivity|lra].
      - left. unfold inf_of_sign, xsgn. destruct (Rlt_dec 0 (-1 * -1)); [reflexivity|lra].
      - right. reflexivity. }
    destruct a as [a| | |]; cbn [xmul] in Ha.
    + subst z. cbn [xadd] in H.
      destruct (IH (acc + a * a) x (fun z Hz => Hsq z (or_intror Hz)) H Hx Hn) as (rs & E1 & E2 & E3).
      exists (a * a :: rs). simpl. rewrite E1. split; [reflexivity|]. split; [exact E2|].
      constructor; [nra|exact E3].
    + exfalso. replace z with PInf in H by (rewrite Ha; unfold inf_of_sign, xsgn; destruct (Rlt_dec 0 (1*1)); [reflexivity|lra]).
      cbn [xadd] in H. destruct (Hst PInf (or_introl eq_refl) l (fun z Hz => Hsq z (or_intror Hz))) as [E|E];
        rewrite H in E; rewrite E in Hx; discriminate Hx.
    + exfalso. replace z with PInf in H by (rewrite Ha; unfold inf_of_sign, xsgn; destruct (Rlt_dec 0 (-1 * -1)); [reflexivity|lra]).
      cbn [xadd] in H. destruct (Hst PInf (or_introl eq_refl) l (fun z Hz => Hsq z (or_intror Hz))) as [E|E];
        rewrite H in E; rewrite E in Hx; discriminate Hx.
    + exfalso. subst z. cbn [xadd] in H. destruct (Hst NaN (or_intror eq_refl) l (fun z Hz => Hsq z (or_intror Hz))) as [E|E];
        rewrite H in E; rewrite E in Hx; discriminate Hx.
Qed.

Lemma fold_plus_ge : forall rs acc, Forall (fun z => 0 <= z) rs ->
  acc <= fold_left Rplus rs acc /\ (forall z, In z rs -> acc + z <= fold_left Rplus rs acc).
Proof.
  induction rs as [|a rs IH]; intros acc HF; simpl; [split; [lra|tauto]|].
  inversion HF; subst. destruct (IH (acc + a) H2) as [I1 I2]. split; [lra|].
  intros z [->|Hz]; [exact I1|]. specialize (I2 z Hz). lra.
Qed.

Lemma norm_sq_sum (x : list (num RX)) :
  @norm RX x = xsqrt (xdiv (fold_left xadd (map2 xmul x x) (Fin 0)) (Fin (INR (length x)))).
Proof.
  unfold norm, ndot, nsum. rewrite n0_RX. unfold nofnat, lit.
  cbn [nofQ RX]. unfold Q2R, inject_Z. cbn [Qnum Qden].
  rewrite <- INR_IZR_INZ. replace (INR (length x) * / 1) with (INR (length x)) by field. reflexivity.
Qed.

Theorem norm_lt1_components (x : list (num RX)) : xltb (@norm RX x) (Fin 1) = true ->
  forall e, In e x -> exists r, e = Fin r /\ Rabs r < sqrt (INR (length x)).
Proof.
  intros H e He. rewrite norm_sq_sum in H.
  assert (Hn : 0 < INR (length x)) by (apply lt_0_INR; destruct x; [destruct He|simpl; lia]).
  set (S := fold_left xadd (map2 xmul x x) (Fin 0)) in *.
  assert (HS : xltb S PInf = true /\ S <> NInf /\ exists q, S = Fin q).
  { destruct S as [q| | |].
    - split; [reflexivity|]. split; [discriminate|eauto].
    - exfalso. assert (E : xdiv PInf (Fin (INR (length x))) = PInf).
      { unfold xdiv, xsgn, inf_of_sign. destruct (Rlt_dec (INR (length x)) 0) as [?|?]; [lra|].
        destruct (Rlt_dec 0 (1*1)); [reflexivity|lra]. }
      rewrite E in H. discriminate H.
    - exfalso. assert (E : xdiv NInf (Fin (INR (length x))) = NInf).
      { unfold xdiv, xsgn, inf_of_sign. destruct (Rlt_dec (INR (length x)) 0) as [?|?]; [lra|].
        destruct (Rlt_dec 0 (-1*1)); [lra|]. destruct (Rlt_dec (-1*1) 0); [reflexivity|lra]. }
      rewrite E in H. discriminate H.
    - discriminate H. }
  destruct HS as (HS1 & HS2 & q & HS3).
  destruct (nsum_sq_fin (map2 xmul x x) 0 S) as (rs & E1 & E2 & E3); [|reflexivity|exact HS1|exact HS2|].
  { intros z Hz. clear - Hz. induction x as [|a x IH]; [destruct Hz|]. destruct Hz as [<-|Hz]; eauto. }
  assert (Hq : q < INR (length x) /\ 0 <= q).
  { rewrite HS3 in H. rewrite HS3 in E2. injection E2 as Eq.
    assert (0 <= q) by (rewrite Eq; apply (fold_plus_ge rs 0 E3)).
    split; [|assumption]. unfold xdiv in H. destruct (Req_EM_T (INR (length x)) 0); [lra|].
    cbn [xsqrt] in H. assert (0 <= q / INR (length x)) by (apply Rmult_le_pos; [lra|left; apply Rinv_0_lt_compat; lra]).
    destruct (Rlt_dec (q / INR (length x)) 0); [lra|]. cbn [xltb] in H.
    apply Rltb_true in H.
    assert (Hq1 : q / INR (length x) < 1).
    { rewrite <- sqrt_1 in H. apply sqrt_lt_0_alt in H. exact H. }
    apply Rmult_lt_compat_r with (r := INR (length x)) in Hq1; [|lra].
    replace (q / INR (length x) * INR (length x)) with q in Hq1 by (field; lra). lra. }
  assert (He2 : exists r, e = Fin r /\ r * r <= q).
  { rewrite HS3 in E2. injection E2 as Eq.
    assert (Hin : In (xmul e e) (map2 xmul x x)).
    { clear - He. induction x as [|a x IH]; [destruct He|]. destruct He as [->|He]; [left; auto|right; auto]. }
    rewrite E1 in Hin. apply in_map_iff in Hin. destruct Hin as (z & Hz & Hin).
    destruct e as [r| | |]; cbn [xmul] in Hz.
    - injection Hz as Hz. exists r. split; [auto|]. pose proof (proj2 (fold_plus_ge rs 0 E3) z Hin). lra.
    - unfold inf_of_sign, xsgn in Hz. destruct (Rlt_dec 0 (1*1)); [discriminate Hz|lra].
    - unfold inf_of_sign, xsgn in Hz. destruct (Rlt_dec 0 (-1 * -1)); [discriminate Hz|lra].
    - discriminate Hz. }
  destruct He2 as (r & -> & Hr). exists r. split; [auto|].
  rewrite <- sqrt_Rsqr_abs. apply sqrt_lt_1_alt. unfold Rsqr. split; [nra|lra].
Qed.

(** ** explicit bound on the number of trials *)
Lemma trial0_le_max c r s : good_cfg c r -> live r s ->
  trial0 c r s <= Rmax (dist r s) (min_step_at r s).
Proof.
  intros HG HL. unfold trial0.
  set (ms := min_step_at r s). set (h1 := clip (max_step c) ms (hval s)). set (d := dist r s).
  assert (0 <= d) by apply Rabs_pos.
  pose proof (Rmax_l d ms). pose proof (Rmax_r d ms).
  destruct (Rlt_dec d (2 * h1)).
  - destruct (Rlt_dec h1 d); [|lra]. apply Rmax_lub; lra.
  - lra.
Qed.

Lemma shrink_pow_lt r k x y : rc_ok r -> 0 < y -> x < y -> 0 < x -> x * shrink r ^ k < y.
Proof.
  intros HR Hy Hxy Hx. pose proof (shrink_pow_le1 r k HR). nra.
Qed.

Theorem terminates_explicit m c r v0 n v K : min_stages m -> good_cfg c r -> inv c r v0 ->
  stat v0 = Running -> history m c v0 n v -> stat v = Running ->
  (1 <= K)%nat -> Rabs (tb r - tval (st v0)) * shrink r ^ K < hb r ->
  forall k, (K < k)%nat -> ode_step k m c v <> StepFuel /\ ode_step k m c v = ode_step (S K) m c v.
Proof.
  intros Hmin HG HI HR0 H HR HK Hlt k Hk.
  pose proof (history_inv m c r _ _ _ Hmin HG HI H) as [HL HI1]. rewrite HR in HI1.
  pose proof (history_progress m c r _ _ _ Hmin HG HI H HR) as HP.
  assert (Hne : dir r * (tb r - tval (st v)) <> 0) by lra.
  destruct (step_unfold m c r k (st v) HG HL) as (_ & _ & Hms & _ & _).
  assert (HRO : rc_ok r) by (destruct HG as (_ & HH & _); exact HH).
  assert (Hhb : 0 < hb r) by (destruct HRO as (_&_&HH&_); exact HH).
  assert (Hd : dist r (st v) <= Rabs (tb r - tval (st v0))).
  { destruct HI as [_ HI0]. rewrite HR0 in HI0. unfold dist.
    assert (0 <= INR n * hb r) by (apply Rmult_le_pos; [apply pos_INR|lra]).
    destruct HRO as ([E|E]&_); rewrite E in *.
    - rewrite !Rabs_right by lra. lra.
    - rewrite !Rabs_left by lra. lra. }
  pose proof (shrink_lt1 r HRO) as Hq.
  assert (Hsm : trial0 c r (st v) * shrink r ^ K < min_step_at r (st v)).
  { pose proof (trial0_le_max c r (st v) HG HL) as HM.
    pose proof (min_step_ge_hb r (st v)) as Hge.
    assert (0 < shrink r ^ K) by (apply pow_lt; lra).
    destruct (Rle_dec (trial0 c r (st v)) (min_step_at r (st v))) as [Hle|Hgt].
    - assert (shrink r ^ K < 1).
      { destruct K as [|K]; [lia|]. simpl. pose proof (shrink_pow_le1 r K HRO). nra. }
      pose proof (trial0_pos c r (st v) HG HL Hne). nra.
    - assert (trial0 c r (st v) <= dist r (st v)).
      { apply Rnot_le_lt in Hgt. unfold Rmax in HM.
        destruct (Rle_dec (dist r (st v)) (min_step_at r (st v))); lra. }
      assert (trial0 c r (st v) * shrink r ^ K <= Rabs (tb r - tval (st v0)) * shrink r ^ K)
        by (apply Rmult_le_compat_r; lra).
      lra. }
  destruct (step_terminates m c r (st v) Hmin HG HL Hne K Hsm k Hk) as [T1 T2].
  unfold ode_step. rewrite HR.
  destruct (_ || _); [split; [discriminate|reflexivity]|].
  rewrite T2. rewrite T2 in T1.
  destruct (step_impl (S K) m c (st v)); (split; [try discriminate; try congruence|reflexivity]).
Qed.
