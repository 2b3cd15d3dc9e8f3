(** One call of step() and whole histories, over the extended reals. *)
From Coq Require Import String ZArith Reals Lra Psatz QArith Qreals Bool Lia List.
From Verif Require Import Arith Common Stiff RK RKGen RKHist RX RKReal HStart HStartReal RKInit RKInitReal.
Import ListNotations.
Open Scope R_scope.

Implicit Types (m : Meth RX) (c : Cfg RX) (s : St RX) (v : Solver RX).

(** invariant of a live solver, wherever t is *)
Definition live (r : rconst) s : Prop :=
  loop_st r s /\ exists h, h_abs s = Fin h /\ 0 < h.

Lemma good_live r s : good_st r s -> live r s.
Proof. intros ((tt & Ht & _) & Hh & Hm & Hs). split; [split; [eauto|auto]|auto]. Qed.

(** real values of time and trial step of a state *)
Definition tval s : R := match t s with Fin x => x | _ => 0 end.
Definition hval s : R := match h_abs s with Fin x => x | _ => 0 end.

(** the minimum step used by the next call of step() *)
Definition min_step_at (r : rconst) s : R := min_step_of r (tval s) (hval s).
(** the first trial step of the next call *)
Definition dist (r : rconst) s : R := Rabs (tb r - tval s).
Definition trial0 c (r : rconst) s : R :=
  let ms := min_step_at r s in let h1 := clip (max_step c) ms (hval s) in let d := dist r s in
  if Rlt_dec d (2 * h1) then if Rlt_dec h1 d then Rmax (1/2 * d) ms else d else h1.

Lemma step_unfold m c r k s : good_cfg c r -> live r s ->
  exists sc, (sc = false -> standard_sc s = false) /\ 0 < min_step_at r s /\
    0 < clip (max_step c) (min_step_at r s) (hval s) /\
    step_impl k m c s = rk_loop k m c (with_trial s sc (max_factor s) (jflstp s) (nfs s) (K s) (calls s))
        (Fin (trial0 c r s)) (Fin (min_step_at r s)) false.
Proof.
  intros (HC & HR & HM) (((tt & Ht) & _) & (h & Hh & Hp)).
  destruct (reassess_real c r s tt h HC HR HM Ht Hh Hp) as (h' & sc & He & Hsc & Hms & Hh1 & Hh').
  assert (Et : tval s = tt) by (unfold tval; rewrite Ht; auto).
  assert (Eh : hval s = h) by (unfold hval; rewrite Hh; auto).
  exists sc. unfold min_step_at, trial0, dist, min_step_at. rewrite Et, Eh.
  split; [exact Hsc|]. split; [exact Hms|]. split; [exact Hh1|].
  unfold step_impl. rewrite He. subst h'. reflexivity.
Qed.

Lemma trial0_pos c r s : good_cfg c r -> live r s -> dir r * (tb r - tval s) <> 0 ->
  0 < trial0 c r s.
Proof.
  intros HG HL Hne. destruct (step_unfold {|m_stages:=0;m_dim:=0;m_point:=fun _ _ _ _ _ => (Fin 0,[]);
    m_sol:=fun _ _ _ => []; m_err := fun _ _ => []; m_fsal:=false; m_pre:=None; m_nan_first:=false;
    m_stab := NoStab |} c r 0 s HG HL) as (sc & _ & Hms & Hh1 & _).
  assert (Hd : 0 < dist r s).
  { unfold dist. apply Rabs_pos_lt. intros E. apply Hne. rewrite E. ring. }
  unfold trial0.
  destruct (Rlt_dec _ _); [destruct (Rlt_dec _ _)|]; try lra.
  eapply Rlt_le_trans; [exact Hms|apply Rmax_r].
Qed.

(** no proviso: what a successful step always gives *)
Lemma step_basic m c r k s s' : min_stages m -> good_cfg c r -> live r s ->
  dir r * (tb r - tval s) <> 0 ->
  step_impl k m c s = Done s' ->
  exists j hk, 0 < hk /\ min_step_at r s <= hk /\
    trial0 c r s * mf r ^ j <= hk <= trial0 c r s * shrink r ^ j /\
    nfs s' = (nfs s + j)%nat /\ tval s' = tval s + dir r * hk /\ live r s' /\
    h_previous s' = Some (Fin (dir r * hk)) /\
    ((0 < j)%nat -> hval s' <= hk) /\
    (max_factor s' = max_factor s \/ max_factor s' = Fin 4).
Proof.
  intros Hmin HG HL Hne H.
  pose proof (trial0_pos c r s HG HL Hne) as Hpos.
  destruct (step_unfold m c r k s HG HL) as (sc & Hsc & Hms & _ & He).
  rewrite He in H. destruct HG as (HC & HR & HM). destruct HL as [HL (h & Hh & Hhp)].
  assert (HS : loop_st r (with_trial s sc (max_factor s) (jflstp s) (nfs s) (K s) (calls s))).
  { destruct sc; [apply loop_st_with; auto|]. apply loop_st_with; auto. left. symmetry; auto. }
  destruct (loop_done m c r Hmin HC HR _ _ _ _ _ _ HS Hpos Hms H)
    as (j & hk & tt & Hk0 & Hk1 & Hk2 & Hk3 & Hk4 & Hk5 & Hk6 & (h' & Hk7 & Hk7p & Hk8 & Hk9) & Hk10 & Hk11).
  cbn [t nfs with_trial max_factor standard_sc] in *.
  assert (Et : tval s = tt) by (unfold tval; rewrite Hk5; auto).
  exists j, hk. split; [exact Hk0|]. split; [exact Hk3|]. split; [exact Hk1|].
  split; [exact Hk2|]. split; [unfold tval at 1; rewrite Hk6, Et; auto|].
  split.
  { split; [|eauto]. split; [eauto|]. split.
    - destruct HL as (_ & [E|E] & _); rewrite E in Hk10; destruct Hk10; auto.
    - intros Hs. split; [|auto]. exists (dir r * hk). split; [auto|].
      replace (dir r * (dir r * hk)) with ((dir r * dir r) * hk) by ring.
      destruct HR as ([Hd|Hd]&_); rewrite Hd; lra. }
  split; [exact Hk4|]. split; [|exact Hk10].
  intros Hj. unfold hval. rewrite Hk7. apply Hk8. auto.
Qed.

Lemma shrink_pow_le1 r j : rc_ok r -> 0 < shrink r ^ j <= 1.
Proof.
  intros HR. pose proof (shrink_lt1 r HR). split; [apply pow_lt; lra|].
  induction j; simpl; [lra|]. assert (0 < shrink r ^ j) by (apply pow_lt; lra). nra.
Qed.

(** the proviso under which the step size limits work *)
Definition max_above_min c (r : rconst) s : Prop :=
  match max_step c with Fin M => min_step_at r s <= M | _ => True end.

Lemma trial0_le c r s : good_cfg c r -> live r s -> max_above_min c r s ->
  trial0 c r s <= dist r s /\
  match max_step c with Fin M => trial0 c r s <= M | _ => True end.
Proof.
  intros (HC & HR & HM) (_ & (h & Hh & Hp)) HP.
  assert (Eh : hval s = h) by (unfold hval; rewrite Hh; auto).
  destruct (clip_bounds c (min_step_at r s) (hval s) HM) as [H1 H2]; [lra|exact HP|].
  assert (Hms : 0 < min_step_at r s).
  { destruct HR as (_&_&Hb&_). eapply Rlt_le_trans; [exact Hb|apply Rmax_r]. }
  unfold trial0. unfold max_above_min in HP.
  set (h1 := clip _ _ _) in *. set (d := dist r s) in *. set (ms := min_step_at r s) in *.
  clearbody h1 d ms. revert HP H2. generalize (max_step c). intros MM HP H2.
  destruct (Rlt_dec d (2 * h1)) as [L|L]; [destruct (Rlt_dec h1 d) as [L2|L2]|].
  - split; [apply Rmax_lub; lra|]. destruct MM; auto. apply Rmax_lub; lra.
  - split; [lra|]. destruct MM; auto. lra.
  - split; [lra|]. destruct MM; auto.
Qed.

(** *** one successful step under the proviso *)
Theorem step_monotone m c r k s s' : min_stages m -> good_cfg c r -> live r s ->
  0 < dir r * (tb r - tval s) -> max_above_min c r s ->
  step_impl k m c s = Done s' ->
  0 < dir r * (tval s' - tval s) /\ 0 <= dir r * (tb r - tval s') /\
  min_step_at r s <= Rabs (tval s' - tval s) /\
  match max_step c with Fin M => Rabs (tval s' - tval s) <= M | _ => True end.
Proof.
  intros Hmin HG HL Hd HP H.
  destruct (step_basic m c r k s s' Hmin HG HL) as (j & hk & H0 & H1 & H2 & H3 & H4 & H5 & _); auto.
  { lra. }
  destruct (trial0_le c r s HG HL HP) as [T1 T2].
  destruct HG as (HC & HR & HM).
  pose proof (shrink_pow_le1 r j HR) as Hs.
  assert (Hpos : 0 < trial0 c r s) by (apply trial0_pos; auto; [split; auto|lra]).
  assert (Hle : hk <= trial0 c r s) by nra.
  assert (Hdist : dist r s = dir r * (tb r - tval s)).
  { unfold dist. destruct HR as ([E|E]&_); rewrite E in *.
    - rewrite Rabs_pos_eq by lra. lra.
    - rewrite Rabs_left by lra. lra. }
  rewrite H4. replace (tval s + dir r * hk - tval s) with (dir r * hk) by ring.
  assert (Hdd : dir r * dir r = 1) by (destruct HR as ([E|E]&_); rewrite E; lra).
  assert (Ha : Rabs (dir r * hk) = hk).
  { destruct HR as ([E|E]&_); rewrite E; [rewrite Rabs_pos_eq; lra|rewrite Rabs_left; lra]. }
  split; [replace (dir r * (dir r * hk)) with ((dir r * dir r) * hk) by ring; rewrite Hdd; lra|].
  split.
  { replace (dir r * (tb r - (tval s + dir r * hk))) with
      (dir r * (tb r - tval s) - (dir r * dir r) * hk) by ring. rewrite Hdd. lra. }
  rewrite Ha. split; [exact H1|]. clear -T2 Hle. revert T2 Hle. generalize (trial0 c r s).
  destruct (max_step c); auto. intros; lra.
Qed.

(** landing: if the (clipped) trial step reaches t_bound and is not rejected, t becomes t_bound *)
Theorem step_lands m c r k s s' : min_stages m -> good_cfg c r -> live r s ->
  0 < dir r * (tb r - tval s) ->
  step_impl k m c s = Done s' -> nfs s' = nfs s ->
  dist r s <= clip (max_step c) (min_step_at r s) (hval s) ->
  t s' = t_bound c.
Proof.
  intros Hmin HG HL Hd H Hnf Hc.
  destruct (step_basic m c r k s s' Hmin HG HL) as (j & hk & H0 & H1 & H2 & H3 & H4 & H5 & _); auto.
  { lra. }
  assert (j = 0)%nat by lia. subst j. simpl in H2.
  assert (Ht0 : trial0 c r s = dist r s).
  { unfold trial0. destruct (step_unfold m c r k s HG HL) as (_ & _ & _ & Hcl & _).
    destruct (Rlt_dec _ _); [|lra]. destruct (Rlt_dec _ _); [lra|reflexivity]. }
  destruct HG as (HC & HR & HM).
  assert (Hdist : dist r s = dir r * (tb r - tval s)).
  { unfold dist. destruct HR as ([E|E]&_); rewrite E in *.
    - rewrite Rabs_pos_eq by lra. lra.
    - rewrite Rabs_left by lra. lra. }
  destruct H5 as (((tt & Ht) & _) & _). destruct HC as (Htb & _).
  rewrite Htb, Ht. f_equal.
  assert (Hvt : tval s' = tt) by (unfold tval; rewrite Ht; auto).
  assert (Hdd : dir r * dir r = 1) by (destruct HR as ([E|E]&_); rewrite E; lra).
  rewrite <- Hvt, H4.
  assert (hk = dir r * (tb r - tval s)) by lra. subst hk.
  replace (dir r * (dir r * (tb r - tval s))) with ((dir r * dir r) * (tb r - tval s)) by ring.
  rewrite Hdd. ring.
Qed.

Lemma INR_big e x : 0 < e -> 0 <= x -> exists n : nat, x < INR n * e.
Proof.
  intros He Hx. exists (Z.to_nat (up (x / e))).
  destruct (archimed (x / e)) as [H1 _].
  assert (0 <= x / e) by (apply Rmult_le_pos; [lra|left; apply Rinv_0_lt_compat; lra]).
  assert (Hz : (0 <= up (x / e))%Z) by (apply le_IZR; lra).
  rewrite INR_IZR_INZ, Z2Nat.id by exact Hz.
  apply Rmult_lt_compat_r with (r := e) in H1; [|lra].
  replace (x / e * e) with x in H1 by (field; lra). lra.
Qed.

(** *** termination of step() *)
Theorem step_terminates m c r s : min_stages m -> good_cfg c r -> live r s ->
  dir r * (tb r - tval s) <> 0 ->
  forall k, trial0 c r s * shrink r ^ k < min_step_at r s ->
  forall k', (k < k')%nat -> step_impl k' m c s <> OutOfFuel /\ step_impl k' m c s = step_impl (S k) m c s.
Proof.
  intros Hmin HG HL Hne k Hk k' Hk'.
  pose proof (trial0_pos c r s HG HL Hne) as Hpos.
  destruct (step_unfold m c r k' s HG HL) as (sc & Hsc & Hms & _ & He').
  destruct (step_unfold m c r (S k) s HG HL) as (sc2 & Hsc2 & _ & _ & He).
  assert (HT : step_impl (S k) m c s <> OutOfFuel).
  { rewrite He. destruct HG as (HC & HR & HM). apply loop_terminates with (r := r); auto.
    destruct HL as [HL _].
    destruct sc2; [apply loop_st_with; auto|]. apply loop_st_with; auto. left. symmetry; auto. }
  assert (HE : step_impl k' m c s = step_impl (S k) m c s).
  { unfold step_impl in *. destruct (reassess_stepsize c s) as [[h ms] sc3].
    apply rk_loop_fuel; auto. }
  split; [rewrite HE; exact HT|exact HE].
Qed.

Lemma step_fuel_exists m c r s : min_stages m -> good_cfg c r -> live r s ->
  dir r * (tb r - tval s) <> 0 ->
  exists N, forall k, (N <= k)%nat -> step_impl k m c s <> OutOfFuel /\ step_impl k m c s = step_impl N m c s.
Proof.
  intros Hmin HG HL Hne.
  pose proof (trial0_pos c r s HG HL Hne) as Hpos.
  destruct (step_unfold m c r 0 s HG HL) as (_ & _ & Hms & _ & _).
  destruct HG as (HC & HR & HM). pose proof (shrink_lt1 r HR) as Hq.
  destruct (pow_lt_1_zero (shrink r)) with (y := min_step_at r s / trial0 c r s) as (N & HN).
  { rewrite Rabs_pos_eq; lra. }
  { apply Rdiv_lt_0_compat; lra. }
  specialize (HN N (Nat.le_refl N)).
  exists (S N). intros k Hk.
  apply (step_terminates m c r s Hmin (conj HC (conj HR HM)) (HL) Hne N); [|lia].
  rewrite Rabs_pos_eq in HN by (apply pow_le; lra).
  apply Rmult_lt_compat_l with (r := trial0 c r s) in HN; [|lra].
  replace (trial0 c r s * (min_step_at r s / trial0 c r s)) with (min_step_at r s) in HN by (field; lra).
  exact HN.
Qed.

(** exceptions: only the stiffness ZeroDivisionError *)
Lemma step_no_exn m c r k s e : min_stages m -> good_cfg c r -> live r s ->
  dir r * (tb r - tval s) <> 0 ->
  step_impl k m c s = Raise e ->
  e = ZeroDivisionError /\ nfev_stiff_detect c <> 0%nat /\ (nfev_stiff_detect c / m_stages m = 0)%nat.
Proof.
  intros Hmin HG HL Hne H.
  destruct (step_unfold m c r k s HG HL) as (sc & Hsc & Hms & _ & He). rewrite He in H.
  apply rk_loop_raise in H; auto. destruct H as [H|[H1 H2]]; [auto|].
  cbn [with_trial standard_sc h_previous error_norm_old] in *.
  destruct HL as ((_ & _ & HL) & _). destruct (HL (Hsc H1)) as ((hp & E1 & _) & (eo & E2 & _)).
  destruct H2; congruence.
Qed.

(** ** Histories *)

(** invariant of the solver object *)
Definition inv c (r : rconst) v : Prop :=
  live r (st v) /\ match stat v with Running => 0 < dir r * (tb r - tval (st v)) | _ => True end.

Lemma leb0_RX x : nleb RX n0 (Fin x) = Rleb 0 x.
Proof. rewrite n0_RX. reflexivity. Qed.

Lemma same_core_live r s s' : same_core s s' -> live r s ->
  (max_factor s' = max_factor s) -> (standard_sc s' = false -> standard_sc s = false) -> live r s'.
Proof.
  intros (C1&_&_&C4&C5&_&_&C8&_) ((Ht & Hm & Hs) & Hh) Em Es.
  split; [|rewrite C4; exact Hh]. split; [rewrite C1; exact Ht|]. split; [rewrite Em; exact Hm|].
  intros E. rewrite C5, C8. auto.
Qed.

Lemma rk_loop_fail_state m c fuel : min_stages m -> forall s ha ms rej s' msg,
  rk_loop fuel m c s ha ms rej = Fail s' msg ->
  max_factor s' = max_factor s /\ standard_sc s' = standard_sc s.
Proof.
  intros Hmin. induction fuel as [|fuel IH]; intros s ha0 ms rej s' msg H; cbn [rk_loop] in H; [discriminate|].
  pose proof (trial_inv m c s ha0 ms rej Hmin) as HT.
  destruct (trial_step m c s ha0 ms rej) as [s1 h h1 tn yn en|s1 h1|s1 m1|e] eqn:ET; try discriminate.
  - unfold finish in H.
    match type of H with context [if m_fsal m then ?a else ?b] =>
      destruct (if m_fsal m then a else b) end.
    match type of H with context [diagnose ?a ?b ?x ?d ?e] =>
      destruct (diagnose a b x d e); discriminate end.
  - destruct HT as (H0 & HC & E1 & E2 & _). apply IH in H. rewrite E1, E2 in H. exact H.
  - inversion H; subst. clear -ET. unfold trial_step in ET.
    destruct (nltb RX ha0 ms); [inversion ET; subst; auto|].
    repeat match type of ET with
    | context [let '(_, _) := ?x in _] => destruct x
    end.
    match type of ET with (if ?b then _ else _) = _ => destruct b; [discriminate|] end.
    repeat match type of ET with
    | context [match ?x with (_, _) => _ end] => destruct x
    end.
    match type of ET with (if ?b then _ else _) = _ => destruct b end.
    + match type of ET with context [accept_factor ?a ?b ?x ?d ?e] =>
        destruct (accept_factor a b x d e); discriminate end.
    + match type of ET with (if ?b then _ else _) = _ => destruct b; [|discriminate] end.
      inversion ET; subst. split; reflexivity.
Qed.

Lemma step_inv m c r k v v' : min_stages m -> good_cfg c r -> inv c r v ->
  ode_step k m c v = StepOk v' -> inv c r v' /\
  (stat v' = Running \/ stat v' = Finished ->
     y (st v) <> [] -> exists hk, min_step_at r (st v) <= hk /\ 0 < hk /\ tval (st v') = tval (st v) + dir r * hk).
Proof.
  intros Hmin HG [HL HS] H. unfold ode_step in H.
  destruct (stat v) eqn:Est; try discriminate.
  destruct (Nat.eqb (length (y (st v))) 0 || neqb RX (t (st v)) (t_bound c)) eqn:E0.
  { inversion H; subst v'; clear H. split.
    - split; cbn [st stat]; [|exact I]. destruct HL as ((_ & H2 & H3) & H4).
      split; [|exact H4]. split; [|split; [exact H2|exact H3]]. cbn [t].
      destruct HG as ((HC & _) & _). eauto.
    - intros _ Hy. exfalso. apply orb_true_iff in E0. destruct E0 as [E0|E0].
      + apply Nat.eqb_eq, length_zero_iff_nil in E0. auto.
      + destruct HG as ((HC & _) & _). rewrite HC in E0.
        destruct HL as (((tt & Ht) & _) & _). rewrite Ht in E0. cbn [neqb RX xeqb] in E0.
        apply Reqb_true in E0. unfold tval in HS. rewrite Ht in HS. subst tt.
        rewrite Rminus_diag_eq, Rmult_0_r in HS by auto. lra. }
  destruct (step_impl k m c (st v)) as [s'|s' msg|e|] eqn:ES; try discriminate; inversion H; subst v'; clear H.
  - destruct (step_basic m c r k (st v) s' Hmin HG HL) as (j & hk & H0 & H1 & _ & _ & H4 & H5 & _); auto; [lra|].
    split.
    + split; cbn [st stat]; [exact H5|].
      destruct H5 as (((tt & Ht) & _) & _). destruct HG as (HC & HR & _). destruct HC as (Htb & Hdir & _).
      rewrite Ht, Htb, Hdir. change (nsub RX) with xsub. change (nmul RX) with xmul.
      unfold xsub. cbn [xopp xadd xmul]. replace (Q2R 0) with 0 by (unfold Q2R; simpl; lra).
      unfold tval. rewrite Ht.
      destruct (Rleb_spec 0 (dir r * (tt + - tb r))); [exact I|]. lra.
    + intros _ _. exists hk. cbn [st]. auto.
  - split; [|intros [?|?]; discriminate].
    split; cbn [st stat]; [|exact I].
    destruct (step_unfold m c r k (st v) HG HL) as (sc & Hsc & Hms & _ & He). rewrite He in ES.
    pose proof (rk_loop_fail m c k Hmin _ _ _ _ _ _ ES) as [HCo _].
    pose proof (rk_loop_fail_state m c k Hmin _ _ _ _ _ _ ES) as [E1 E2].
    cbn [with_trial max_factor standard_sc] in E1, E2.
    eapply same_core_live; [|exact HL|exact E1|].
    + eapply same_core_trans; [|exact HCo]. apply same_core_with_trial.
    + intros E3. apply Hsc. congruence.
Qed.

Lemma history_inv m c r v0 n v : min_stages m -> good_cfg c r -> inv c r v0 ->
  history m c v0 n v -> inv c r v.
Proof.
  intros Hmin HG HI H. induction H; auto.
  specialize (IHhistory HI). eapply step_inv; eauto.
Qed.

Lemma min_step_ge_hb r s : hb r <= min_step_at r s.
Proof. apply Rmax_r. Qed.

(** y keeps its shape is not needed: emptiness only matters at the start *)
Lemma history_progress m c r v0 n v : min_stages m -> good_cfg c r -> inv c r v0 ->
  history m c v0 n v -> stat v = Running ->
  INR n * hb r <= dir r * (tval (st v) - tval (st v0)).
Proof.
  intros Hmin HG HI H. induction H as [v|v0 n v1 v2 k H IH HS]; intros HR.
  - simpl. replace (tval (st v) - tval (st v)) with 0 by ring. lra.
  - pose proof (history_inv m c r _ _ _ Hmin HG HI H) as HI1.
    assert (HR1 : stat v1 = Running).
    { unfold ode_step in HS. destruct (stat v1); auto; discriminate. }
    specialize (IH HI HR1).
    destruct (step_inv m c r k v1 v2 Hmin HG HI1 HS) as [_ HP].
    assert (Hy : y (st v1) <> []).
    { intros E. unfold ode_step in HS. rewrite HR1, E in HS. simpl in HS. inversion HS; subst. discriminate. }
    destruct (HP (or_introl HR) Hy) as (hk & H1 & H2 & H3).
    rewrite H3. rewrite S_INR. pose proof (min_step_ge_hb r (st v1)).
    destruct HG as (_ & HR0 & _).
    assert (Hdd : dir r * dir r = 1) by (destruct HR0 as ([E|E]&_); rewrite E; lra).
    replace (dir r * (tval (st v1) + dir r * hk - tval (st v0))) with
      (dir r * (tval (st v1) - tval (st v0)) + (dir r * dir r) * hk) by ring.
    rewrite Hdd. lra.
Qed.

(** the number of steps is bounded by the interval length over h_min_b *)
Theorem history_bounded m c r v0 n v : min_stages m -> good_cfg c r -> inv c r v0 ->
  history m c v0 n v -> stat v0 = Running -> INR n * hb r < Rabs (tb r - tval (st v0)) + hb r.
Proof.
  intros Hmin HG HI H HR0. destruct H as [v|v0 n v1 v2 k H HS].
  - simpl. assert (0 < hb r) by (destruct HG as (_ & (_&_&HH&_) & _); auto).
    pose proof (Rabs_pos (tb r - tval (st v))). lra.
  - assert (HR1 : stat v1 = Running).
    { unfold ode_step in HS. destruct (stat v1); auto; discriminate. }
    pose proof (history_progress m c r _ _ _ Hmin HG HI H HR1) as HP.
    pose proof (history_inv m c r _ _ _ Hmin HG HI H) as [_ HI1]. rewrite HR1 in HI1.
    rewrite S_INR.
    assert (dir r * (tb r - tval (st v0)) <= Rabs (tb r - tval (st v0))).
    { destruct HG as (_ & ([E|E]&_) & _); rewrite E.
      - pose proof (Rle_abs (tb r - tval (st v0))). lra.
      - pose proof (Rle_abs (- (tb r - tval (st v0)))). rewrite Rabs_Ropp in H0. lra. }
    lra.
Qed.

(** the whole integration ends: some number of steps and enough fuel give Finished or Failed
    (or the stiffness ZeroDivisionError) *)
Theorem run_terminates m c r v0 : min_stages m -> good_cfg c r -> inv c r v0 ->
  stat v0 = Running ->
  (nfev_stiff_detect c = 0%nat \/ (m_stages m <= nfev_stiff_detect c)%nat) ->
  exists n v, history m c v0 n v /\ stat v <> Running.
Proof.
  intros Hmin HG HI HR0 Hnz.
  assert (Hms : (1 <= m_stages m)%nat) by (unfold min_stages in Hmin; destruct (m_pre m); lia).
  assert (HB : exists N : nat, Rabs (tb r - tval (st v0)) + hb r <= INR N * hb r).
  { assert (0 < hb r) by (destruct HG as (_ & (_&_&HH&_) & _); auto).
    destruct (INR_big (hb r) (Rabs (tb r - tval (st v0)) + hb r)) as [N HN];
      [lra|pose proof (Rabs_pos (tb r - tval (st v0))); lra|].
    exists N. lra. }
  destruct HB as [N HN].
  assert (HX : forall k, exists n v, history m c v0 n v /\ (stat v <> Running \/ n = k)).
  { induction k as [|k (n & v & Hh & Hor)].
    - exists 0%nat, v0. split; [constructor|auto].
    - destruct Hor as [Hor|Hor]; [exists n, v; auto|]. subst n.
      pose proof (history_inv m c r _ _ _ Hmin HG HI Hh) as HIv.
      destruct (stat v) eqn:Es; [|exists k, v; rewrite Es; split; [auto|left; discriminate]|exists k, v; rewrite Es; split; [auto|left; discriminate]].
      destruct HIv as [HL HS]. rewrite Es in HS.
      destruct (step_fuel_exists m c r (st v) Hmin HG HL) as (F & HF); [lra|].
      destruct (HF F (Nat.le_refl F)) as [HF1 _].
      assert (HO : exists v', ode_step F m c v = StepOk v').
      { unfold ode_step. rewrite Es.
        destruct (Nat.eqb (length (y (st v))) 0 || neqb RX (t (st v)) (t_bound c)); [eauto|].
        destruct (step_impl F m c (st v)) as [s'|s' msg|e|] eqn:ES; eauto; [|congruence].
        apply (step_no_exn m c r) in ES; auto; [|lra].
        destruct ES as (_ & E1 & E2). exfalso. destruct Hnz as [?|Hnz]; [congruence|].
        apply Nat.div_small_iff in E2; lia. }
      destruct HO as [v' HO]. exists (S k), v'. split; [econstructor; eauto|auto]. }
  destruct (HX N) as (n & v & Hh & Hor). destruct Hor as [Hor|Hor]; [exists n, v; auto|subst n].
  pose proof (history_bounded m c r _ _ _ Hmin HG HI Hh HR0). lra.
Qed.
