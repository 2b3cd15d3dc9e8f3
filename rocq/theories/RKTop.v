(** Proofs of the statements of Prop_RK.v. *)
From Coq Require Import String ZArith Reals Lra Psatz QArith Qreals Bool Lia List.
From Verif Require Import Arith Common Stiff RK RKGen RKHist RKNonInt RKCalls RX RKReal HStart RKInit RKInitReal RKStep
  RKBuilt RKTimes SpecRK RKSpecProofs RKMore RKMirror.
Import ListNotations.
Open Scope nat_scope.

Section Any.
Context {A : Arith}.
Notation num := (num A).
Notation vec := (list num).
Implicit Types (m : Meth A) (c : Cfg A) (s : St A) (v : Solver A).

Lemma explicit_min m : explicit m -> min_stages m.
Proof. intros [? ? ? [? ? ? H|? ? ? ? ? H|? ? ? H]|? ? ? [? ? ? H]]; exact H. Qed.

Definition is_failed v : Prop := exists msg, stat v = Failed msg.
(** the call of step() is not the shortcut for an empty system or interval *)
Definition proper c v : Prop := y (st v) <> [] /\ neqb A (t (st v)) (t_bound c) = false.

Lemma step_accepted m c k v v' : min_stages m -> ode_step k m c v = StepOk v' ->
  ~ is_failed v' -> proper c v ->
  stat v = Running /\ step_impl k m c (st v) = Done (st v') /\ exists h Ks en, accepted m c (st v) (st v') h Ks en.
Proof.
  intros Hmin H Hf [P1 P2]. destruct (ode_step_ok m c k v v' Hmin H) as [Hr [Hc|[Hc|Hc]]].
  - destruct Hc as ([E|E] & _).
    + exfalso. apply P1. destruct (y (st v)); [auto|discriminate E].
    + congruence.
  - destruct Hc as (HA & _ & HD). auto.
  - destruct Hc as (msg & E & _). exfalso. apply Hf. exists msg. exact E.
Qed.

Lemma err_tab m T n c s s' h Ks en : uses_tab m T n -> accepted m c s s' h Ks en ->
  en = scaled_rms (rtol c) (atol c) (y s) (y s') (tab_error T n (fn c) h Ks (t s') (y s')).
Proof.
  intros HU [_ _ _ HK _ HE _ _ _ _ _]. rewrite HE. rewrite err_norm_rms. f_equal. rewrite HK.
  inversion HU; subst; cbn [rk_meth bs5_meth cfmr_meth m_err m_fsal]; unfold rk_err, tab_error;
    rewrite lincomb_eq; reflexivity.
Qed.

Lemma err_tabn m T n c s s' h Ks en : uses_tabn m T n -> accepted m c s s' h Ks en ->
  en = scaled_rms (rtol c) (atol c) (y s) (y s') (tabn_error T n (fn c) h Ks (t s') (y s')).
Proof.
  intros HU [_ _ _ HK _ HE _ _ _ _ _]. rewrite HE. rewrite err_norm_rms. f_equal. rewrite HK.
  inversion HU; subst; cbn [rkn_meth m_err m_fsal]; unfold rkn_err, tabn_error.
  rewrite !lincomb_eq. reflexivity.
Qed.

Lemma tab_step m T n c s s' h Ks en : uses_tab m T n -> fresh c s -> accepted m c s s' h Ks en ->
  textbook_rk T n (fn c) (t s) (y s) h Ks (t s') (y s').
Proof. intros HU HF HA. inversion HU; subst; eapply rk_textbook; try exact HA; auto. Qed.

Lemma tabn_step m T n c s s' h Ks en : uses_tabn m T n -> fresh c s -> accepted m c s s' h Ks en ->
  textbook_rkn T n (fn c) (t s) (y s) h Ks (t s') (y s').
Proof. intros HU HF HA. inversion HU; subst; eapply rkn_textbook; try exact HA; auto. Qed.

(** C02 and C06, one statement: the accepted step is the textbook step, its error
    estimate has scaled RMS norm below one *)
Theorem step_is_textbook m T n c v0 j v k v' : uses_tab m T n -> fresh c (st v0) ->
  history m c v0 j v -> ode_step k m c v = StepOk v' -> ~ is_failed v' -> proper c v ->
  exists h ks, textbook_rk T n (fn c) (t (st v)) (y (st v)) h ks (t (st v')) (y (st v')) /\
    nltb A (scaled_rms (rtol c) (atol c) (y (st v)) (y (st v'))
              (tab_error T n (fn c) h ks (t (st v')) (y (st v')))) n1 = true /\
    f (st v') = fn c (t (st v')) (y (st v')).
Proof.
  intros HU HF HH HS Hnf HP.
  assert (Hmin : min_stages m) by (apply explicit_min; econstructor; eauto).
  destruct (step_accepted m c k v v' Hmin HS Hnf HP) as (Hr & _ & h & Ks & en & HA).
  pose proof (running_fresh m c v0 j v Hmin HF HH Hr) as HFv.
  exists h, Ks. split; [eapply tab_step; eauto|]. split.
  - rewrite <- (err_tab m T n c _ _ h Ks en HU HA). exact (ac_lt _ _ _ _ _ _ _ HA).
  - exact (ac_f _ _ _ _ _ _ _ HA).
Qed.

Theorem step_is_textbook_n m T n c v0 j v k v' : uses_tabn m T n -> fresh c (st v0) ->
  history m c v0 j v -> ode_step k m c v = StepOk v' -> ~ is_failed v' -> proper c v ->
  exists h ks, textbook_rkn T n (fn c) (t (st v)) (y (st v)) h ks (t (st v')) (y (st v')) /\
    nltb A (scaled_rms (rtol c) (atol c) (y (st v)) (y (st v'))
              (tabn_error T n (fn c) h ks (t (st v')) (y (st v')))) n1 = true /\
    f (st v') = fn c (t (st v')) (y (st v')).
Proof.
  intros HU HF HH HS Hnf HP.
  assert (Hmin : min_stages m) by (apply explicit_min; eapply ex_tabn; eauto).
  destruct (step_accepted m c k v v' Hmin HS Hnf HP) as (Hr & _ & h & Ks & en & HA).
  pose proof (running_fresh m c v0 j v Hmin HF HH Hr) as HFv.
  exists h, Ks. split; [eapply tabn_step; eauto|]. split.
  - rewrite <- (err_tabn m T n c _ _ h Ks en HU HA). exact (ac_lt _ _ _ _ _ _ _ HA).
  - exact (ac_f _ _ _ _ _ _ _ HA).
Qed.

(** C05 *)
Theorem failure_clean m c k v v' msg : explicit m -> ode_step k m c v = StepOk v' -> stat v' = Failed msg ->
  t (st v') = t (st v) /\ y (st v') = y (st v) /\ f (st v') = f (st v) /\ t_old v' = t_old v /\
  match msg with
  | TOO_SMALL_STEP => exists trial_h, nltb A trial_h
      (pymax (nmul A (h_min_a c) (nadd A (nabs A (t (st v))) (h_abs (st v)))) (h_min_b c)) = true
  | OVERFLOW => exists h ks, full_stages m c (t (st v)) (y (st v)) (f (st v)) h ks /\
      let yn := m_sol m (y (st v)) h ks in
      let en := err_norm c (y (st v)) yn (m_err m h (if m_fsal m then ks ++ [fn c (nadd A (t (st v)) h) yn] else ks)) in
      nisnan A en || nisinf A en = true
  end.
Proof.
  intros HE H Hf. pose proof (explicit_min m HE) as Hmin.
  assert (Hto : t_old v' = t_old v).
  { unfold ode_step in H. destruct (stat v); try discriminate.
    destruct (_ || _); [inversion H; subst; discriminate Hf|].
    destruct (step_impl k m c (st v)) as [s1|s1 m1|e1|]; try discriminate; inversion H; subst; [|reflexivity].
    cbn [stat st] in Hf. destruct (nleb A _ _); discriminate. }
  destruct (ode_step_ok m c k v v' Hmin H) as [Hr [Hc|[Hc|Hc]]].
  - destruct Hc as (_ & E & _). congruence.
  - destruct Hc as (_ & [E|E] & _); congruence.
  - destruct Hc as (msg' & E & (C1&C2&C3&_) & HS). assert (msg' = msg) by congruence. subst msg'.
    split; [exact C1|]. split; [exact C2|]. split; [exact C3|]. split; [exact Hto|].
    destruct msg.
    + destruct (step_fail m c k (st v) (st v') TOO_SMALL_STEP Hmin HS) as [_ G]. exact G.
    + eapply step_overflow; eauto.
Qed.

(** C07: cost of an accepted step *)
Theorem step_cost_plain m c k v v' : min_stages m -> nfev_stiff_detect c = 0 -> m_pre m = None ->
  ode_step k m c v = StepOk v' -> ~ is_failed v' -> proper c v ->
  exists rejected, nfs (st v') = nfs (st v) + rejected /\
    nfev (st v') = nfev (st v) + rejected * (m_stages m - 1 + (if m_fsal m then 1 else 0)) + m_stages m.
Proof.
  intros Hmin Hn Hp H Hf HP. destruct (step_accepted m c k v v' Hmin H Hf HP) as (_ & HD & _).
  destruct (step_cost m c k (st v) (st v') Hmin Hn HD) as (k1 & k2 & E1 & E2 & E3).
  rewrite (E1 Hp) in *. exists k2. split; [lia|]. unfold nfev. rewrite E3. unfold cost_of. lia.
Qed.

Theorem step_cost_pre m c k v v' : min_stages m -> nfev_stiff_detect c = 0 ->
  ode_step k m c v = StepOk v' -> ~ is_failed v' -> proper c v ->
  exists pre full, nfs (st v') = nfs (st v) + pre + full /\
    nfev (st v') = nfev (st v) + pre * (m_stages m - 2)
       + full * (m_stages m - 1 + (if m_fsal m then 1 else 0)) + m_stages m.
Proof.
  intros Hmin Hn H Hf HP. destruct (step_accepted m c k v v' Hmin H Hf HP) as (_ & HD & _).
  destruct (step_cost m c k (st v) (st v') Hmin Hn HD) as (k1 & k2 & E1 & E2 & E3).
  exists k1, k2. split; [lia|]. unfold nfev. rewrite E3. unfold cost_of. lia.
Qed.

(** C13 *)
Theorem detect_irrelevant m c fuel n s v : run fuel n m c (new_solver s) = StepOk v ->
  exists v', run fuel n m (set_detect c 0) (new_solver s) = StepOk v' /\
    t (st v') = t (st v) /\ y (st v') = y (st v) /\ f (st v') = f (st v) /\
    h_abs (st v') = h_abs (st v) /\ nfs (st v') = nfs (st v) /\ K (st v') = K (st v) /\
    stat v' = stat v /\ t_old v' = t_old v.
Proof.
  intros H. destruct (run_sim m c fuel n (new_solver s) (new_solver s) v) as (v' & H1 & (E1&E2&E3&E4&E5&E6&E7&E8&E9&E10&E11&E12) & F1 & F2); auto.
  { split; [repeat split|split; reflexivity]. }
  exists v'. auto 10.
Qed.

(** C14 *)
Lemma loop_done_detect m c fuel : forall s ha ms rej s', rk_loop fuel m c s ha ms rej = Done s' ->
  nfev_stiff_detect c = 0 \/ nfev_stiff_detect c / m_stages m <> 0.
Proof.
  induction fuel as [|fuel IH]; intros s ha0 ms rej s' H; cbn [rk_loop] in H; [discriminate|].
  destruct (trial_step m c s ha0 ms rej); try discriminate; [|eauto].
  unfold finish in H.
  match type of H with context [if m_fsal m then ?a else ?b] => destruct (if m_fsal m then a else b) end.
  destruct (Nat.eq_dec (nfev_stiff_detect c) 0) as [|Hn]; [auto|].
  right. intros E. rewrite (diagnose_zero m c _ _ _ Hn E) in H. discriminate.
Qed.

Theorem detect_zerodiv m c k s s' : 1 <= nfev_stiff_detect c < m_stages m ->
  step_impl k m (set_detect c 0) s = Done s' -> step_impl k m c s = Raise ZeroDivisionError.
Proof.
  intros Hn H.
  pose proof (step_impl_sim m c k s s) as HS.
  assert (HR : res_sim (step_impl k m c s) (step_impl k m (set_detect c 0) s)) by (apply HS; repeat split).
  rewrite H in HR. destruct (step_impl k m c s) as [s1|s1 m1|e|] eqn:E; simpl in HR; try contradiction.
  - exfalso. unfold step_impl in E. destruct (reassess_stepsize c s) as [[h0 ms] sc].
    apply loop_done_detect in E. destruct E as [E|E]; [lia|]. apply E. apply Nat.div_small. lia.
  - destruct e; try contradiction. reflexivity.
Qed.

Theorem detect_noexn m c k s e : min_stages m -> nfev_stiff_detect c = 0 \/ m_stages m <= nfev_stiff_detect c ->
  standard_sc s = true \/ (h_previous s <> None /\ error_norm_old s <> None) ->
  step_impl k m c s <> Raise e.
Proof.
  intros Hmin Hn Hsc H. unfold step_impl in H.
  assert (Hs : snd (reassess_stepsize c s) = false -> standard_sc s = false).
  { unfold reassess_stepsize. destruct (_ || _); destruct (nltb A _ _); try destruct (nltb A _ _); simpl; auto; discriminate. }
  destruct (reassess_stepsize c s) as [[h0 ms] sc]. cbn [snd] in Hs.
  apply rk_loop_raise in H; auto. cbn [with_trial standard_sc h_previous error_norm_old] in H.
  assert (1 <= m_stages m) by (unfold min_stages in Hmin; destruct (m_pre m); lia).
  destruct H as [(_ & H1 & H2)|(H1 & H2)].
  - destruct Hn as [Hn|Hn]; [lia|]. apply Nat.div_small_iff in H2; lia.
  - specialize (Hs H1). destruct Hsc as [E|[E1 E2]]; [congruence|]. destruct H2; contradiction.
Qed.

End Any.

Open Scope R_scope.

(** a solver that some constructor built and that has made n step() calls *)
Definition after (m : Meth RX) (o : Opts RX) fun_ (t0 tb : R) y0 (c : Cfg RX) (n : nat) (v : Solver RX) : Prop :=
  exists s, built o fun_ t0 tb y0 c s /\ history m c (new_solver s) n v.

(** max_step is not below the minimum step of the next call *)
Definition limits_consistent (c : Cfg RX) (v : Solver RX) : Prop :=
  xleb (code_min_step c (st v)) (max_step c) = true.

Lemma after_inv m o fun_ t0 tb y0 c n v : min_stages m -> after m o fun_ t0 tb y0 c n v ->
  exists r s, good_cfg c r /\ inv c r v /\ RKReal.tb r = tb /\ 0 < dir r * (tb - t0) /\ hb r = sqrt (/ 2 ^ 1022) /\
    max_step c = o_max_step o /\ inv c r (new_solver s) /\ tval s = t0 /\ history m c (new_solver s) n v /\ fresh c s.
Proof.
  intros Hmin (s & HB & HH). destruct (built_inv _ _ _ _ _ _ _ HB) as (r & HG & HI & E1 & E2 & Hd & Hb & HF & HM).
  exists r, s. split; [exact HG|]. split; [eapply history_inv; eauto|]. auto 10.
Qed.

Lemma dir_cases r t0 tb : rc_ok r -> 0 < dir r * (tb - t0) ->
  (dir r = 1 /\ t0 < tb) \/ (dir r = -1 /\ tb < t0).
Proof. intros ([E|E]&_) H; rewrite E in *; [left|right]; split; auto; lra. Qed.

Theorem monotone m o fun_ t0 tb y0 c n v k v' : explicit m -> after m o fun_ t0 tb y0 c n v ->
  limits_consistent c v -> ode_step k m c v = StepOk v' -> ~ is_failed v' ->
  exists x x', t (st v) = Fin x /\ t (st v') = Fin x' /\ advances t0 tb x x' /\
    (y (st v) <> [] -> xleb (Fin (Rabs (x' - x))) (max_step c) = true /\ xleb (code_min_step c (st v)) (Fin (Rabs (x' - x))) = true).
Proof.
  intros HE HA HL HS Hnf. pose proof (explicit_min m HE) as Hmin.
  destruct (after_inv _ _ _ _ _ _ _ _ _ Hmin HA) as (r & s & HG & [HLv HIv] & E1 & Hd & _ & _ & [HL0 HI0] & Et0 & HH & _).
  assert (HRO : rc_ok r) by (destruct HG as (_ & HR & _); exact HR).
  destruct (ode_step_ok m c k v v' Hmin HS) as [Hr [Hc|[Hc|Hc]]].
  - rewrite Hr in HIv. destruct Hc as (Hz & _ & _ & Ht & _).
    destruct HLv as (((tt & Htt) & _) & _). exists tt, tb. split; [exact Htt|].
    assert (Htb : t_bound c = Fin tb) by (destruct HG as ((HH1 & _) & _); rewrite HH1, E1; reflexivity).
    split; [rewrite Ht; exact Htb|].
    unfold tval in HIv. rewrite Htt, E1 in HIv.
    split.
    + destruct (dir_cases r t0 tb HRO Hd) as [[Ed Ho]|[Ed Ho]]; rewrite Ed in *; [left|right]; lra.
    + intros Hy. exfalso. destruct Hz as [Hz|Hz]; [apply Hy; destruct (y (st v)); [auto|discriminate]|].
      rewrite Htt, Htb in Hz. cbn [neqb RX xeqb] in Hz. destruct (Reqb_spec tt tb); [|discriminate]. subst tt.
      replace (tb - tb) with 0 in HIv by ring. lra.
  - destruct Hc as (_ & _ & HD). rewrite Hr in HIv.
    pose proof (max_above_min_code c r (st v) HG HLv HL) as HP.
    destruct (step_monotone m c r k (st v) (st v') Hmin HG HLv HIv HP HD) as (M1 & M2 & M3 & M4).
    destruct (step_basic m c r k (st v) (st v') Hmin HG HLv) as (_ & _ & _ & _ & _ & _ & _ & HL2 & _); auto; [lra|].
    rewrite (code_min_step_val c r (st v) HG HLv).
    destruct HLv as (((tt & Htt) & _) & _). destruct HL2 as (((tt' & Htt') & _) & _).
    unfold tval in *. rewrite Htt, Htt' in *. rewrite E1 in *.
    exists tt, tt'. split; [auto|]. split; [auto|]. split.
    + destruct (dir_cases r t0 tb HRO Hd) as [[Ed Ho]|[Ed Ho]]; rewrite Ed in *; [left|right]; lra.
    + intros _. split.
      * destruct HG as (_ & _ & [E|(M & E & _)]); rewrite E in *; [reflexivity|]. apply Rleb_true. exact M4.
      * apply Rleb_true. exact M3.
  - exfalso. apply Hnf. destruct Hc as (msg & E & _). exists msg; exact E.
Qed.

Theorem within_interval m o fun_ t0 tb y0 c n v : explicit m -> after m o fun_ t0 tb y0 c n v ->
  o_max_step o = PInf -> exists x, t (st v) = Fin x /\ within t0 tb x /\ (stat v = Finished -> x = tb).
Proof.
  intros HE HA HM. pose proof (explicit_min m HE) as Hmin.
  destruct (after_inv _ _ _ _ _ _ _ _ _ Hmin HA) as (r & s & HG & [HLv HIv] & E1 & Hd & _ & EM & HI0 & Et0 & HH & _).
  rewrite HM in EM.
  destruct (history_within m c r _ _ _ Hmin HG HI0 EM eq_refl HH) as (W1 & W2 & W3).
  destruct HLv as (((tt & Htt) & _) & _). exists tt. split; [exact Htt|].
  cbn [st new_solver] in *. unfold tval at 1 in W1. unfold tval at 1 in W2. unfold tval in W3. rewrite Htt in *. rewrite Et0, E1 in *.
  split; [|exact W3].
  assert (HRO : rc_ok r) by (destruct HG as (_ & HR & _); exact HR).
  destruct (dir_cases r t0 tb HRO Hd) as [[Ed Ho]|[Ed Ho]]; rewrite Ed in *; [left|right]; lra.
Qed.

Theorem lands m o fun_ t0 tb y0 c n v k v' x h : explicit m -> after m o fun_ t0 tb y0 c n v ->
  ode_step k m c v = StepOk v' -> ~ is_failed v' -> nfs (st v') = nfs (st v) ->
  t (st v) = Fin x -> h_abs (st v) = Fin h ->
  xleb (code_min_step c (st v)) (Fin h) = true -> xleb (Fin h) (max_step c) = true ->
  Rabs (tb - x) <= h ->
  t (st v') = Fin tb /\ stat v' = Finished.
Proof.
  intros HE HA HS Hnf Hn Ht Hh H1 H2 Hle. pose proof (explicit_min m HE) as Hmin.
  destruct (after_inv _ _ _ _ _ _ _ _ _ Hmin HA) as (r & s & HG & [HLv HIv] & E1 & Hd & _).
  assert (Htb : t_bound c = Fin tb) by (destruct HG as ((HH1 & _) & _); rewrite HH1, E1; reflexivity).
  assert (HRO : rc_ok r) by (destruct HG as (_ & HR & _); exact HR).
  destruct (ode_step_ok m c k v v' Hmin HS) as [Hr [Hc|[Hc|Hc]]].
  - destruct Hc as (_ & E & _ & Et & _). rewrite Et. auto.
  - destruct Hc as (_ & _ & HD). rewrite Hr in HIv.
    rewrite (code_min_step_val c r (st v) HG HLv) in H1. apply Rleb_true in H1.
    assert (Hv : hval (st v) = h) by (unfold hval; rewrite Hh; auto).
    assert (Hx : tval (st v) = x) by (unfold tval; rewrite Ht; auto).
    assert (Hc1 : clip (max_step c) (min_step_at r (st v)) (hval (st v)) = h).
    { unfold clip. rewrite Hv. destruct (Rltb_spec h (min_step_at r (st v))); [lra|].
      destruct (max_step c) as [M| | |]; cbn [xleb xltb orb] in *; try discriminate; auto.
      apply Rleb_true in H2. destruct (Rltb_spec M h); [lra|reflexivity]. }
    assert (HTL : t (st v') = t_bound c).
    { apply (step_lands m c r k (st v) (st v') Hmin HG HLv HIv HD Hn).
      rewrite Hc1. unfold dist. rewrite E1, Hx. exact Hle. }
    split; [rewrite HTL; exact Htb|].
    unfold ode_step in HS. rewrite Hr in HS.
    destruct (_ || _); [inversion HS; reflexivity|].
    rewrite HD in HS. inversion HS as [[HE1]]. cbn [stat].
    rewrite HTL, Htb. destruct HG as ((_ & Hdir & _) & _). rewrite Hdir.
    change (nsub RX) with xsub. change (nmul RX) with xmul. unfold xsub. cbn [xopp xadd xmul].
    match goal with |- context [Rleb ?a ?b] => destruct (Rleb_spec a b) as [|HX]; [reflexivity|exfalso] end.
    assert (E0 : Q2R 0 = 0) by (unfold Q2R; simpl; lra). rewrite E0 in HX. nra.
  - exfalso. apply Hnf. destruct Hc as (msg & E & _). exists msg; exact E.
Qed.

Theorem terminates m o fun_ t0 tb y0 c n v g K : explicit m -> after m o fun_ t0 tb y0 c n v ->
  stat v = Running -> safety c = Fin g ->
  (1 <= K)%nat -> Rabs (tb - t0) * Rmax (1/5) g ^ K < sqrt (/ 2 ^ 1022) ->
  forall k, (K < k)%nat -> ode_step k m c v <> StepFuel /\ ode_step k m c v = ode_step (S K) m c v.
Proof.
  intros HE (s & HB & HH) HR Hg HK Hlt k Hk. pose proof (explicit_min m HE) as Hmin.
  destruct (built_good _ _ _ _ _ _ _ HB) as (r & HG & HS & E1 & E2 & Hd & Hb & _ & Et & _).
  destruct (built_inv _ _ _ _ _ _ _ HB) as (r2 & HG2 & HI & F1 & F2 & _ & Fb & _).
  assert (Er : mf r2 = 1/5).
  { destruct HG as ((_&_&_&_&_&_&_&_&_&_&_&M1) & _). destruct HG2 as ((_&_&_&_&_&_&_&_&_&_&_&M2) & _).
    rewrite M1 in M2. injection M2 as <-. exact E2. }
  apply (terminates_explicit m c r2 (new_solver s) n v K Hmin HG2 HI eq_refl HH HR HK); auto.
  cbn [st new_solver]. rewrite F1, F2, Fb. unfold shrink. rewrite Er.
  destruct HG2 as ((_&_&_&_&_&G&_) & _). rewrite Hg in G. injection G as <-. exact Hlt.
Qed.

(** the bound above is never empty: such a K exists *)
Lemma fuel_exists (d g : R) : 0 < g < 1 -> exists K : nat, (1 <= K)%nat /\ d * Rmax (1/5) g ^ K < sqrt (/ 2 ^ 1022).
Proof.
  intros Hg. set (q := Rmax (1/5) g).
  assert (Hq : 0 < q < 1) by (unfold q; apply Rmax_case; lra).
  assert (He : 0 < sqrt (/ 2 ^ 1022)) by (apply sqrt_lt_R0, Rinv_0_lt_compat, pow_lt; lra).
  assert (Hd : 0 < Rabs d + 1) by (pose proof (Rabs_pos d); lra).
  destruct (pow_lt_1_zero q) with (y := sqrt (/ 2 ^ 1022) / (Rabs d + 1)) as (N & HN).
  { rewrite Rabs_right; lra. }
  { apply Rmult_lt_0_compat; [exact He|]. apply Rinv_0_lt_compat; exact Hd. }
  exists (S N). split; [lia|]. specialize (HN (S N) ltac:(lia)).
  assert (0 < q ^ S N) by (apply pow_lt; lra).
  rewrite Rabs_right in HN by lra.
  apply Rmult_lt_compat_r with (r := Rabs d + 1) in HN; [|exact Hd].
  replace (sqrt (/ 2 ^ 1022) / (Rabs d + 1) * (Rabs d + 1)) with (sqrt (/ 2 ^ 1022)) in HN by (field; lra).
  pose proof (Rle_abs d). nra.
Qed.

(** each rejection shrinks the trial step *)
Theorem rejections_shrink m o fun_ t0 tb y0 c n v k v' g : explicit m -> after m o fun_ t0 tb y0 c n v ->
  safety c = Fin g -> ode_step k m c v = StepOk v' -> ~ is_failed v' -> proper c v ->
  exists h1 hk j x x', (nfs (st v') = nfs (st v) + j)%nat /\ t (st v) = Fin x /\ t (st v') = Fin x' /\
    0 < h1 /\ hk = Rabs (x' - x) /\ h1 * (1/5) ^ j <= hk <= h1 * Rmax (1/5) g ^ j /\
    xleb (Fin h1) (pymax (Fin (Rabs (tb - x))) (code_min_step c (st v))) = true /\
    ((0 < j)%nat -> exists h', h_abs (st v') = Fin h' /\ h' <= hk).
Proof.
  intros HE (s & HB & HH) Hg HS Hnf HP. pose proof (explicit_min m HE) as Hmin.
  destruct (built_good _ _ _ _ _ _ _ HB) as (r & HG & HSt & E1 & E2 & Hd & Hb & _ & Et & _).
  assert (HI : inv c r (new_solver s)).
  { split; [apply good_live; exact HSt|]. cbn [stat new_solver st]. unfold tval. rewrite Et, E1. exact Hd. }
  pose proof (history_inv m c r _ _ _ Hmin HG HI HH) as [HLv HIv].
  destruct (step_accepted m c k v v' Hmin HS Hnf HP) as (Hr & HD & _). rewrite Hr in HIv.
  destruct (step_basic m c r k (st v) (st v') Hmin HG HLv) as (j & hk & B1 & B2 & B3 & B4 & B5 & HL2 & B6 & B7 & B8); auto; [lra|].
  pose proof (trial0_pos c r (st v) HG HLv ltac:(lra)) as Hp0.
  pose proof (trial0_le_max c r (st v) HG HLv) as Hp1.
  pose proof (code_min_step_val c r (st v) HG HLv) as Hcm.
  assert (HRO : rc_ok r) by (destruct HG as (_ & HR & _); exact HR).
  destruct HLv as (((tt & Htt) & _) & _). destruct HL2 as (((tt' & Htt') & _) & (h' & Hh' & _)).
  exists (trial0 c r (st v)), hk, j, tt, tt'.
  assert (Ev : tval (st v) = tt) by (unfold tval; rewrite Htt; auto).
  assert (Ev' : tval (st v') = tt') by (unfold tval; rewrite Htt'; auto).
  rewrite Ev, Ev' in *.
  split; [exact B4|]. split; [exact Htt|]. split; [exact Htt'|]. split; [exact Hp0|]. split.
  { rewrite B5. replace (tt + dir r * hk - tt) with (dir r * hk) by ring. rewrite Rabs_mult.
    rewrite (Rabs_right hk) by lra. destruct HRO as ([E|E]&_); rewrite E.
    - rewrite Rabs_R1; ring.
    - rewrite (Rabs_left (-1)) by lra; ring. }
  assert (Eg : RKReal.g r = g) by (destruct HG as ((_&_&_&_&_&G&_) & _); rewrite Hg in G; injection G; auto).
  split. { unfold shrink in B3. rewrite E2, Eg in B3. exact B3. }
  split. { rewrite Hcm. rewrite pymax_fin. apply Rleb_true. unfold dist in Hp1. rewrite E1, Ev in Hp1. exact Hp1. }
  intros Hj. exists h'. split; [exact Hh'|]. specialize (B7 Hj). unfold hval in B7. rewrite Hh' in B7. exact B7.
Qed.

Theorem steps_bounded m o fun_ t0 tb y0 c n v : explicit m -> after m o fun_ t0 tb y0 c n v ->
  INR n * sqrt (/ 2 ^ 1022) < Rabs (tb - t0) + sqrt (/ 2 ^ 1022).
Proof.
  intros HE HA. pose proof (explicit_min m HE) as Hmin.
  destruct (after_inv _ _ _ _ _ _ _ _ _ Hmin HA) as (r & s & HG & _ & E1 & Hd & Hb & EM & HI0 & Et0 & HH & _).
  pose proof (history_bounded m c r _ _ _ Hmin HG HI0 HH eq_refl) as H.
  cbn [st new_solver] in H. rewrite E1, Et0, Hb in H. exact H.
Qed.

Theorem run_ends m o fun_ t0 tb y0 c s : explicit m -> built o fun_ t0 tb y0 c s ->
  (nfev_stiff_detect c = 0%nat \/ (m_stages m <= nfev_stiff_detect c)%nat) ->
  exists n v, history m c (new_solver s) n v /\ (stat v = Finished \/ is_failed v).
Proof.
  intros HE HB Hn. pose proof (explicit_min m HE) as Hmin.
  destruct (built_inv _ _ _ _ _ _ _ HB) as (r & HG & HI & _).
  destruct (run_terminates m c r (new_solver s) Hmin HG HI eq_refl Hn) as (n & v & HH & Hs).
  exists n, v. split; [exact HH|]. unfold is_failed. destruct (stat v) as [| |msg]; eauto. congruence.
Qed.

Theorem no_exception m o fun_ t0 tb y0 c n v k e : explicit m -> after m o fun_ t0 tb y0 c n v ->
  stat v = Running ->
  (nfev_stiff_detect c = 0%nat \/ (m_stages m <= nfev_stiff_detect c)%nat) ->
  ode_step k m c v <> StepExn e.
Proof.
  intros HE HA HR Hn H. pose proof (explicit_min m HE) as Hmin.
  destruct (after_inv _ _ _ _ _ _ _ _ _ Hmin HA) as (r & s & HG & [HLv HIv] & E1 & Hd & _). rewrite HR in HIv.
  unfold ode_step in H. rewrite HR in H. destruct (_ || _); [discriminate|].
  destruct (step_impl k m c (st v)) as [s1|s1 m1|e1|] eqn:ES; try discriminate.
  assert (1 <= m_stages m)%nat by (unfold min_stages in Hmin; destruct (m_pre m); lia).
  destruct (step_no_exn m c r k (st v) e1 Hmin HG HLv) as (_ & X1 & X2); auto; [lra|].
  destruct Hn as [Hn|Hn]; [lia|]. apply Nat.div_small_iff in X2; lia.
Qed.

(** the controller state that the second order branch reads *)
Theorem controller_defined m o fun_ t0 tb y0 c n v : explicit m -> after m o fun_ t0 tb y0 c n v ->
  standard_sc (st v) = false ->
  exists hp eo te, h_previous (st v) = Some (Fin hp) /\ hp <> 0 /\ error_norm_old (st v) = Some (Fin eo) /\
    tiny_err c = Fin te /\ 0 < te <= eo /\ eo < 1.
Proof.
  intros HE HA Hs. pose proof (explicit_min m HE) as Hmin.
  destruct (after_inv _ _ _ _ _ _ _ _ _ Hmin HA) as (r & s & HG & [HLv HIv] & _).
  destruct HLv as ((_ & _ & HL) & _). destruct (HL Hs) as ((hp & P1 & P2) & (eo & P3 & P4)).
  exists hp, eo, (te r). split; [exact P1|]. split; [intros ->; lra|]. split; [exact P3|].
  destruct HG as ((_&_&_&_&T&_) & (_&_&_&T2&_) & _). split; [exact T|]. lra.
Qed.

(** C15 *)
Definition nodes_of (m : Meth RX) (C : list (num RX)) : Prop :=
  (exists T n, uses_tab m T n /\ C = r_C T /\ (r_stages T <= length (r_C T))%nat) \/
  (exists T n, uses_tabn m T n /\ C = n_C T /\ (n_stages T <= length (n_C T))%nat).

Lemma nodes_has m C : nodes_of m C -> has_nodes m C.
Proof.
  intros [(T & n & HU & -> & HL)|(T & n & HU & -> & HL)]; inversion HU; subst; (split; [exact HL|]); intros; reflexivity.
Qed.
Lemma nodes_explicit m C : nodes_of m C -> explicit m.
Proof. intros [(T & n & HU & _)|(T & n & HU & _)]; [eapply ex_tab|eapply ex_tabn]; eauto. Qed.

Theorem evaluation_times m o fun_ t0 tb y0 c n s v C : nodes_of m C -> nodes01 C ->
  built o fun_ t0 tb y0 c s -> history m c (new_solver s) n v -> o_max_step o = PInf ->
  exists l, calls (st v) = calls s ++ l /\
    Forall (fun p => exists x, fst p = Fin x /\ within t0 tb x) l.
Proof.
  intros HN HC HB HH HM.
  pose proof (explicit_min m (nodes_explicit m C HN)) as Hmin.
  destruct (built_inv _ _ _ _ _ _ _ HB) as (r & HG & HI & E1 & Et & Hd & _ & _ & EM). rewrite HM in EM.
  destruct (history_times m c r C (new_solver s) n v Hmin (nodes_has m C HN) HC HG HI EM eq_refl HH) as (l & E & F).
  exists l. split; [exact E|]. eapply Forall_impl; [|exact F].
  intros p (x & Hx & X1 & X2). exists x. split; [exact Hx|]. cbn [st new_solver] in *. rewrite Et in X1. rewrite E1 in X2.
  assert (HRO : rc_ok r) by (destruct HG as (_ & HR & _); exact HR).
  destruct (dir_cases r t0 tb HRO Hd) as [[Ed Ho]|[Ed Ho]]; rewrite Ed in *; [left|right]; lra.
Qed.

Theorem components_bounded (T : Tab RX) m n c v0 j v k v' : uses_tab m T n -> fresh c (st v0) ->
  history m c v0 j v -> ode_step k m c v = StepOk v' -> ~ is_failed v' -> proper c v ->
  exists h ks, textbook_rk T n (fn c) (t (st v)) (y (st v)) h ks (t (st v')) (y (st v')) /\
  let err := tab_error T n (fn c) h ks (t (st v')) (y (st v')) in
  let scale := calculate_scale (atol c) (rtol c) (y (st v)) (y (st v')) in
  forall e, In e (vdiv err scale) -> exists q, e = Fin q /\ Rabs q < sqrt (INR (length (vdiv err scale))).
Proof.
  intros HU HF HH HS Hnf HP.
  destruct (step_is_textbook m T n c v0 j v k v' HU HF HH HS Hnf HP) as (h & ks & H1 & H2 & _).
  exists h, ks. split; [exact H1|]. cbv zeta. apply norm_lt1_components.
  rewrite n1_RX in H2. exact H2.
Qed.

(** C09: growth limits of the second order controller *)
Theorem growth_limited m o fun_ t0 tb y0 c n v k v' : explicit m -> after m o fun_ t0 tb y0 c n v ->
  ode_step k m c v = StepOk v' -> ~ is_failed v' -> proper c v ->
  snd (reassess_stepsize c (st v)) = false ->
  exists x x' h', t (st v) = Fin x /\ t (st v') = Fin x' /\ h_abs (st v') = Fin h' /\
    1/5 * Rabs (x' - x) <= h' <= 10 * Rabs (x' - x).
Proof.
  intros HE (s & HB & HH) HS Hnf HP Hsc0. pose proof (explicit_min m HE) as Hmin.
  destruct (built_good _ _ _ _ _ _ _ HB) as (r & HG & HSt & E1 & E2 & Hd & Hb & _ & Et & _).
  assert (HI : inv c r (new_solver s)).
  { split; [apply good_live; exact HSt|]. cbn [stat new_solver st]. unfold tval. rewrite Et, E1. exact Hd. }
  pose proof (history_inv m c r _ _ _ Hmin HG HI HH) as [HLv HIv].
  destruct (step_accepted m c k v v' Hmin HS Hnf HP) as (Hr & HD & _). rewrite Hr in HIv.
  pose proof (trial0_pos c r (st v) HG HLv ltac:(lra)) as Hpos.
  assert (HS2 : exists sc h, reassess_stepsize c (st v) = (Fin h, Fin (min_step_at r (st v)), sc) /\ 0 < h /\
             0 < min_step_at r (st v) /\ (sc = false -> standard_sc (st v) = false)).
  { pose proof HLv as (((tt & Htt) & _) & (h & Hh & Hhp)). destruct HG as (HC & HR & HM).
    destruct (reassess_real c r (st v) tt h HC HR HM Htt Hh Hhp) as (h' & sc & He & Hsc & Hms & Hh1 & Hh').
    assert (Ev : tval (st v) = tt) by (unfold tval; rewrite Htt; auto).
    assert (Eh : hval (st v) = h) by (unfold hval; rewrite Hh; auto).
    unfold trial0, dist, min_step_at in *. rewrite Ev, Eh in *. exists sc, h'.
    split; [exact He|]. split; [rewrite Hh'; exact Hpos|]. auto. }
  destruct HS2 as (sc & h1 & He & Hh1 & Hms & Hsc). rewrite He in Hsc0. cbn [snd] in Hsc0. subst sc.
  unfold step_impl in HD. rewrite He in HD.
  destruct HG as (HC & HR & HM). destruct HLv as [HLv (h & Hh & Hhp)].
  assert (HLs : loop_st r (with_trial (st v) false (max_factor (st v)) (jflstp (st v)) (nfs (st v)) (K (st v)) (calls (st v)))).
  { apply loop_st_with; auto. left. symmetry; auto. }
  destruct (loop_done m c r Hmin HC HR _ _ _ _ _ _ HLs Hh1 Hms HD)
    as (j & hk & tt & Hk0 & Hk1 & Hk2 & Hk3 & Hk4 & Hk5 & Hk6 & (h' & Hk7 & Hk7p & Hk8 & Hk9) & Hk10 & Hk11).
  exists tt, (tt + dir r * hk), h'. cbn [t with_trial] in Hk5. split; [exact Hk5|]. split; [exact Hk6|]. split; [exact Hk7|].
  assert (E : Rabs (tt + dir r * hk - tt) = hk).
  { replace (tt + dir r * hk - tt) with (dir r * hk) by ring. rewrite Rabs_mult, (Rabs_right hk) by lra.
    destruct HR as ([Ed|Ed]&_); rewrite Ed; [rewrite Rabs_R1; ring|rewrite (Rabs_left (-1)) by lra; ring]. }
  rewrite E. rewrite <- E2. apply Hk9. reflexivity.
Qed.

(** max_factor is 10 until the first moderate step, then 4 for ever *)
Theorem max_factor_values m o fun_ t0 tb y0 c n v : explicit m -> after m o fun_ t0 tb y0 c n v ->
  max_factor (st v) = Fin 10 \/ max_factor (st v) = Fin 4.
Proof.
  intros HE HA. destruct (after_inv _ _ _ _ _ _ _ _ _ (explicit_min m HE) HA) as (r & s & HG & [HLv HIv] & _).
  destruct HLv as ((_ & H & _) & _). exact H.
Qed.
Theorem max_factor_stays m o fun_ t0 tb y0 c n v k v' : explicit m -> after m o fun_ t0 tb y0 c n v ->
  ode_step k m c v = StepOk v' -> ~ is_failed v' -> max_factor (st v') = max_factor (st v) \/ max_factor (st v') = Fin 4.
Proof.
  intros HE HA HS Hnf. pose proof (explicit_min m HE) as Hmin.
  destruct (after_inv _ _ _ _ _ _ _ _ _ Hmin HA) as (r & s & HG & [HLv HIv] & _).
  destruct (ode_step_ok m c k v v' Hmin HS) as [Hr [Hc|[Hc|Hc]]].
  - unfold ode_step in HS. rewrite Hr in HS. destruct Hc as (Hz & _).
    assert (E : (Nat.eqb (length (y (st v))) 0 || neqb RX (t (st v)) (t_bound c))%bool = true).
    { destruct Hz as [Hz|Hz]; rewrite Hz; [reflexivity|apply orb_true_r]. }
    rewrite E in HS. inversion HS. left. reflexivity.
  - destruct Hc as (_ & _ & HD). rewrite Hr in HIv.
    destruct (step_basic m c r k (st v) (st v') Hmin HG HLv) as (j & hk & B1 & B2 & B3 & B4 & B5 & HL2 & B6 & B7 & B8); auto. lra.
  - exfalso. apply Hnf. destruct Hc as (msg & E & _). exists msg; exact E.
Qed.
