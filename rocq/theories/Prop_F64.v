(** * C44: the explicit solvers in IEEE binary64 arithmetic.

    [b64] are the binary64 numbers of Flocq (one nan), [B2R a] the real value of a
    finite one, [is_finite a] says that it is neither inf nor nan, [Bleb], [Bltb] are
    the IEEE comparisons, [Bminus mode_NE] etc. the correctly rounded operations.
    The solver is the model of RK.v/RKInit.v run with these operations; [pw] and [lg]
    stand for the platform's pow and log10 and are arbitrary.
    [after64 m o fun_ t0 tb y0 c n v]: v is the solver constructed for
    (fun_, t0, y0, t_bound = tb) after n step() calls that returned.
    [is_b64 x]: the real number x is a binary64 number. *)
From Flocq Require Import Core BinarySingleNaN.
From Coq Require Import String ZArith Reals Lra Psatz QArith Bool Lia List.
From Verif Require Import Arith Common Stiff RK RKGen RKHist HStart RKInit SpecRK RKTop Classes F64 F64Step.
Import ListNotations.
Close Scope string_scope. Open Scope nat_scope. Open Scope R_scope.

Lemma explicit_min64 {A} (m : Meth A) : explicit m -> min_stages m.
Proof. intros [m' T n H|m' T n H]; destruct H; unfold min_stages; cbn; auto. Qed.

(** the last step lands exactly when t_bound - t is a binary64 number ... *)
Theorem C44_lands_when_difference_exact pw lg (m : Meth (F64 pw lg)) o fun_ (t0 tb : b64) y0 c n v k (v' : Solver (F64 pw lg)) :
  explicit m -> after64 pw lg m o fun_ t0 tb y0 c n v ->
  is_finite t0 = true -> is_finite tb = true -> is_finite (t (st v) : b64) = true ->
  is_b64 (B2R tb - B2R (t (st v) : b64)) ->
  (* the proposed step is within the limits and not shorter than the remaining interval *)
  Bleb (min_step_64 pw lg c (st v)) (h_abs (st v)) = true -> Bleb (h_abs (st v)) (max_step c) = true ->
  Bleb (Babs (Bminus mode_NE tb (t (st v)))) (h_abs (st v)) = true ->
  (* step() succeeds without a rejection *)
  ode_step k m c v = StepOk v' -> (forall msg, stat v' <> Failed msg) -> nfs (st v') = nfs (st v) ->
  is_finite (t (st v') : b64) = true /\ B2R (t (st v') : b64) = B2R tb /\ stat v' = Finished.
Proof. intros HE. apply lands_64, explicit_min64, HE. Qed.

(** ... in particular when t and t_bound have the same sign and are within a factor two *)
Theorem C44_lands_within_factor_two pw lg (m : Meth (F64 pw lg)) o fun_ (t0 tb : b64) y0 c n v k (v' : Solver (F64 pw lg)) :
  explicit m -> after64 pw lg m o fun_ t0 tb y0 c n v ->
  is_finite t0 = true -> is_finite tb = true -> is_finite (t (st v) : b64) = true ->
  0 < B2R tb * B2R (t (st v) : b64) ->
  Rabs (B2R tb) <= 2 * Rabs (B2R (t (st v) : b64)) -> Rabs (B2R (t (st v) : b64)) <= 2 * Rabs (B2R tb) ->
  Bleb (min_step_64 pw lg c (st v)) (h_abs (st v)) = true -> Bleb (h_abs (st v)) (max_step c) = true ->
  Bleb (Babs (Bminus mode_NE tb (t (st v)))) (h_abs (st v)) = true ->
  ode_step k m c v = StepOk v' -> (forall msg, stat v' <> Failed msg) -> nfs (st v') = nfs (st v) ->
  is_finite (t (st v') : b64) = true /\ B2R (t (st v') : b64) = B2R tb /\ stat v' = Finished.
Proof.
  intros HE HA F0 Fb Ft Hs H1 H2 H3 H4 H5 HS Hnf Hn.
  apply (C44_lands_when_difference_exact pw lg m o fun_ t0 tb y0 c n v k v'); auto.
  apply factor_two; auto.
Qed.

(** ... and when the step starts at t = 0 *)
Theorem C44_lands_from_zero pw lg (m : Meth (F64 pw lg)) o fun_ (t0 tb : b64) y0 c n v k (v' : Solver (F64 pw lg)) :
  explicit m -> after64 pw lg m o fun_ t0 tb y0 c n v ->
  is_finite t0 = true -> is_finite tb = true -> is_finite (t (st v) : b64) = true -> B2R (t (st v) : b64) = 0 ->
  Bleb (min_step_64 pw lg c (st v)) (h_abs (st v)) = true -> Bleb (h_abs (st v)) (max_step c) = true ->
  Bleb (Babs (Bminus mode_NE tb (t (st v)))) (h_abs (st v)) = true ->
  ode_step k m c v = StepOk v' -> (forall msg, stat v' <> Failed msg) -> nfs (st v') = nfs (st v) ->
  is_finite (t (st v') : b64) = true /\ B2R (t (st v') : b64) = B2R tb /\ stat v' = Finished.
Proof.
  intros HE HA F0 Fb Ft Hz H3 H4 H5 HS Hnf Hn.
  apply (C44_lands_when_difference_exact pw lg m o fun_ t0 tb y0 c n v k v'); auto.
  exists tb. split; [exact Fb|]. rewrite Hz. lra.
Qed.

(** in general it misses t_bound by at most 2^-53 (|t_bound| + |t_bound - t|) *)
Theorem C44_lands_nearly pw lg (m : Meth (F64 pw lg)) o fun_ (t0 tb : b64) y0 c n v k (v' : Solver (F64 pw lg)) :
  explicit m -> after64 pw lg m o fun_ t0 tb y0 c n v ->
  is_finite t0 = true -> is_finite tb = true -> is_finite (t (st v) : b64) = true -> is_finite (t (st v') : b64) = true ->
  is_finite (Bminus mode_NE tb (t (st v))) = true ->
  Bleb (min_step_64 pw lg c (st v)) (h_abs (st v)) = true -> Bleb (h_abs (st v)) (max_step c) = true ->
  Bleb (Babs (Bminus mode_NE tb (t (st v)))) (h_abs (st v)) = true ->
  ode_step k m c v = StepOk v' -> (forall msg, stat v' <> Failed msg) -> nfs (st v') = nfs (st v) ->
  Rabs (B2R (t (st v') : b64) - B2R tb) <= / 2 ^ 53 * (Rabs (B2R tb) + Rabs (B2R tb - B2R (t (st v) : b64))).
Proof. intros HE. apply near_64, explicit_min64, HE. Qed.

(** every successful step to a finite time moves t strictly towards t_bound: rounding
    never makes the solver stand still *)
Theorem C44_advances pw lg (m : Meth (F64 pw lg)) o fun_ (t0 tb : b64) y0 c n v k (v' : Solver (F64 pw lg)) :
  explicit m -> after64 pw lg m o fun_ t0 tb y0 c n v ->
  is_finite t0 = true -> is_finite tb = true -> is_finite (t (st v) : b64) = true -> is_finite (t (st v') : b64) = true ->
  Bleb (@n0 (F64 pw lg)) (h_abs (st v)) = true -> y (st v) <> [] -> B2R (t (st v) : b64) <> B2R tb ->
  ode_step k m c v = StepOk v' -> (forall msg, stat v' <> Failed msg) ->
  (B2R t0 < B2R tb -> B2R (t (st v) : b64) < B2R (t (st v') : b64)) /\
  (B2R tb < B2R t0 -> B2R (t (st v') : b64) < B2R (t (st v) : b64)).
Proof. intros HE. apply advances_64, explicit_min64, HE. Qed.

(** ** Counterexamples: y' = 0 with Me4 and first_step = t_bound - t0 *)
Section Runs.
Context (pw : b64 -> b64 -> b64) (lg : b64 -> b64).
Notation FA := (F64 pw lg).
Definition zero64 : num FA -> list (num FA) -> list (num FA) := fun _ _ => [@n0 FA].
Definition opts64 (fs : b64) : Opts FA :=
  {| o_max_step := n_inf FA; o_rtol := @lit FA (1#1000); o_rtol_is_float := true; o_atol := Scalar (@lit FA (1#1000000));
     o_first_step := Some fs; o_stiff := 0; o_sc := ScNone |}.
Definition one64 : list (num FA) := [@n1 FA].

(** constructor and first step, then a test of the two solvers *)
Definition try64 (t0 tb : Q) (p : Cfg FA -> Solver FA -> Solver FA -> bool) : bool :=
  let a := b64_ofQ t0 in let b := b64_ofQ tb in
  match rk_init Me4_cls (opts64 (Bminus mode_NE b a)) zero64 a one64 b with
  | inl (c, s) => match ode_step 1 (Me4_meth 1) c (new_solver s) with StepOk v => p c (new_solver s) v | _ => false end
  | inr _ => false
  end.
Lemma try64_spec t0 tb p : try64 t0 tb p = true -> exists c s v,
  rk_init Me4_cls (opts64 (Bminus mode_NE (b64_ofQ tb) (b64_ofQ t0))) zero64 (b64_ofQ t0) one64 (b64_ofQ tb) = inl (c, s) /\
  ode_step 1 (Me4_meth 1) c (new_solver s) = StepOk v /\ p c (new_solver s) v = true.
Proof.
  unfold try64. cbv zeta. destruct (rk_init _ _ _ _ _ _) as [[c s]|e] eqn:E1; [|discriminate].
  destruct (ode_step 1 (Me4_meth 1) c (new_solver s)) as [v| |] eqn:E2; try discriminate. intros H.
  exists c, s, v. auto.
Qed.
Definition is_running (v : Solver FA) : bool := match stat v with Running => true | _ => false end.
Definition is_finished (v : Solver FA) : bool := match stat v with Finished => true | _ => false end.
Lemma is_running_spec v : is_running v = true -> stat v = Running.
Proof. unfold is_running. destruct (stat v); congruence. Qed.
Lemma is_finished_spec v : is_finished v = true -> stat v = Finished.
Proof. unfold is_finished. destruct (stat v); congruence. Qed.

(** overshoot: from t0 = -0.3 to t_bound = 0.1 the solver finishes beyond t_bound *)
Theorem overshoot : exists c s v,
  rk_init Me4_cls (opts64 (Bminus mode_NE (b64_ofQ (1#10)) (b64_ofQ (-3#10)))) zero64 (b64_ofQ (-3#10)) one64 (b64_ofQ (1#10)) = inl (c, s) /\
  ode_step 1 (Me4_meth 1) c (new_solver s) = StepOk v /\ stat v = Finished /\
  Bltb (b64_ofQ (1#10)) (t (st v)) = true.
Proof.
  destruct (try64_spec (-3#10) (1#10) (fun _ _ v => is_finished v && Bltb (b64_ofQ (1#10)) (t (st v)))) as (c & s & v & H1 & H2 & H3).
  { vm_compute. reflexivity. }
  apply andb_true_iff in H3. destruct H3 as [H3 H4]. exists c, s, v. split; [exact H1|]. split; [exact H2|]. split; [apply is_finished_spec, H3|exact H4].
Qed.

(** short of t_bound: from t0 = -5 to t_bound = 0.1 the step that should be the last one
    ends before t_bound and the next step() fails: "Required step size is less than ..." *)
Theorem fall_short : exists c s v v2,
  rk_init Me4_cls (opts64 (Bminus mode_NE (b64_ofQ (1#10)) (b64_ofQ (-5#1)))) zero64 (b64_ofQ (-5#1)) one64 (b64_ofQ (1#10)) = inl (c, s) /\
  ode_step 1 (Me4_meth 1) c (new_solver s) = StepOk v /\ stat v = Running /\ Bltb (t (st v)) (b64_ofQ (1#10)) = true /\
  ode_step 1 (Me4_meth 1) c v = StepOk v2 /\ stat v2 = Failed TOO_SMALL_STEP.
Proof.
  destruct (try64_spec (-5#1) (1#10) (fun c _ v => is_running v && Bltb (t (st v)) (b64_ofQ (1#10)) &&
     match ode_step 1 (Me4_meth 1) c v with StepOk v2 => match stat v2 with Failed TOO_SMALL_STEP => true | _ => false end | _ => false end))
    as (c & s & v & H1 & H2 & H3).
  { vm_compute. reflexivity. }
  destruct (ode_step 1 (Me4_meth 1) c v) as [v2| |] eqn:E2; rewrite ?andb_false_r in H3; try discriminate.
  apply andb_true_iff in H3. destruct H3 as [H3 H5]. apply andb_true_iff in H3. destruct H3 as [H3 H4].
  exists c, s, v, v2. split; [exact H1|]. split; [exact H2|]. split; [apply is_running_spec, H3|]. split; [exact H4|].
  split; [exact E2|]. destruct (stat v2) as [| |[]]; congruence.
Qed.

(** a case meeting the hypotheses of the landing theorems: t0 = 1, t_bound = 1.7 *)
Theorem lands_case : exists c s v,
  after64 pw lg (Me4_meth 1) (opts64 (Bminus mode_NE (b64_ofQ (17#10)) (b64_ofQ 1))) zero64 (b64_ofQ 1) (b64_ofQ (17#10)) one64 c 0 (new_solver s) /\
  is_finite (b64_ofQ 1) = true /\ is_finite (b64_ofQ (17#10)) = true /\
  t s = b64_ofQ 1 /\ Bltb (b64_ofQ 1) (b64_ofQ (17#10)) = true /\ Bltb (b64_ofQ (17#10)) (b64_ofQ 2) = true /\
  Bleb (@n0 FA) (h_abs s) = true /\ y s <> [] /\
  Bleb (min_step_64 pw lg c s) (h_abs s) = true /\ Bleb (h_abs s) (max_step c) = true /\
  Bleb (Babs (Bminus mode_NE (b64_ofQ (17#10)) (t s))) (h_abs s) = true /\
  ode_step 1 (Me4_meth 1) c (new_solver s) = StepOk v /\ stat v = Finished /\ nfs (st v) = nfs s /\ t (st v) = b64_ofQ (17#10).
Proof.
  destruct (try64_spec 1 (17#10) (fun c w v => is_finished v && Nat.eqb (nfs (st v)) (nfs (st w)) &&
     Bleb (@n0 FA) (h_abs (st w)) && negb (Nat.eqb (length (y (st w))) 0) &&
     Bleb (min_step_64 pw lg c (st w)) (h_abs (st w)) && Bleb (h_abs (st w)) (max_step c) &&
     Bleb (Babs (Bminus mode_NE (b64_ofQ (17#10)) (t (st w)))) (h_abs (st w)) &&
     Beqb (t (st v)) (b64_ofQ (17#10)))) as (c & s & v & H1 & H2 & H3).
  { vm_compute. reflexivity. }
  repeat (apply andb_true_iff in H3; destruct H3 as [H3 ?]). cbn [st new_solver] in *.
  assert (Hb : built64 pw lg (opts64 (Bminus mode_NE (b64_ofQ (17#10)) (b64_ofQ 1))) zero64 (b64_ofQ 1) (b64_ofQ (17#10)) one64 c s)
    by (left; exists Me4_cls; exact H1).
  destruct (consts64 pw lg _ _ _ _ _ _ _ Hb) as (E1 & E2 & E3 & _).
  exists c, s, v. split; [exists s; split; [exact Hb|constructor]|].
  split; [vm_compute; reflexivity|]. split; [vm_compute; reflexivity|]. split; [exact E3|].
  split; [vm_compute; reflexivity|]. split; [vm_compute; reflexivity|].
  split; [assumption|]. split. { intros E. rewrite E in *. discriminate. }
  split; [assumption|]. split; [assumption|]. split; [assumption|]. split; [exact H2|].
  split; [apply is_finished_spec; assumption|]. split; [apply Nat.eqb_eq; assumption|].
  match goal with H : Beqb _ _ = true |- _ => rename H into HB end.
  clear - HB. change (num FA) with b64 in *. remember (t (st v)) as x eqn:Ex. clear Ex.
  assert (FB : is_finite (b64_ofQ (17#10)) = true) by (vm_compute; reflexivity).
  assert (Fx : is_finite x = true).
  { destruct x as [sx|sx| |sx mx ex Hx]; try reflexivity; exfalso; revert HB; [destruct sx|]; vm_compute; discriminate. }
  apply (eqb_64 _ _ Fx FB) in HB.
  assert (P : 0 < B2R (b64_ofQ (17#10))).
  { assert (Z : is_finite (b64_ofQ (17#10)) = true /\ B2R (b64_ofQ (17#10)) = 7656119366529843 / 2 ^ 52) by by_sf.
    destruct Z as [_ ->]. apply Rdiv_lt_0_compat; [lra|apply pow_lt; lra]. }
  apply B2R_Bsign_inj; auto. rewrite !sign_pos; auto. rewrite HB. exact P.
Qed.
End Runs.

Theorem C44_overshoot_refuted pw lg : exists c s v,
  rk_init Me4_cls (opts64 pw lg (Bminus mode_NE (b64_ofQ (1#10)) (b64_ofQ (-3#10)))) (zero64 pw lg)
    (b64_ofQ (-3#10)) (one64 pw lg) (b64_ofQ (1#10)) = inl (c, s) /\
  ode_step 1 (Me4_meth 1) c (new_solver s) = StepOk v /\ stat v = Finished /\ Bltb (b64_ofQ (1#10)) (t (st v)) = true.
Proof. exact (overshoot pw lg). Qed.
Theorem C44_short_refuted pw lg : exists c s v v2,
  rk_init Me4_cls (opts64 pw lg (Bminus mode_NE (b64_ofQ (1#10)) (b64_ofQ (-5#1)))) (zero64 pw lg)
    (b64_ofQ (-5#1)) (one64 pw lg) (b64_ofQ (1#10)) = inl (c, s) /\
  ode_step 1 (Me4_meth 1) c (new_solver s) = StepOk v /\ stat v = Running /\ Bltb (t (st v)) (b64_ofQ (1#10)) = true /\
  ode_step 1 (Me4_meth 1) c v = StepOk v2 /\ stat v2 = Failed TOO_SMALL_STEP.
Proof. exact (fall_short pw lg). Qed.
