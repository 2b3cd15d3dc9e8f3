(** Negative results about the explicit stepping code: concrete runs of the model
    in the executable arithmetic QX (round-to-nearest 53 bit rationals), evaluated
    by the kernel, and lifted to statements where needed (the hang is for every
    number of trials). *)
From Coq Require Import String ZArith QArith Bool List Lia.
From Verif Require Import Arith Common Stiff RK RKGen RKHist RKMore HStart RKInit Tableaux Classes QX.
Import ListNotations.

Definition chk_init (k : Cls QX) (o : Opts QX) f t0 y0 tb (P : Cfg QX -> St QX -> bool) : bool :=
  match rk_init k o f t0 y0 tb with inl (c, s) => P c s | inr _ => false end.
Lemma chk_init_spec k o f t0 y0 tb P : chk_init k o f t0 y0 tb P = true ->
  exists c s, rk_init k o f t0 y0 tb = inl (c, s) /\ P c s = true.
Proof. unfold chk_init. destruct (rk_init _ _ _ _ _ _) as [[c s]|]; [eauto|discriminate]. Qed.

Definition chk_step n (m : Meth QX) c v (P : Solver QX -> bool) : bool :=
  match ode_step n m c v with StepOk v' => P v' | _ => false end.
Lemma chk_step_spec n m c v P : chk_step n m c v P = true -> exists v', ode_step n m c v = StepOk v' /\ P v' = true.
Proof. unfold chk_step. destruct (ode_step _ _ _ _) as [v'| |]; [eauto|discriminate|discriminate]. Qed.

Definition is_fin (x : status) : bool := match x with Finished => true | _ => false end.
Definition is_run (x : status) : bool := match x with Running => true | _ => false end.
Definition is_small (x : status) : bool := match x with Failed TOO_SMALL_STEP => true | _ => false end.
Lemma is_fin_spec x : is_fin x = true -> x = Finished. Proof. destruct x; [discriminate|reflexivity|discriminate]. Qed.
Lemma is_run_spec x : is_run x = true -> x = Running. Proof. destruct x; [reflexivity|discriminate|discriminate]. Qed.
Lemma is_small_spec x : is_small x = true -> x = Failed TOO_SMALL_STEP.
Proof. destruct x as [| |[]]; try discriminate; reflexivity. Qed.

Definition mkopts (mx : num QX) (atl : num QX) (fs : num QX) (sc : sc_arg QX) : Opts QX :=
  {| o_max_step := mx; o_rtol := QF (1#1000); o_rtol_is_float := true; o_atol := Scalar atl;
     o_first_step := Some fs; o_stiff := 0; o_sc := sc |}.

(** ** a controller tuple with safety 1 hangs step() *)
Definition spike : num QX -> list (num QX) -> list (num QX) :=
  fun t _ => [if q_eqb t (QF (rnd (1#3))) then QF 1 else QF 0].
Definition hang_opts := mkopts QPInf (QF (rnd (3#10))) (QF 1) (@ScTuple QX [QF 1; QF 0; QF 0; QF 1]).

Definition hang_check (c : Cfg QX) (s : St QX) : bool :=
  negb (Nat.eqb (length (y s)) 0 || neqb QX (t s) (t_bound c)) &&
  let '(h, ms, sc) := reassess_stepsize c s in
  match trial_step (Me4_meth 1) c (with_trial s sc (max_factor s) (jflstp s) (nfs s) (K s) (calls s)) h ms false, h with
  | Reject _ (QF q), QF q' => (Qnum q =? Qnum q')%Z && (Qden q =? Qden q')%positive
  | _, _ => false
  end.

Theorem hang : exists c s, rk_init Me4_cls hang_opts spike (QF 0) [QF 0] (QF 1) = inl (c, s) /\
  forall trials, ode_step trials (Me4_meth 1) c (new_solver s) = StepFuel.
Proof.
  destruct (chk_init_spec Me4_cls hang_opts spike (QF 0) [QF 0] (QF 1) hang_check) as (c & s & HI & HC).
  { vm_compute. reflexivity. }
  exists c, s. split; [exact HI|]. intros k. unfold hang_check in HC. apply andb_true_iff in HC. destruct HC as [HC1 HC].
  apply negb_true_iff in HC1. unfold ode_step. cbn [new_solver stat st]. rewrite HC1. unfold step_impl.
  destruct (reassess_stepsize c s) as [[h ms] sc].
  destruct (trial_step _ _ _ h ms false) as [| s' h'| |] eqn:ET; try discriminate HC.
  destruct h' as [q| | |]; try discriminate HC. destruct h as [q'| | |]; try discriminate HC.
  apply andb_true_iff in HC. destruct HC as [E1 E2]. apply Z.eqb_eq in E1. apply Pos.eqb_eq in E2.
  assert (E : q = q') by (destruct q, q'; simpl in *; congruence). subst q'.
  assert (HL : rk_loop k (Me4_meth 1) c (with_trial s sc (max_factor s) (jflstp s) (nfs s) (K s) (calls s)) (QF q) ms false = OutOfFuel)
    by (eapply loop_hangs; exact ET).
  cbn [st new_solver]. rewrite HL. reflexivity.
Qed.

(** ** growth: y' = -y, y0 = 1e-80, tolerances 1e-3/1e-6, first_step = max_step = 1 *)
Definition decay : num QX -> list (num QX) -> list (num QX) := fun _ y => map (nopp QX) y.
Definition y80 : list (num QX) := [QF (rnd (1 # 10 ^ 80))].
Definition leap_opts (mx : num QX) := mkopts mx (QF (rnd (1#1000000))) (QF 1) (@ScNone QX).

(** after one accepted step the proposed step is more than 10000 times max_factor times the step taken *)
Theorem growth_uncapped : exists c s v, rk_init Me4_cls (leap_opts (QF 1)) decay (QF 0) y80 (QF (5#2)) = inl (c, s) /\
  ode_step 1 (Me4_meth 1) c (new_solver s) = StepOk v /\ stat v = Running /\
  nltb QX (nmul QX (QF 10000) (nmul QX (max_factor s) (h_abs s))) (h_abs (st v)) = true.
Proof.
  destruct (chk_init_spec Me4_cls (leap_opts (QF 1)) decay (QF 0) y80 (QF (5#2))
    (fun c s => chk_step 1 (Me4_meth 1) c (new_solver s) (fun v => is_run (stat v) &&
       nltb QX (nmul QX (QF 10000) (nmul QX (max_factor s) (h_abs s))) (h_abs (st v))))) as (c & s & HI & HC).
  { vm_compute. reflexivity. }
  destruct (chk_step_spec _ _ _ _ _ HC) as (v & HS & HP). apply andb_true_iff in HP. destruct HP as [P1 P2].
  exists c, s, v. split; [exact HI|]. split; [exact HS|]. split; [apply is_run_spec; exact P1|exact P2].
Qed.

(** the next step() then jumps from t = 1 past t_bound = 2.5 to t > 90000 although max_step = 1 *)
Theorem leap : exists c s v v2, rk_init Me4_cls (leap_opts (QF 1)) decay (QF 0) y80 (QF (5#2)) = inl (c, s) /\
  ode_step 1 (Me4_meth 1) c (new_solver s) = StepOk v /\ ode_step 1 (Me4_meth 1) c v = StepOk v2 /\
  t (st v) = QF 1 /\ stat v2 = Finished /\ nltb QX (QF 90000) (t (st v2)) = true.
Proof.
  destruct (chk_init_spec Me4_cls (leap_opts (QF 1)) decay (QF 0) y80 (QF (5#2))
    (fun c s => chk_step 1 (Me4_meth 1) c (new_solver s) (fun v =>
       (match t (st v) with QF q => (Qnum q =? 1)%Z && (Qden q =? 1)%positive | _ => false end) &&
       chk_step 1 (Me4_meth 1) c v (fun v2 => is_fin (stat v2) && nltb QX (QF 90000) (t (st v2)))))) as (c & s & HI & HC).
  { vm_compute. reflexivity. }
  destruct (chk_step_spec _ _ _ _ _ HC) as (v & HS & HP). apply andb_true_iff in HP. destruct HP as [P1 P2].
  destruct (chk_step_spec _ _ _ _ _ P2) as (v2 & HS2 & P3). apply andb_true_iff in P3. destruct P3 as [P3 P4].
  exists c, s, v, v2. split; [exact HI|]. split; [exact HS|]. split; [exact HS2|].
  split; [|split; [apply is_fin_spec; exact P3|exact P4]].
  destruct (t (st v)) as [[n d]| | |]; try discriminate P1. apply andb_true_iff in P1. destruct P1 as [A B].
  apply Z.eqb_eq in A. apply Pos.eqb_eq in B. cbn in A, B. subst. reflexivity.
Qed.

(** with max_step = inf the same problem fails with "step size too small" at t = 1,
    although the last proposed step was larger than the whole interval *)
Theorem spurious_failure : exists c s v v2, rk_init Me4_cls (leap_opts QPInf) decay (QF 0) y80 (QF (5#2)) = inl (c, s) /\
  ode_step 1 (Me4_meth 1) c (new_solver s) = StepOk v /\ ode_step 1 (Me4_meth 1) c v = StepOk v2 /\
  stat v = Running /\ nltb QX (QF 10000) (h_abs (st v)) = true /\ stat v2 = Failed TOO_SMALL_STEP.
Proof.
  destruct (chk_init_spec Me4_cls (leap_opts QPInf) decay (QF 0) y80 (QF (5#2))
    (fun c s => chk_step 1 (Me4_meth 1) c (new_solver s) (fun v =>
       (is_run (stat v) && nltb QX (QF 10000) (h_abs (st v))) &&
       chk_step 1 (Me4_meth 1) c v (fun v2 => is_small (stat v2))))) as (c & s & HI & HC).
  { vm_compute. reflexivity. }
  destruct (chk_step_spec _ _ _ _ _ HC) as (v & HS & HP). apply andb_true_iff in HP. destruct HP as [P1 P2].
  apply andb_true_iff in P1. destruct P1 as [P0 P1].
  destruct (chk_step_spec _ _ _ _ _ P2) as (v2 & HS2 & P3).
  exists c, s, v, v2. split; [exact HI|]. split; [exact HS|]. split; [exact HS2|].
  split; [apply is_run_spec; exact P0|]. split; [exact P1|apply is_small_spec; exact P3].
Qed.

(** ** max_step below the minimum step: the step is longer than max_step and than the interval *)
Definition q160 (z : Z) : num QX := QF (rnd (Qmake z (10 ^ 161))).
Definition tiny_opts := mkopts (q160 10) (QF (rnd (1#1000000))) (q160 10) (@ScNone QX).
Theorem max_step_ignored : exists c s v, rk_init Me4_cls tiny_opts decay (QF 0) [QF 1] (q160 15) = inl (c, s) /\
  ode_step 1 (Me4_meth 1) c (new_solver s) = StepOk v /\ stat v = Finished /\
  nltb QX (nmul QX (QF 100000) (max_step c)) (t (st v)) = true /\
  nltb QX (nmul QX (QF 100000) (t_bound c)) (t (st v)) = true.
Proof.
  destruct (chk_init_spec Me4_cls tiny_opts decay (QF 0) [QF 1] (q160 15)
    (fun c s => chk_step 1 (Me4_meth 1) c (new_solver s) (fun v => is_fin (stat v) &&
       (nltb QX (nmul QX (QF 100000) (max_step c)) (t (st v)) && nltb QX (nmul QX (QF 100000) (t_bound c)) (t (st v)))))) as (c & s & HI & HC).
  { vm_compute. reflexivity. }
  destruct (chk_step_spec _ _ _ _ _ HC) as (v & HS & HP). apply andb_true_iff in HP. destruct HP as [P1 P2].
  apply andb_true_iff in P2. destruct P2 as [P2 P3].
  exists c, s, v. split; [exact HI|]. split; [exact HS|]. split; [apply is_fin_spec; exact P1|]. auto.
Qed.

(** ** nfev_stiff_detect = 3 is accepted by the constructor; the first step raises *)
Definition sd_opts : Opts QX :=
  {| o_max_step := (QPInf : num QX); o_rtol := QF (1#1000); o_rtol_is_float := true; o_atol := @Scalar QX (QF (rnd (1#1000000)));
     o_first_step := Some (QF (1#8)); o_stiff := 3; o_sc := ScNone |}.
Definition zd (r : step_res QX) : bool := match r with StepExn ZeroDivisionError => true | _ => false end.
Theorem zerodiv_example : exists c s, rk_init Me4_cls sd_opts decay (QF 0) [QF 1] (QF 1) = inl (c, s) /\
  ode_step 1 (Me4_meth 1) c (new_solver s) = StepExn ZeroDivisionError.
Proof.
  destruct (chk_init_spec Me4_cls sd_opts decay (QF 0) [QF 1] (QF 1)
    (fun c s => zd (ode_step 1 (Me4_meth 1) c (new_solver s)))) as (c & s & HI & HC).
  { vm_compute. reflexivity. }
  exists c, s. split; [exact HI|].
  destruct (ode_step _ _ _ _) as [|[]|]; try discriminate HC. reflexivity.
Qed.
