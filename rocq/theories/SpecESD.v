(** Specification of one step() of the implicit solvers: the stage equations, Newton's iteration for
    them, the error test and the step size controller. No solver flags: what a step remembers of the past
    is the pair (step, error norm) of the last accepted step, or nothing. *)
From Coq Require Import String ZArith QArith Bool List.
From Verif Require Import Arith Common RK RKInit ESDIRK SpecCtl.
Import ListNotations.
Close Scope string_scope.
Open Scope nat_scope.

Section Spec.
Context {A : Arith}.
Notation num := (num A).
Notation vec := (list num).
Notation mat := (list (list num)).
Local Open Scope num_scope.

(** ** Newton's iteration for one stage: M z = h f(ts, psi + d z) *)
Record Stage := { g_t : num; g_h : num; g_psi : vec; g_y : vec }.
Section Newton.
Variables (m : EMeth A) (c : ECfg A) (L : mat) (Sc : option mat) (g : Stage).
Definition arg (z : vec) : vec := vadd (g_psi g) (vscale (em_d m) z).
Definition value (z : vec) : vec := x_fun c (g_t g) (arg z).
Definition residual (z : vec) : vec := vsub (vscale (g_h g) (value z)) (mv (x_M c) z).
(** the correction of z: the solution of the linear system with the factorised matrix *)
Definition corrects (z dz : vec) : Prop := forallb nisfin (value z) = true /\ x_solve c L (mv Sc (residual z)) = Some dz.
(** its size relative to the tolerances *)
Definition gauge (z dz : vec) : num := norm (vdiv dz (calculate_scale (x_atol c) (x_rtol c) (g_y g) (arg z))).
(** contraction observed in the sizes ds of the corrections so far (the latest first): the largest ratio of
    successive sizes, ratios after a size of at most kappa not being used (but the first is) *)
Fixpoint rate_of (ds : list num) : num :=
  match ds with
  | [] => n_ninf
  | d :: ds' => match ds' with
                | [] => n_ninf
                | d0 :: _ => let r := rate_of ds' in if (r <? n0) || (d0 >? em_kappa m) then pymax r (d / d0) else r
                end
  end.
(** verdicts on a correction of size d after corrections of sizes ds: no contraction, or too slow for the allowed
    number of iterations; the error left after it below kappa; neither, so that the iteration goes on *)
Definition slow (ds : list num) (d : num) : bool :=
  let r := rate_of (d :: ds) in (r >=? n1) || (d * nipow r (NEWTON_MAXITER - length ds) >=? em_kappa m * (n1 - r)).
Definition fast (ds : list num) (d : num) : bool := let r := rate_of (d :: ds) in d * r <? em_kappa m * (n1 - r).
Definition goes_on (ds : list num) (d : num) : Prop := (d <=? x_tiny c) = false /\ (ds <> [] -> slow ds d = false /\ fast ds d = false).
(** after corrections with sizes ds the iteration is at z; it ends well at z', with rate r, after n corrections in all *)
Inductive converges : list num -> vec -> vec -> num -> nat -> Prop :=
| cv_linear z dz : x_linear c = true -> corrects z dz -> converges [] z (vadd z dz) n_ninf 1
| cv_tiny ds z dz : x_linear c = false -> (length ds < NEWTON_MAXITER)%nat -> corrects z dz -> (gauge z dz <=? x_tiny c) = true ->
    converges ds z (vadd z dz) (rate_of ds) (S (length ds))
| cv_fast ds z dz : x_linear c = false -> (0 < length ds < NEWTON_MAXITER)%nat -> corrects z dz -> (gauge z dz <=? x_tiny c) = false ->
    slow ds (gauge z dz) = false -> fast ds (gauge z dz) = true -> converges ds z (vadd z dz) (rate_of (gauge z dz :: ds)) (S (length ds))
| cv_more ds z dz z' r n : x_linear c = false -> corrects z dz -> goes_on ds (gauge z dz) ->
    converges (gauge z dz :: ds) (vadd z dz) z' r n -> converges ds z z' r n.
(** it is given up with rate r after n evaluations: f not finite, no contraction, contraction too slow for the
    allowed number of iterations, or all iterations used *)
Inductive diverges : list num -> vec -> num -> nat -> Prop :=
| dv_value ds z : (length ds < NEWTON_MAXITER)%nat -> forallb nisfin (value z) = false -> diverges ds z (rate_of ds) (S (length ds))
| dv_slow ds z dz : x_linear c = false -> (0 < length ds < NEWTON_MAXITER)%nat -> corrects z dz -> (gauge z dz <=? x_tiny c) = false ->
    slow ds (gauge z dz) = true -> diverges ds z (rate_of (gauge z dz :: ds)) (S (length ds))
| dv_more ds z dz r n : x_linear c = false -> corrects z dz -> goes_on ds (gauge z dz) ->
    diverges (gauge z dz :: ds) (vadd z dz) r n -> diverges ds z r n
| dv_end ds z : length ds = NEWTON_MAXITER -> diverges ds z (rate_of ds) NEWTON_MAXITER.
End Newton.

(** ** the stages of a trial of step h (signed) from (t, y) with slope yp *)
Section Stages.
Variables (m : EMeth A) (c : ECfg A) (L : mat) (Sc : option mat) (t h : num) (y yp : vec).
(** stage i, the slopes of the stages before it being K *)
Definition stage (i : nat) (K : list vec) : Stage :=
  {| g_t := t + nth i (em_C m) n0 * h; g_h := h;
     g_psi := vadd y (vscale h (lincomb (length y) (firstn i (nth i (em_A m) [])) K)); g_y := y |}.
Definition predicted (i : nat) (K : list vec) : vec := vscale h (lincomb (length y) (firstn i (nth i (em_Az m) [])) K).
(** slopes K of the first stages, the last of them solved with psi and z; largest rate and number of iterations *)
Inductive staged : list vec -> vec -> vec -> num -> nat -> Prop :=
| st_first : staged [yp] [] [] n_ninf 0
| st_next K psi z r n z' r' n' : staged K psi z r n -> (length K < em_stages m)%nat ->
    converges m c L Sc (stage (length K) K) [] (predicted (length K) K) z' r' n' ->
    staged (K ++ [map (fun a => a / h) z'])%list (g_psi (stage (length K) K)) z' (pymax r' r) (Nat.max n' n).
(** a stage that cannot be solved; the largest rate *)
Definition unstaged (rate : num) : Prop :=
  exists K psi z r n r' n', staged K psi z r n /\ (length K < em_stages m)%nat /\
    diverges m c L Sc (stage (length K) K) [] (predicted (length K) K) r' n' /\ rate = pymax r' r.
(** the new value and the norm of its estimated error *)
Definition new_value (psi z : vec) : vec := vadd psi (vscale (em_d m) z).
Definition error_norm (K : list vec) (y' : vec) (e : num) : Prop :=
  let err := vscale h (lincomb (length y) (em_E m) K) in
  exists err', (if em_filter m then exists x, x_solve c L (mv Sc err) = Some x /\ err' = mv (x_M c) x else err' = err) /\
    e = norm (vdiv err' (calculate_scale (x_atol c) (x_rtol c) y y')).
End Stages.

(** the matrix in use: that of Jacobian J and step hl, and it could be factorised *)
Definition in_use (m : EMeth A) (c : ECfg A) (J : mat) (hl : num) (L : mat) (Sc : option mat) : Prop :=
  let base := msub (mat_of (x_n c) (x_M c)) (hl * em_d m) J in
  x_luok c L = true /\
  match x_dae c with
  | None => Sc = None /\ L = base
  | Some (U, nAE) => Sc = Some (scale_AE U nAE (hl * em_d m)) /\ L = mmul (scale_AE U nAE (hl * em_d m)) base
  end.
(** it may be that of an earlier step hl, but not for linear problems nor with jac_each_step *)
Definition up_to_date (c : ECfg A) (h hl : num) : Prop :=
  (x_linear c = true -> hl = h \/ (h =? hl) = true) /\ (x_jac_each c = true -> hl = h).
(** the Jacobians of a step from s: the one kept from the steps before (with jac_each_step only in the first step, or
    if it is constant), or evaluated at the start of the step *)
Definition at_hand (c : ECfg A) (s : ES A) (J : mat) : Prop :=
  (J = w_J (e_w s) /\ (x_jac_each c = true -> x_linear c = true \/ e_hprev s = None)) \/
  exists jac k, x_jac c = Some jac /\ (length (w_jcalls (e_w s)) <= k)%nat /\ J = jac k (e_t s) (e_y s).
(** a trial of step h from s: all stages solved, new value y', error norm e *)
Definition tried (m : EMeth A) (c : ECfg A) (s : ES A) (h : num) (K : list vec) (y' : vec) (e : num) : Prop :=
  exists J hl L Sc psi z r n, at_hand c s J /\ in_use m c J hl L Sc /\ up_to_date c h hl /\
    staged m c L Sc (e_t s) h (e_y s) (e_yp s) K psi z r n /\ length K = em_stages m /\
    y' = new_value m psi z /\ error_norm m c L Sc h (e_y s) K y' e.
(** a trial given up by Newton's iteration *)
Definition untried (m : EMeth A) (c : ECfg A) (s : ES A) (h : num) (rate : num) : Prop :=
  exists J hl L Sc, at_hand c s J /\ in_use m c J hl L Sc /\ up_to_date c h hl /\ unstaged m c L Sc (e_t s) h (e_y s) (e_yp s) rate.

(** ** the controller *)
(** a trial: its size, the last accepted (step, error norm) unless it is to be ignored, the largest growth
    factor, whether a trial of this step was refused, and whether the Jacobian is that of the start of the step *)
Record Try := { a_size : num; a_past : option (num * num); a_cap : num; a_again : bool; a_fresh : bool }.
(** the first trial: the planned size between the limits; the step ends at t_bound if that is nearer or within 1% *)
Definition efirst (p : Plan A) (min_step max_step dist : num) (fresh : bool) : Try :=
  let limited := (size p <? min_step) || (size p >? max_step) in
  let h := if limited then pymin max_step (pymax min_step (size p)) else size p in
  {| a_size := if (nabs A (dist / h - n1) <? lit (1#100)) || (dist <? h) then dist else h;
     a_past := if limited then None else past p; a_cap := cap p; a_again := false; a_fresh := fresh |}.
(** refused for its error norm e: not below one fifth *)
Definition after_error (L : Law A) (a : Try) (e : num) : Try :=
  let fac := pymax (law1 L e) (lit (1#5)) in
  {| a_size := a_size a * fac; a_past := None; a_cap := if fac <? lit 4 then lit 4 else a_cap a; a_again := true; a_fresh := a_fresh a |}.
(** given up by Newton's iteration, the Jacobian being that of (t, y): factor 1/5 / rate between 1/5 and 1/2 *)
Definition after_newton (a : Try) (rate : num) : Try :=
  {| a_size := a_size a * pymax (lit (1#5)) (pymin (lit (1#5) / rate) (lit (1#2))); a_past := None; a_cap := a_cap a; a_again := true; a_fresh := a_fresh a |}.
(** given up with an older Jacobian: the same trial with a new one *)
Definition new_jacobian (a : Try) : Try :=
  {| a_size := a_size a; a_past := a_past a; a_cap := a_cap a; a_again := a_again a; a_fresh := true |}.
(** trials that were refused: ne for their errors, nn by Newton's iteration *)
Inductive retried (L : Law A) (err : num -> num -> Prop) (newton : num -> num -> Prop) : Try -> nat -> nat -> Try -> Prop :=
| rt_none a : retried L err newton a 0 0 a
| rt_error a e a' ne nn : err (a_size a) e -> (e <? n1) = false -> retried L err newton (after_error L a e) ne nn a' -> retried L err newton a (S ne) nn a'
| rt_newton a rate a' ne nn : a_fresh a = true -> newton (a_size a) rate -> retried L err newton (after_newton a rate) ne nn a' -> retried L err newton a ne (S nn) a'
| rt_jacobian a rate a' ne nn : a_fresh a = false -> newton (a_size a) rate -> retried L err newton (new_jacobian a) ne nn a' -> retried L err newton a ne (S nn) a'.
(** the plan after the trial a was accepted with error norm e and signed step hs *)
Definition ereplan (L : Law A) (tiny : num) (a : Try) (hs e : num) : Plan A :=
  let fac := if e <? tiny then a_cap a else
             match a_past a with
             | None => pymin (law1 L e) (a_cap a)
             | Some (h0, e0) => pymax (lit (1#5)) (pymin (law2 L e e0 (hs / h0)) (a_cap a))
             end in
  let fac := if a_again a then pymin n1 fac else fac in
  {| size := a_size a * fac;
     past := if a_again a || (e <? tiny) then None else
             match a_past a with None => if a_cap a =? lit 4 then Some (hs, e) else None | Some _ => Some (hs, e) end;
     cap := if fac <? lit 4 then lit 4 else a_cap a |}.

(** a successful step from s to s', planned by p; p' is the next plan *)
Definition eplanned (L : Law A) (m : EMeth A) (c : ECfg A) (p : Plan A) (s s' : ES A) (p' : Plan A) : Prop :=
  let dir := x_dir c in
  exists ne nn a h K y' e,
    retried L (fun h e => exists K y', tried m c s (h * dir) K y' e)
              (fun h r => untried m c s (h * dir) r)
      (efirst p (smallest (x_hmina c) (x_hminb c) (e_t s) (size p)) (x_max_step c) (nabs A (x_tb c - e_t s))
              (x_linear c || x_jac_each c || match e_hprev s with None => true | Some _ => false end)) ne nn a /\
    h = a_size a * dir /\ tried m c s h K y' e /\ (e <? n1) = true /\
    e_t s' = e_t s + h /\ e_y s' = y' /\ e_K s' = K /\ e_yp s' = last K [] /\ e_yold s' = Some (e_y s) /\
    w_nfs (e_w s') = (w_nfs (e_w s) + ne)%nat /\ w_nfi (e_w s') = (w_nfi (e_w s) + nn)%nat /\
    p' = ereplan L (x_tiny c) a h e.
End Spec.
Arguments Stage : clear implicits.
Arguments Try : clear implicits.
