(** Specification of the step size controller of the explicit solvers, by the order q of the error
    estimate and the parameters (kb1, kb2, a, g) of the documentation. What the controller
    remembers of the past is one pair (step, error norm) of the last accepted step. *)
From Coq Require Import String ZArith QArith Bool List.
From Verif Require Import Arith Common RK RKInit SpecRK.
Import ListNotations.

Section Ctl.
Context {A : Arith}.
Notation num := (num A).
Notation vec := (list num).
Local Open Scope num_scope.

Record Law := { l_q : nat; l_kb1 : num; l_kb2 : num; l_a : num; l_g : num }.
(** - 1 / (q + 1) *)
Definition expo (L : Law) : num := - n1 / nofnat (S (l_q L)).
(** g e^(-1/(q+1)) *)
Definition law1 (L : Law) (e : num) : num := l_g L * npow A e (expo L).
(** g^(kb1+kb2) e^(-kb1/(q+1)) e0^(-kb2/(q+1)) (h/h0)^(-a) *)
Definition law2 (L : Law) (e e0 ratio : num) : num :=
  npow A (l_g L) (l_kb1 L + l_kb2 L) * (npow A e (l_kb1 L * expo L) * npow A e0 (l_kb2 L * expo L) * npow A ratio (- l_a L)).
(** new size after a refused trial: not below one fifth *)
Definition shrink (L : Law) (h e : num) : num := h * pymax (lit (1#5)) (law1 L e).

(** what is known before a step: the size to try, the last accepted (h, e) unless it is to be
    ignored, and the largest growth factor *)
Record Plan := { size : num; past : option (num * num); cap : num }.

(** the first trial of a step: the planned size between the limits, the last two steps made equal
    or the last step made to end at t_bound; the past is ignored if the size was limited or halved *)
Definition first_trial (p : Plan) (min_step max_step dist : num) : num * option (num * num) :=
  let limited := (size p <? min_step) || (size p >? max_step) in
  let h := if limited then pymin max_step (pymax min_step (size p)) else size p in
  let past := if limited then None else past p in
  if dist <? n2 * h then if dist >? h then (pymax (lit (1#2) * dist) min_step, None) else (dist, past)
  else (h, past).

(** from a trial of size h, refused trials with error norms es lead to a trial of size h' *)
Inductive refused (L : Law) (err : num -> num -> Prop) : num -> list num -> num -> Prop :=
| refused0 h : refused L err h [] h
| refusedS h e es h' : err h e -> refused L err (shrink L h e) es h' -> refused L err h (e :: es) h'.

(** the plan after a step of size h (signed: hs) accepted with error norm e, the past being pst *)
Definition replan (L : Law) (tiny : num) (cap0 : num) (pst : option (num * num)) (again : bool) (h hs e : num) : Plan :=
  let fac := if e <? tiny then cap0 else
             match pst with
             | None => law1 L e
             | Some (h0, e0) => pymin cap0 (pymax (lit (1#5)) (law2 L e e0 (hs / h0)))
             end in
  let fac := if again then pymin n1 fac else fac in
  {| size := h * fac; past := if e <? tiny then None else Some (hs, e); cap := if fac <? lit 4 then lit 4 else cap0 |}.

(** minimum step at time t with planned size h *)
Definition smallest (a b t h : num) : num := pymax (a * (nabs A t + h)) b.
(** error norm e of the (textbook) step of size h from (t, y), full estimate *)
Definition step_error (T : Tab A) (n : nat) (c : Cfg A) (t : num) (y : vec) (h e : num) : Prop :=
  exists ks t' y', textbook_rk T n (fn c) t y h ks t' y' /\ e = scaled_rms (rtol c) (atol c) y y' (tab_error T n (fn c) h ks t' y').
Definition step_error_n (T : TabN A) (n : nat) (c : Cfg A) (t : num) (y : vec) (h e : num) : Prop :=
  exists ks t' y', textbook_rkn T n (fn c) t y h ks t' y' /\ e = scaled_rms (rtol c) (atol c) y y' (tabn_error T n (fn c) h ks t' y').
(** error norm of the early estimate, made without the last stage *)
Definition early_error (m : Meth A) (T : Tab A) (n : nat) (c : Cfg A) (t : num) (y : vec) (h e : num) : Prop :=
  exists est ks k t' y', m_pre m = Some est /\ textbook_rk T n (fn c) t y h (ks ++ [k]) t' y' /\
    e = scaled_rms (rtol c) (atol c) y (fst (est y h ks)) (snd (est y h ks)).
(** a trial of size h is refused for its error norm e *)
Definition refusal (full early : num -> num -> Prop) (h e : num) : Prop :=
  (early h e /\ nltb A n1 e = true) \/ (full h e /\ nltb A e n1 = false /\ nisnan A e = false /\ nisinf A e = false).

(** a successful step from v to v': plans before and after. [full], [early]: the errors of trials from v *)
Definition planned_step (L : Law) (full early : num -> num -> Prop) (c : Cfg A) (p : Plan) (s s' : St A) (p' : Plan) : Prop :=
  exists h1 pst es h e,
    first_trial p (smallest (h_min_a c) (h_min_b c) (t s) (size p)) (max_step c) (nabs A (t_bound c - t s)) = (h1, pst) /\
    refused L (fun h e => refusal full early (h * direction c) e) h1 es h /\
    full (h * direction c) e /\ (e <? n1) = true /\ t s' = t s + h * direction c /\ nfs s' = (nfs s + length es)%nat /\
    p' = replan L (tiny_err c) (cap p) pst (match es with [] => false | _ => true end) h (h * direction c) e.
End Ctl.
Arguments Law : clear implicits.
Arguments Plan : clear implicits.
