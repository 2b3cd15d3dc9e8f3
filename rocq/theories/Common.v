(** Model of the stand-alone helpers of /repo/extensisq/common.py:
    validate_tol, calculate_scale, norm (lines 30-63). *)
From Coq Require Import String ZArith QArith Bool List.
From Verif Require Import Arith.
Import ListNotations.

Section Common.
Context {A : Arith}.
Notation num := (num A).
Notation vec := (list num).
Local Open Scope num_scope.

(** A user supplied [atol]: np.asarray of a scalar or of an array. *)
Inductive tol_arg := Scalar (a : num) | Array (a : vec).

Inductive exn := ValueError (msg : string) | TypeError (msg : string)
  | ZeroDivisionError | AttributeError (msg : string) | AssertionError
  | IndexError | RuntimeError (msg : string) | OverflowError (msg : string).

(** common.py 30-54 [validate_tol].  [rtol_is_float] models the
    [isinstance(rtol, float)] test.  The dtype dependent constants are those of
    the record. *)
Definition validate_tol (rtol_is_float : bool) (rtol : num) (atol : tol_arg) (y : vec)
  : (num * tol_arg) + exn :=
  let shape_ok := match atol with
                  | Scalar _ => true
                  | Array a => Nat.eqb (length a) (length y) end in
  if negb shape_ok then inr (ValueError "`atol` has wrong shape.") else
  let neg := match atol with
             | Scalar a => a <? n0
             | Array a => existsb (fun x => x <? n0) a end in
  if neg then inr (ValueError "`atol` must be positive.") else
  if negb rtol_is_float then inr (ValueError "`rtol` must be a float.") else
  if rtol <? n0 then inr (ValueError "`rtol` must be positive.") else
  let lb := nsqrt A (n_tiny A) in
  let atol' := match atol with
               | Scalar a => Scalar (npmax a lb)
               | Array a => Array (map (fun x => npmax x lb) a) end in
  let rtol' := npmin (npmax rtol (lit 10 * n_epsneg A)) (lit (1#10)) in
  inl (rtol', atol').

(** numpy broadcasting of [atol] against a vector of length n. *)
Definition bcast (atol : tol_arg) (n : nat) : vec :=
  match atol with Scalar a => repeat a n | Array a => a end.

(** common.py 57-61 [calculate_scale] (with _mean=False / True). *)
Definition calculate_scale (atol : tol_arg) (rtol : num) (y y_new : vec) : vec :=
  vadd (bcast atol (length y))
       (map (fun m => rtol * m) (map2 npmax (map (nabs A) y) (map (nabs A) y_new))).

Definition calculate_scale_mean (atol : tol_arg) (rtol : num) (y y_new : vec) : vec :=
  vadd (bcast atol (length y))
       (map (fun m => rtol * lit (1#2) * m) (vadd (map (nabs A) y) (map (nabs A) y_new))).

(** common.py 64-66 [norm]: (x @ x / x.size) ** 0.5, real dtype. *)
Definition norm (x : vec) : num := nsqrt A (ndot x x / nofnat (length x)).

End Common.
Arguments tol_arg : clear implicits.
