(** Small specifications used in the statements about explicit Runge-Kutta
    solvers.  They mention only the arithmetic operations, the tableau, and the
    public attributes of the solver (t, y, f, status, evaluation log). *)
From Coq Require Import String ZArith Reals QArith Bool List.
From Verif Require Import Arith Common Stiff RK RX RKInit.
Import ListNotations.

Section Spec.
Context {A : Arith}.
Notation num := (num A).
Notation vec := (list num).
Local Open Scope num_scope.

(** w_0 k_0 + w_1 k_1 + ... *)
Fixpoint wsum (acc : vec) (w : vec) (k : list vec) : vec :=
  match w, k with
  | wi :: w', ki :: k' => wsum (vadd acc (vscale wi ki)) w' k'
  | _, _ => acc
  end.

(** The textbook explicit Runge-Kutta step of size h from (t, y) for y' = g(t,y):
    stages k_0 .. k_(s-1), new point (t', y'). *)
Definition textbook_rk (T : Tab A) (n : nat) (g : num -> vec -> vec)
           (t : num) (y : vec) (h : num) (ks : list vec) (t' : num) (y' : vec) : Prop :=
  length ks = r_stages T /\
  nth 0 ks [] = g t y /\
  (forall i, (1 <= i < r_stages T)%nat ->
     nth i ks [] = g (t + nth i (r_C T) n0 * h)
                     (vadd y (vscale h (wsum (repeat n0 n) (firstn i (nth i (r_A T) [])) (firstn i ks))))) /\
  t' = t + h /\
  y' = vadd y (vscale h (wsum (repeat n0 n) (r_B T) ks)).

(** The textbook Nystrom step for x'' = a(t, x, x'); y = x ++ x'. *)
Definition textbook_rkn (T : TabN A) (n : nat) (acc : num -> vec -> vec)
           (t : num) (y : vec) (h : num) (ks : list vec) (t' : num) (y' : vec) : Prop :=
  length ks = n_stages T /\
  nth 0 ks [] = acc t y /\
  (forall i, (1 <= i < n_stages T)%nat ->
     let x1 := vadd (vscale (h * h) (wsum (repeat n0 n) (firstn i (nth i (n_A T) [])) (firstn i ks)))
                    (vscale (nth i (n_C T) n0 * h) (skipn n y)) in
     let v1 := vscale h (wsum (repeat n0 n) (firstn i (nth i (n_Ap T) [])) (firstn i ks)) in
     nth i ks [] = acc (t + nth i (n_C T) n0 * h) (vadd y (x1 ++ v1))) /\
  t' = t + h /\
  y' = vadd y (vadd (vscale (h * h) (wsum (repeat n0 n) (n_B T) ks)) (vscale h (skipn n y))
               ++ vscale h (wsum (repeat n0 n) (n_Bp T) ks)).

(** scaled RMS norm of an error vector: the quantity the user's tolerances bound *)
Definition scaled_rms (rtol : num) (atol : tol_arg A) (yold ynew err : vec) : num :=
  let scale := vadd (match atol with Scalar a => repeat a (length yold) | Array a => a end)
                    (map (fun m => rtol * m) (map2 npmax (map (nabs A) yold) (map (nabs A) ynew))) in
  let e := map2 (ndiv A) err scale in
  nsqrt A (nsum (map2 (nmul A) e e) / nofnat (length e)).

End Spec.

(** real-number reading of a time *)
Definition time_is (x : num RX) (r : R) : Prop := x = Fin r.

(** t' lies strictly beyond t in the direction from t0 to tb, and not beyond tb *)
Definition advances (t0 tb t t' : R) : Prop :=
  (t0 < tb /\ t < t' <= tb)%R \/ (tb < t0 /\ tb <= t' < t)%R.

(** t lies in the closed interval between t0 and tb *)
Definition within (t0 tb t : R) : Prop :=
  (t0 <= t <= tb)%R \/ (tb <= t <= t0)%R.

(** the time-reversed right-hand side: y' = - f(-t, y) *)
Definition reversed (f : num RX -> list (num RX) -> list (num RX)) : num RX -> list (num RX) -> list (num RX) :=
  fun t y => map (nopp RX) (f (nopp RX t) y).

(** the explicit solver classes: RungeKutta subclasses with tableau T (BS5 and
    CFMR7osc add a pre-estimate), and the Nystrom classes *)
Inductive uses_tab {A : Arith} : Meth A -> Tab A -> nat -> Prop :=
| ut_rk T n stab : (1 <= r_stages T)%nat -> uses_tab (rk_meth T n stab) T n
| ut_bs5 T b e n stab : (2 <= r_stages T)%nat -> uses_tab (bs5_meth T b e n stab) T n
| ut_cfmr T n stab : (2 <= r_stages T)%nat -> uses_tab (cfmr_meth T n stab) T n.

Inductive uses_tabn {A : Arith} : Meth A -> TabN A -> nat -> Prop :=
| ut_rkn T n stab : (1 <= n_stages T)%nat -> uses_tabn (rkn_meth T n stab) T n.

Inductive explicit {A : Arith} : Meth A -> Prop :=
| ex_tab m T n : uses_tab m T n -> explicit m
| ex_tabn m T n : uses_tabn m T n -> explicit m.

(** the embedded error estimate of a step: h sum e_i k_i, the last k being the
    derivative at the new point when the method is FSAL *)
Definition tab_error {A : Arith} (T : Tab A) (n : nat) (g : num A -> list (num A) -> list (num A))
           (h : num A) (ks : list (list (num A))) (t' : num A) (y' : list (num A)) : list (num A) :=
  let fsal := negb (neqb A (nth (r_stages T) (r_E T) n0) n0) in
  vscale h (wsum (repeat n0 n) (r_E T) (if fsal then ks ++ [g t' y'] else ks)).

Definition tabn_error {A : Arith} (T : TabN A) (n : nat) (g : num A -> list (num A) -> list (num A))
           (h : num A) (ks : list (list (num A))) (t' : num A) (y' : list (num A)) : list (num A) :=
  let fsal := negb (neqb A (nth (n_stages T) (n_E T) n0) n0) || negb (neqb A (last (n_Ep T) n0) n0) in
  let k := if fsal then ks ++ [g t' y'] else ks in
  vscale (nmul A h h) (wsum (repeat n0 n) (n_E T) k) ++ vscale h (wsum (repeat n0 n) (n_Ep T) k).
