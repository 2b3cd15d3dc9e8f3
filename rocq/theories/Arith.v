(** Numbers as the Python/numpy code sees them.

    The model of extensisq is written once, over an abstract record [Arith]
    of the operations the code performs on floats.  Nothing is assumed about
    these operations here: every theorem proved for an arbitrary [Arith] holds
    for real arithmetic and for IEEE floats alike.  Concrete instances:
    [RX] (file RX.v: extended reals), [F64] (file F64.v: IEEE binary64),
    [QX] (file QX.v: executable, rationals rounded to 53 bits). *)
From Coq Require Import List ZArith QArith Bool.
Import ListNotations.
Open Scope list_scope.

Record Arith := {
  num : Type;
  nofQ : Q -> num;                      (* decimal / integer literals *)
  nadd : num -> num -> num;
  nsub : num -> num -> num;
  nmul : num -> num -> num;
  ndiv : num -> num -> num;
  nopp : num -> num;
  nabs : num -> num;
  nsqrt : num -> num;
  npow : num -> num -> num;             (* Python ** with a float exponent *)
  nlog10 : num -> num;                  (* np.log10 *)
  ncopysign : num -> num -> num;        (* math.copysign *)
  nltb : num -> num -> bool;            (* < *)
  nleb : num -> num -> bool;            (* <= *)
  neqb : num -> num -> bool;            (* == *)
  nisnan : num -> bool;                 (* np.isnan *)
  nisinf : num -> bool;                 (* np.isinf *)
  n_inf : num;                          (* np.inf *)
  n_epsneg : num;                       (* np.finfo(float).epsneg *)
  n_eps : num;                          (* np.finfo(float).eps *)
  n_tiny : num;                         (* np.finfo(float).tiny *)
  n_max : num;                          (* np.finfo(float).max *)
  n_small : num                         (* np.nextafter(epsneg, 1.0) *)
}.

Declare Scope num_scope.
Delimit Scope num_scope with num.

Section Ops.
Context {A : Arith}.
Notation num := (num A).
Notation vec := (list num).

Definition lit (q : Q) : num := nofQ A q.
Definition n0 : num := lit 0.
Definition n1 : num := lit 1.
Definition n2 : num := lit 2.
Definition nofnat (k : nat) : num := lit (inject_Z (Z.of_nat k)).

(** Python's builtin [max(a, b)] / [min(a, b)] on two arguments: the second
    argument wins only if it compares strictly greater / smaller (so a nan in
    second position is ignored, a nan in first position is kept). *)
Definition pymax (a b : num) : num := if nltb A a b then b else a.
Definition pymin (a b : num) : num := if nltb A b a then b else a.

(** [np.maximum]/[np.minimum]: nan-propagating. *)
Definition npmax (a b : num) : num :=
  if nisnan A a then a else if nleb A b a then a else b.
Definition npmin (a b : num) : num :=
  if nisnan A a then a else if nleb A a b then a else b.

(** numpy vectors are lists; elementwise operations truncate to the shorter
    list (numpy would raise on a shape mismatch; all model uses have equal
    lengths). *)
Fixpoint map2 {X Y Z : Type} (g : X -> Y -> Z) (l : list X) (m : list Y) : list Z :=
  match l, m with
  | x :: l', y :: m' => g x y :: map2 g l' m'
  | _, _ => []
  end.

Definition vadd : vec -> vec -> vec := map2 (nadd A).
Definition vsub : vec -> vec -> vec := map2 (nsub A).
Definition vdiv : vec -> vec -> vec := map2 (ndiv A).
Definition vscale (c : num) : vec -> vec := map (nmul A c).

(** sum of a vector / dot product, left to right from 0 (numpy uses pairwise or
    BLAS summation; simplification). *)
Definition nsum (l : vec) : num := fold_left (nadd A) l n0.
Definition ndot (x y : vec) : num := nsum (map2 (nmul A) x y).

(** [K[:len ws].T @ ws] for a list of stage vectors [K] of dimension [n]. *)
Definition lincomb (n : nat) (ws : vec) (K : list vec) : vec :=
  fold_left (fun acc wk => vadd acc (vscale (fst wk) (snd wk)))
            (combine ws K) (repeat n0 n).

End Ops.

Notation "x '<?' y" := (nltb _ x y) (at level 70) : num_scope.
Notation "x '<=?' y" := (nleb _ x y) (at level 70) : num_scope.
Notation "x '=?' y" := (neqb _ x y) (at level 70) : num_scope.
Notation "x '>?' y" := (nltb _ y x) (at level 70, only parsing) : num_scope.
Notation "x '>=?' y" := (nleb _ y x) (at level 70, only parsing) : num_scope.
Notation "x + y" := (nadd _ x y) : num_scope.
Notation "x - y" := (nsub _ x y) : num_scope.
Notation "x * y" := (nmul _ x y) : num_scope.
Notation "x / y" := (ndiv _ x y) : num_scope.
Notation "- x" := (nopp _ x) : num_scope.
Notation "x ** y" := (npow _ x y) (at level 30, right associativity) : num_scope.
Arguments num : clear implicits.
