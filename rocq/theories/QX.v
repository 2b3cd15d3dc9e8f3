(** An executable arithmetic: rational numbers rounded to 53 significant bits
    (nearest, ties to even; unbounded exponent), with inf and nan.  sqrt is
    correctly truncated at 53 bits; pow and log10 are fixed point approximations.
    It is used for worked examples (runs of the model by vm_compute), never to
    justify a general theorem. *)
From Coq Require Import ZArith QArith Qabs Bool List.
From Verif Require Import Arith.
Import ListNotations.
Open Scope Z_scope.

Inductive qx := QF (q : Q) | QPInf | QNInf | QNaN.

(** round n/d (d > 0) to 53 bits *)
Definition rnd (q : Q) : Q :=
  let n := Qnum q in let d := Zpos (Qden q) in
  if n =? 0 then 0%Q else
  let e := Z.log2 (Z.abs n) - Z.log2 d - 53 in     (* scale so that quotient has 53-54 bits *)
  let '(n1, d1) := if e <? 0 then (n * 2 ^ (- e), d) else (n, d * 2 ^ e) in
  let r := Z.div (2 * Z.abs n1 + d1) (2 * d1) in
  let r := if (Z.modulo (2 * Z.abs n1 + d1) (2 * d1) =? 0) && Z.odd r then r - 1 else r in
  let r := if n <? 0 then - r else r in
  Qred (if e <? 0 then Qmake r (Z.to_pos (2 ^ (- e))) else inject_Z (r * 2 ^ e)).

Definition qltb (a b : Q) : bool := negb (Qle_bool b a).

Definition q_add a b := match a, b with
  | QNaN, _ | _, QNaN => QNaN | QF x, QF y => QF (rnd (x + y))
  | QPInf, QNInf | QNInf, QPInf => QNaN | QPInf, _ | _, QPInf => QPInf | _, _ => QNInf end.
Definition q_opp a := match a with QF x => QF (Qred (- x)) | QPInf => QNInf | QNInf => QPInf | QNaN => QNaN end.
Definition q_sub a b := q_add a (q_opp b).
Definition q_sgn a : Z := match a with QF x => Z.sgn (Qnum x) | QPInf => 1 | QNInf => -1 | QNaN => 0 end.
Definition q_infs (s : Z) := if 0 <? s then QPInf else if s <? 0 then QNInf else QNaN.
Definition q_mul a b := match a, b with
  | QNaN, _ | _, QNaN => QNaN | QF x, QF y => QF (rnd (x * y)) | _, _ => q_infs (q_sgn a * q_sgn b) end.
Definition q_div a b := match a, b with
  | QNaN, _ | _, QNaN => QNaN
  | QF x, QF y => if Qeq_bool y 0 then q_infs (q_sgn a) else QF (rnd (x / y))
  | QF x, _ => QF 0
  | _, QF y => q_infs (q_sgn a * (if Qnum y <? 0 then -1 else 1))
  | _, _ => QNaN end.
Definition q_abs a := match a with QF x => QF (Qabs x) | QNInf => QPInf | x => x end.
Definition q_sqrt a := match a with
  | QF x => if Qnum x <? 0 then QNaN else
      let d := Zpos (Qden x) in
      (* sqrt (n/d) = sqrt(n*d)/d, scaled by 4^s *)
      let s := 60 + Z.max 0 (Z.log2 d) in
      QF (rnd (Qmake (Z.sqrt (Qnum x * d * 4 ^ s)) (Z.to_pos (d * 2 ^ s))))
  | QPInf => QPInf | _ => QNaN end.

(** fixed point with 120 fractional bits *)
Definition ONE := 2 ^ 120.
Definition fmul a b := Z.div (a * b) ONE.
Fixpoint exp_ser (n : nat) (k : Z) (term x acc : Z) : Z :=
  match n with O => acc | S n' => let t := Z.div (fmul term x) k in exp_ser n' (k + 1) t x (acc + t) end.
Fixpoint atanh_ser (n : nat) (k : Z) (p x2 acc : Z) : Z :=
  match n with O => acc | S n' => atanh_ser n' (k + 2) (fmul p x2) x2 (acc + Z.div p k) end.
Definition ln_m (m : Z) : Z :=                     (* m in [ONE, 2 ONE) *)
  let z := Z.div ((m - ONE) * ONE) (m + ONE) in 2 * atanh_ser 60 1 z (fmul z z) 0.
Definition LN2 := 2 * atanh_ser 90 1 (Z.div ONE 3) (Z.div ONE 9) 0.
Definition ln_q (x : Q) : Z :=
  let n := Qnum x in let d := Zpos (Qden x) in
  let k := Z.log2 n - Z.log2 d in
  let m := if k <? 0 then Z.div (n * 2 ^ (- k) * ONE) d else Z.div (n * ONE) (d * 2 ^ k) in
  (* m in (ONE/2, 2 ONE) *)
  let '(m, k) := if m <? ONE then (2 * m, k - 1) else (m, k) in
  ln_m m + k * LN2.
Definition exp_z (y : Z) : Q :=
  let k := Z.div y LN2 in
  let r := y - k * LN2 in
  let e := exp_ser 40 1 ONE r ONE in
  if 0 <=? k then Qmake (e * 2 ^ k) (Z.to_pos ONE) else Qmake e (Z.to_pos (ONE * 2 ^ (- k))).
Definition q_pow a b := match a, b with
  | _, QNaN => QNaN
  | _, QF e => if Qeq_bool e 0 then QF 1 else
      match a with
      | QF x => if 0 <? Qnum x then QF (rnd (exp_z (Z.div (ln_q x * Qnum e) (Zpos (Qden e)))))
                else if Qnum x =? 0 then (if 0 <? Qnum e then QF 0 else QPInf) else QNaN
      | QPInf => if 0 <? Qnum e then QPInf else QF 0
      | _ => QNaN end
  | _, _ => QNaN end.
Definition q_log10 a := match a with
  | QF x => if 0 <? Qnum x then QF (rnd (Qmake (ln_q x) 1 / Qmake (ln_q 10) 1)) else
            if Qnum x =? 0 then QNInf else QNaN
  | QPInf => QPInf | _ => QNaN end.
Definition q_copysign a b := if q_sgn b <? 0 then q_opp (q_abs a) else q_abs a.
Definition q_ltb a b := match a, b with
  | QNaN, _ | _, QNaN => false | QF x, QF y => qltb x y
  | QF _, QPInf | QNInf, QF _ | QNInf, QPInf => true | _, _ => false end.
Definition q_leb a b := match a, b with
  | QNaN, _ | _, QNaN => false | QF x, QF y => Qle_bool x y
  | QNInf, _ | _, QPInf => true | _, _ => false end.
Definition q_eqb a b := match a, b with
  | QF x, QF y => Qeq_bool x y | QPInf, QPInf | QNInf, QNInf => true | _, _ => false end.

Definition QX : Arith := {|
  num := qx; nofQ := fun q => QF (rnd q);
  nadd := q_add; nsub := q_sub; nmul := q_mul; ndiv := q_div; nopp := q_opp; nabs := q_abs;
  nsqrt := q_sqrt; npow := q_pow; nlog10 := q_log10; ncopysign := q_copysign;
  nltb := q_ltb; nleb := q_leb; neqb := q_eqb;
  nisnan := fun a => match a with QNaN => true | _ => false end;
  nisinf := fun a => match a with QPInf | QNInf => true | _ => false end;
  n_inf := QPInf;
  n_epsneg := QF (1 # 2 ^ 53); n_eps := QF (1 # 2 ^ 52); n_tiny := QF (1 # 2 ^ 1022);
  n_max := QF (inject_Z ((2 ^ 53 - 1) * 2 ^ 971));
  n_small := QF (rnd ((1 # 2 ^ 53) + (1 # 2 ^ 105)))
|}.

(** decimal rendering of a value, 12 significant digits times 10^-12 *)
Definition show (a : qx) : option Z := match a with QF x => Some (Z.div (Qnum x * 10 ^ 12) (Zpos (Qden x))) | _ => None end.
