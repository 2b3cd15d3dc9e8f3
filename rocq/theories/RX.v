(** Extended reals: exact arithmetic with Python/IEEE treatment of inf and nan.
    This instance of [Arith] has no rounding and no overflow; inf and nan enter
    through the user function, division by zero and undefined operations. *)
From Coq Require Import Reals Lra QArith Qreals Bool List Psatz.
From Verif Require Import Arith.
Import ListNotations.
Open Scope R_scope.

Inductive xr := Fin (r : R) | PInf | NInf | NaN.

Definition Rltb (a b : R) : bool := if Rlt_dec a b then true else false.
Definition Rleb (a b : R) : bool := if Rle_dec a b then true else false.
Definition Reqb (a b : R) : bool := if Req_EM_T a b then true else false.

Definition xadd (a b : xr) : xr :=
  match a, b with
  | NaN, _ | _, NaN => NaN
  | Fin x, Fin y => Fin (x + y)
  | PInf, NInf | NInf, PInf => NaN
  | PInf, _ | _, PInf => PInf
  | NInf, _ | _, NInf => NInf
  end.

Definition xopp (a : xr) : xr :=
  match a with Fin x => Fin (- x) | PInf => NInf | NInf => PInf | NaN => NaN end.

Definition xsub (a b : xr) : xr := xadd a (xopp b).

(** sign of a non-nan: -1, 0, 1 *)
Definition xsgn (a : xr) : R :=
  match a with
  | Fin x => if Rlt_dec x 0 then -1 else if Rlt_dec 0 x then 1 else 0
  | PInf => 1 | NInf => -1 | NaN => 0 end.

Definition inf_of_sign (s : R) : xr :=
  if Rlt_dec 0 s then PInf else if Rlt_dec s 0 then NInf else NaN.

Definition xmul (a b : xr) : xr :=
  match a, b with
  | NaN, _ | _, NaN => NaN
  | Fin x, Fin y => Fin (x * y)
  | _, _ => inf_of_sign (xsgn a * xsgn b)
  end.

(** division by (positive) zero: numpy semantics, no exception *)
Definition xdiv (a b : xr) : xr :=
  match a, b with
  | NaN, _ | _, NaN => NaN
  | Fin x, Fin y => if Req_EM_T y 0 then inf_of_sign (xsgn a) else Fin (x / y)
  | Fin x, _ => Fin 0
  | _, Fin y => inf_of_sign (xsgn a * (if Rlt_dec y 0 then -1 else 1))
  | _, _ => NaN
  end.

Definition xabs (a : xr) : xr :=
  match a with Fin x => Fin (Rabs x) | PInf => PInf | NInf => PInf | NaN => NaN end.

Definition xsqrt (a : xr) : xr :=
  match a with
  | Fin x => if Rlt_dec x 0 then NaN else Fin (sqrt x)
  | PInf => PInf | NInf => NaN | NaN => NaN end.

(** x ** y; a negative finite base gives nan (integer exponents of negative
    bases do not occur with this operation in the model) *)
Definition xpow (a b : xr) : xr :=
  match b with
  | Fin e =>
    if Req_EM_T e 0 then Fin 1 else
    match a with
    | Fin x => if Rlt_dec 0 x then Fin (Rpower x e)
               else if Req_EM_T x 0 then (if Rlt_dec 0 e then Fin 0 else PInf)
               else NaN
    | PInf => if Rlt_dec 0 e then PInf else Fin 0
    | NInf => NaN
    | NaN => NaN
    end
  | PInf => match a with
            | Fin x => if Rlt_dec 1 x then PInf else if Rlt_dec x 1
                       then (if Rlt_dec x 0 then NaN else Fin 0) else Fin 1
            | PInf => PInf | _ => NaN end
  | NInf => match a with
            | Fin x => if Rlt_dec 1 x then Fin 0 else if Rlt_dec x 1
                       then (if Rlt_dec x 0 then NaN else PInf) else Fin 1
            | PInf => Fin 0 | _ => NaN end
  | NaN => NaN
  end.

Definition xlog10 (a : xr) : xr :=
  match a with
  | Fin x => if Rlt_dec 0 x then Fin (ln x / ln 10)
             else if Req_EM_T x 0 then NInf else NaN
  | PInf => PInf | NInf => NaN | NaN => NaN end.

Definition xcopysign (a b : xr) : xr :=
  match b with
  | Fin y => if Rlt_dec y 0 then xopp (xabs a) else xabs a
  | NInf => xopp (xabs a)
  | _ => xabs a
  end.

Definition xltb (a b : xr) : bool :=
  match a, b with
  | NaN, _ | _, NaN => false
  | Fin x, Fin y => Rltb x y
  | Fin _, PInf => true
  | NInf, Fin _ => true
  | NInf, PInf => true
  | _, _ => false
  end.

Definition xleb (a b : xr) : bool :=
  match a, b with
  | NaN, _ | _, NaN => false
  | Fin x, Fin y => Rleb x y
  | NInf, _ => true
  | _, PInf => true
  | _, _ => false
  end.

Definition xeqb (a b : xr) : bool :=
  match a, b with
  | Fin x, Fin y => Reqb x y
  | PInf, PInf => true
  | NInf, NInf => true
  | _, _ => false
  end.

Definition xisnan (a : xr) : bool := match a with NaN => true | _ => false end.
Definition xisinf (a : xr) : bool := match a with PInf | NInf => true | _ => false end.

Definition pow2 (k : nat) : R := 2 ^ k.

Definition RX : Arith := {|
  num := xr;
  nofQ := fun q => Fin (Q2R q);
  nadd := xadd; nsub := xsub; nmul := xmul; ndiv := xdiv;
  nopp := xopp; nabs := xabs; nsqrt := xsqrt; npow := xpow; nlog10 := xlog10;
  ncopysign := xcopysign;
  nltb := xltb; nleb := xleb; neqb := xeqb; nisnan := xisnan; nisinf := xisinf;
  n_inf := PInf;
  n_epsneg := Fin (/ 2 ^ 53);
  n_eps := Fin (/ 2 ^ 52);
  n_tiny := Fin (/ 2 ^ 1022);
  n_max := Fin ((2 - / 2 ^ 52) * 2 ^ 1023);
  n_small := Fin (/ 2 ^ 53 + / 2 ^ 105)
|}.

Canonical Structure RX.

(** ** Basic lemmas *)

Lemma Rltb_true a b : Rltb a b = true <-> a < b.
Proof. unfold Rltb. destruct (Rlt_dec a b); split; intros; auto; try discriminate; contradiction. Qed.
Lemma Rltb_false a b : Rltb a b = false <-> b <= a.
Proof. unfold Rltb. destruct (Rlt_dec a b); split; intros; auto; try discriminate; lra. Qed.
Lemma Rleb_true a b : Rleb a b = true <-> a <= b.
Proof. unfold Rleb. destruct (Rle_dec a b); split; intros; auto; try discriminate; contradiction. Qed.
Lemma Rleb_false a b : Rleb a b = false <-> b < a.
Proof. unfold Rleb. destruct (Rle_dec a b); split; intros; auto; try discriminate; lra. Qed.
Lemma Reqb_true a b : Reqb a b = true <-> a = b.
Proof. unfold Reqb. destruct (Req_EM_T a b); split; intros; auto; try discriminate; contradiction. Qed.
Lemma Reqb_false a b : Reqb a b = false <-> a <> b.
Proof. unfold Reqb. destruct (Req_EM_T a b); split; intros; auto; try discriminate; contradiction. Qed.

Lemma Rltb_spec a b : Bool.reflect (a < b) (Rltb a b).
Proof. unfold Rltb. destruct (Rlt_dec a b); constructor; auto. Qed.
Lemma Rleb_spec a b : Bool.reflect (a <= b) (Rleb a b).
Proof. unfold Rleb. destruct (Rle_dec a b); constructor; auto. Qed.
Lemma Reqb_spec a b : Bool.reflect (a = b) (Reqb a b).
Proof. unfold Reqb. destruct (Req_EM_T a b); constructor; auto. Qed.

(** literals *)
Lemma lit_RX q : @lit RX q = Fin (Q2R q).
Proof. reflexivity. Qed.

(** finite values *)
Definition fin (x : xr) : Prop := exists r, x = Fin r.

Lemma pymin_fin a b : @pymin RX (Fin a) (Fin b) = Fin (Rmin a b).
Proof.
  unfold pymin. simpl. destruct (Rltb_spec b a).
  - rewrite Rmin_right; auto; lra.
  - rewrite Rmin_left; auto; lra.
Qed.
Lemma pymax_fin a b : @pymax RX (Fin a) (Fin b) = Fin (Rmax a b).
Proof.
  unfold pymax. simpl. destruct (Rltb_spec a b).
  - rewrite Rmax_right; auto; lra.
  - rewrite Rmax_left; auto; lra.
Qed.

Lemma Rpower_pos x e : 0 < Rpower x e.
Proof. unfold Rpower. apply exp_pos. Qed.

Lemma Rpower_ge1_neg x e : 1 <= x -> e <= 0 -> Rpower x e <= 1.
Proof.
  intros Hx He. unfold Rpower.
  rewrite <- exp_0. destruct (Req_dec (e * ln x) 0) as [->|Hne]; [lra|].
  left. apply exp_increasing.
  assert (0 <= ln x).
  { destruct (Req_dec x 1) as [->|]; [rewrite ln_1; lra|].
    left. rewrite <- ln_1. apply ln_increasing; lra. }
  assert (e * ln x <= 0) by nra. lra.
Qed.

Lemma Rpower_le1_neg x e : 0 < x -> x <= 1 -> e <= 0 -> 1 <= Rpower x e.
Proof.
  intros Hx Hx1 He. unfold Rpower.
  assert (ln x <= 0).
  { destruct (Req_dec x 1) as [->|]; [rewrite ln_1; lra|].
    left. rewrite <- ln_1. apply ln_increasing; lra. }
  rewrite <- exp_0.
  destruct (Req_dec (e * ln x) 0) as [->|Hne]; [lra|].
  left. apply exp_increasing. nra.
Qed.

Ltac q2r := unfold Q2R in *; cbn [Qnum Qden] in *.

(** non-negative, infinite or nan: the range of a norm *)
Definition nneg (x : xr) : Prop :=
  match x with Fin r => 0 <= r | NInf => False | _ => True end.

Lemma nneg_sqrt x : nneg (xsqrt x).
Proof. destruct x as [r| | |]; simpl; auto. destruct (Rlt_dec r 0); simpl; auto. apply sqrt_pos. Qed.

Lemma nneg_add x y : nneg x -> nneg y -> nneg (xadd x y).
Proof. destruct x, y; simpl; auto; try lra. Qed.

Lemma nneg_mul x y : nneg x -> nneg y -> nneg (xmul x y).
Proof.
  destruct x as [a| | |], y as [b| | |]; simpl; auto; intros; try nra;
  unfold inf_of_sign;
  repeat (destruct (Rlt_dec _ _); simpl; auto; try lra).
Qed.

Lemma nneg_abs x : nneg (xabs x).
Proof. destruct x; simpl; auto. apply Rabs_pos. Qed.

Lemma nneg_div x y : nneg x -> nneg y -> nneg (xdiv x y).
Proof.
  destruct x as [a| | |], y as [b| | |]; simpl; auto; intros; try lra; unfold inf_of_sign.
  - destruct (Req_EM_T b 0).
    + repeat (destruct (Rlt_dec _ _); simpl; auto; try lra).
    + simpl. apply Rmult_le_pos; auto. left. apply Rinv_0_lt_compat. lra.
  - repeat (destruct (Rlt_dec _ _); simpl; auto; try lra).
Qed.

Lemma nneg_pymax x y : nneg x -> nneg y -> nneg (@pymax RX x y).
Proof. intros. unfold pymax. destruct (nltb RX x y); auto. Qed.

Lemma nneg_pymin x y : nneg x -> nneg y -> nneg (@pymin RX x y).
Proof. intros. unfold pymin. destruct (nltb RX y x); auto. Qed.
