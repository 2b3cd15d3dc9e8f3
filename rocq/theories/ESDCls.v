(** The six implicit classes and their dense outputs: hosea.py, kennedy.py, kvaerno.py.
    Tables are in Tableaux.v; a pair (a, b) there stands for a + b sqrt 2.  The model's
    entries are the exact values, the code's are their roundings. *)
From Coq Require Import String ZArith QArith Bool List.
From Verif Require Import Arith Common Stiff RK HStart RKInit Tableaux Classes Dense Ode ESDIRK.
Import ListNotations.

Section Cls.
Context {A : Arith}.
Notation num := (num A).
Notation vec := (list num).
Notation mat := (list (list num)).
Local Open Scope num_scope.

Definition l2 (p : Q * Q) : num := lit (fst p) + lit (snd p) * nsqrt A (lit 2).
Definition lv2 : list (Q * Q) -> vec := map l2.
Definition lm2 : list (list (Q * Q)) -> mat := map lv2.

(* hosea.py 7-13, 184-198 *)
Definition TRBDF2_m : EMeth A :=
  {| em_stages := 3; em_order := 2; em_order2 := 3; em_kappa := l2 TRBDF2_kappa; em_d := l2 TRBDF2_d;
     em_A := lm2 TRBDF2_A; em_C := lv2 TRBDF2_C; em_B := lv2 TRBDF2_B; em_E := lv2 TRBDF2_E; em_Az := lm2 TRBDF2_Az;
     em_filter := true; em_sc := ScName "G" |}.
(* hosea.py 7-13, 329-342 *)
Definition TRX2_m : EMeth A :=
  {| em_stages := 3; em_order := 2; em_order2 := 3; em_kappa := lit TRX2_kappa; em_d := lit TRX2_d;
     em_A := lm TRX2_A; em_C := lv TRX2_C; em_B := lv TRX2_B; em_E := lv TRX2_E; em_Az := lm TRX2_Az;
     em_filter := true; em_sc := ScName "G" |}.
(* kennedy.py 10, 165-192 *)
Definition KC3I_m : EMeth A :=
  {| em_stages := KC3I_n_stages; em_order := KC3I_order; em_order2 := KC3I_order_secondary; em_kappa := l2 KC3I_kappa; em_d := l2 KC3I_d;
     em_A := lm2 KC3I_A; em_C := lv2 KC3I_C; em_B := lv2 KC3I_B; em_E := lv2 KC3I_E; em_Az := lm2 KC3I_Az;
     em_filter := false; em_sc := ScName "G" |}.
(* kennedy.py 371-405 *)
Definition KC4I_m : EMeth A :=
  {| em_stages := KC4I_n_stages; em_order := KC4I_order; em_order2 := KC4I_order_secondary; em_kappa := l2 KC4I_kappa; em_d := l2 KC4I_d;
     em_A := lm2 KC4I_A; em_C := lv2 KC4I_C; em_B := lv2 KC4I_B; em_E := lv2 KC4I_E; em_Az := lm2 KC4I_Az;
     em_filter := false; em_sc := ScName "G" |}.
(* kennedy.py 574-614 *)
Definition KC4Ia_m : EMeth A :=
  {| em_stages := KC4Ia_n_stages; em_order := KC4Ia_order; em_order2 := KC4Ia_order_secondary; em_kappa := lit KC4Ia_kappa; em_d := lit KC4Ia_d;
     em_A := lm KC4Ia_A; em_C := lv KC4Ia_C; em_B := lv KC4Ia_B; em_E := lv KC4Ia_E; em_Az := lm KC4Ia_Az;
     em_filter := false; em_sc := ScName "G" |}.
(* kvaerno.py 144-164 *)
Definition Kv3I_m : EMeth A :=
  {| em_stages := Kv3I_n_stages; em_order := Kv3I_order; em_order2 := Kv3I_order_secondary; em_kappa := lit Kv3I_kappa; em_d := lit Kv3I_d;
     em_A := lm Kv3I_A; em_C := lv Kv3I_C; em_B := lv Kv3I_B; em_E := lv Kv3I_E; em_Az := lm Kv3I_Az;
     em_filter := false; em_sc := ScName "G" |}.

Definition esd_all : list (EMeth A) := [TRBDF2_m; TRX2_m; KC3I_m; KC4I_m; KC4Ia_m; Kv3I_m].

(** kennedy.py 12-20: the interpolant argument, before ESDIRK.__init__ *)
Definition kc_interp (P0 P1 : mat) (arg : string) : mat + exn :=
  if String.eqb arg "C0" then inl P0 else if String.eqb arg "C1" then inl P1 else inr (ValueError "Unknown interpolant").

(** common.py 2226-2239 *)
Definition esd_dense_P (P : mat) (t_old : num) (s : ES A) : option (dense A) :=
  match e_yold s with
  | Some yo => Some (mk_horner t_old (e_t s) yo (KtP (length yo) (e_K s) P))
  | None => None
  end.
Definition esd_dense_cubic (t_old : num) (s : ES A) : option (dense A) :=
  match e_yold s, e_ypold s with
  | Some yo, Some fo => Some (mk_cubic t_old (e_t s) yo (e_y s) fo (e_yp s))
  | _, _ => None
  end.

(** hosea.py 15-44: the two pieces of scipy's CubicHermiteSpline through (T, Y, dY), as
    CubicDenseOutput values (scipy evaluates the same polynomial in another basis), in
    increasing order of time; the breakpoint belongs to the right piece *)
Record hs_dense := { hs_mid : num; hs_lo : dense A; hs_hi : dense A }.
Definition esd_dense_hs (m : EMeth A) (dir : num) (t_old : num) (s : ES A) : option hs_dense :=
  match e_yold s, e_hprev s, e_K s with
  | Some yo, Some h, [k0; k1; k2] =>
    let t_mid := t_old + nth 1 (em_C m) n0 * h in
    let y_mid := vadd yo (vscale h (lincomb (length yo) (nth 1 (em_A m) []) (e_K s))) in
    if dir >? n0
    then Some {| hs_mid := t_mid; hs_lo := mk_cubic t_old t_mid yo y_mid k0 k1; hs_hi := mk_cubic t_mid (e_t s) y_mid (e_y s) k1 k2 |}
    else Some {| hs_mid := t_mid; hs_lo := mk_cubic (e_t s) t_mid (e_y s) y_mid k2 k1; hs_hi := mk_cubic t_mid t_old y_mid yo k1 k0 |}
  | _, _, _ => None
  end.
Definition hs_call (d : hs_dense) (t : num) : vec :=
  if t <? hs_mid d then call (hs_lo d) t else call (hs_hi d) t.
End Cls.
Arguments hs_dense : clear implicits.
