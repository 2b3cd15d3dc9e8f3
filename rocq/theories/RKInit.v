(** Model of the constructors RungeKutta.__init__ (common.py 168-212) and
    RungeKuttaNystrom.__init__ (1242-1272) with their helpers
    _init_min_step_parameters (119-145), _init_stiffness_detection (147-162,
    1226-1240), _init_sc_control (164-186), and of scipy's validate_max_step,
    validate_first_step and OdeSolver.__init__ (direction). *)
From Coq Require Import String ZArith QArith Bool List.
From Verif Require Import Arith Common Stiff RK HStart.
Import ListNotations.

Section Init.
Context {A : Arith}.
Notation num := (num A).
Notation vec := (list num).
Local Open Scope num_scope.

Inductive sc_arg := ScNone | ScName (s : string) | ScTuple (l : vec).

(** truthiness of sc_params *)
Definition sc_truthy (a : sc_arg) : bool :=
  match a with
  | ScNone => false
  | ScName s => negb (String.eqb s "")
  | ScTuple l => negb (Nat.eqb (length l) 0)
  end.

Definition sc_or (a b : sc_arg) : sc_arg := if sc_truthy a then a else b.

(** common.py 164-178: (kb1, kb2, a, g) *)
Definition sc_coefs (a : sc_arg) : (num * num * num * num) + exn :=
  let bad := inr (ValueError "sc_params should be a tuple of length 4 or one of the strings") in
  match a with
  | ScName s =>
    if String.eqb s "G" then inl (lit (7#10), lit (-4#10), n0, lit (9#10)) else
    if String.eqb s "S" then inl (lit (6#10), lit (-2#10), n0, lit (9#10)) else
    if String.eqb s "standard" then inl (n1, n0, n0, lit (9#10)) else bad
  | ScTuple [kb1; kb2; al; g] => inl (kb1, kb2, al, g)
  | _ => bad
  end.

(** common.py 126-139: minimum difference between distinct C-values *)
Definition cdiff (C : vec) : num :=
  let d := fold_left (fun acc c1 =>
             fold_left (fun acc c2 =>
               let diff := nabs A (c1 - c2) in
               if diff =? n0 then acc else pymin acc diff) C acc) C n1 in
  if d <? lit (1#1000) then lit (1#1000) else d.

(** common.py 142-144 *)
Definition h_min_a0 (C : vec) : num := lit 10 * n_epsneg A / cdiff C.
Definition h_min_b0 : num := nsqrt A (n_tiny A).

(** scipy OdeSolver.__init__: direction = np.sign(t_bound - t0) if t_bound != t0 else 1 *)
Definition direction0 (t0 tb : num) : num :=
  if tb - t0 >? n0 then n1 else if tb - t0 <? n0 then lit (-1) else n1.

(** options of the constructor *)
Record Opts := {
  o_max_step : num;
  o_rtol : num; o_rtol_is_float : bool;
  o_atol : tol_arg A;
  o_first_step : option num;
  o_stiff : Z;                               (* nfev_stiff_detect *)
  o_sc : sc_arg
}.

(** data of the class *)
Record Cls := {
  k_order : nat; k_order2 : nat;
  k_C : vec;
  k_sc : sc_arg;                             (* class attribute sc_params *)
  k_stab : stab_params A
}.

Definition hasStab (s : stab_params A) : bool := match s with NoStab => false | _ => true end.

(** common.py 147-157 *)
Definition init_stiff (stab : stab_params A) (z : Z) : nat + exn :=
  if (z <? 0)%Z then inr (ValueError "`nfev_stiff_detect` must be a non-negative integer.")
  else inl (if hasStab stab then Z.to_nat z else 0%nat).

(** common.py 168-212: [RungeKutta.__init__]. [n0stages] rows of K are scratch and
    start empty in the model. *)
Definition rk_init (k : Cls) (o : Opts) (fun_ : num -> vec -> vec) (t0 : num) (y0 : vec) (tb : num)
  : (Cfg A * St A) + exn :=
  let dir := direction0 t0 tb in
  if o_max_step o <=? n0 then inr (ValueError "`max_step` must be positive.") else
  match validate_tol (o_rtol_is_float o) (o_rtol o) (o_atol o) y0 with
  | inr e => inr e
  | inl (rtol, atol) =>
    let f0 := fun_ t0 y0 in
    let calls0 := [(t0, y0)] in
    let ee := - n1 / nofnat (S (Nat.min (k_order2 k) (k_order k))) in
    match init_stiff (k_stab k) (o_stiff o) with
    | inr e => inr e
    | inl nsd =>
      match sc_coefs (sc_or (o_sc o) (k_sc k)) with
      | inr e => inr e
      | inl (kb1, kb2, al, g) =>
        let first :=
          match o_first_step o with
          | None =>
            let b := t0 + dir * pymin (nabs A (tb - t0)) (o_max_step o) in
            let '(h, cl) := h_start fun_ t0 b y0 f0 (k_order2 k) rtol atol None None in
            inl (nabs A h, cl)
          | Some h =>
            if h <=? n0 then inr (ValueError "`first_step` must be positive.") else
            if h >? nabs A (tb - t0) then inr (ValueError "`first_step` exceeds bounds.")
            else inl (h, [])
          end in
        match first with
        | inr e => inr e
        | inl (h, cl) =>
          inl ({| fn := fun_; fn1 := fun_; t_bound := tb; direction := dir; rtol := rtol;
                  atol := atol; max_step := o_max_step o; h_min_a := h_min_a0 (k_C k);
                  h_min_b := h_min_b0; tiny_err := h_min_b0; safety := g;
                  safety_sc := npow A g (kb1 + kb2); minbeta1 := kb1 * ee;
                  minbeta2 := kb2 * ee; minalpha := - al; error_exponent := ee;
                  min_factor := MIN_FACTOR; nfev_stiff_detect := nsd |},
               {| t := t0; y := y0; f := f0; h_abs := h; max_factor := MAX_FACTOR0;
                  standard_sc := true; h_previous := None; y_old := None; f_old := None;
                  error_norm_old := None; K := []; jflstp := 0; okstp := 0; havg := n0;
                  nfs := 0; calls := (calls0 ++ cl)%list; ucalls := []; notes := [] |})
        end
      end
    end
  end.

Definition veqb (a b : vec) : bool :=
  Nat.eqb (length a) (length b) && forallb (fun p => fst p =? snd p) (combine a b).

(** y_test of common.py 1256-1258: velocities perturbed *)
Definition perturb (n : nat) (y : vec) : vec :=
  (firstn n y ++ map (fun v => v * (n1 + lit (1#100000000)) + lit (1#100000000)) (skipn n y))%list.

(** common.py 1242-1272 [RungeKuttaNystrom.__init__]. [vel_indep]: Ap is
    NotImplemented.  super().__init__ runs first (with the default
    nfev_stiff_detect=5000), then the checks, then fun is restricted to the
    accelerations. *)
Definition rkn_init (k : Cls) (vel_indep : bool) (o : Opts) (fun_ : num -> vec -> vec)
           (t0 : num) (y0 : vec) (tb : num) : (Cfg A * St A) + exn :=
  let o' := {| o_max_step := o_max_step o; o_rtol := o_rtol o;
               o_rtol_is_float := o_rtol_is_float o; o_atol := o_atol o;
               o_first_step := o_first_step o; o_stiff := 5000; o_sc := o_sc o |} in
  match rk_init k o' fun_ t0 y0 tb with
  | inr e => inr e
  | inl (c, s) =>
    match init_stiff (k_stab k) (o_stiff o) with
    | inr e => inr e
    | inl nsd =>
      let n := Nat.div (length y0) 2 in
      let bad1 := negb (Nat.even (length y0)) || negb (veqb (skipn n y0) (firstn n (f s))) in
      let amb := veqb (skipn n y0) (firstn n y0) in
      let yt := perturb n y0 in
      let bad2 := amb && negb (veqb (firstn n (fun_ t0 yt)) (skipn n yt)) in
      if bad1 || bad2 then inr AssertionError else
      let bad3 := vel_indep && negb (veqb (skipn n (fun_ t0 yt)) (skipn n (f s))) in
      if bad3 then inr AssertionError else
      let acc := fun t y => skipn n (fun_ t y) in
      inl ({| fn := acc; fn1 := fun_; t_bound := t_bound c; direction := direction c;
              rtol := rtol c; atol := atol c; max_step := max_step c;
              h_min_a := h_min_a c; h_min_b := h_min_b c; tiny_err := tiny_err c;
              safety := safety c; safety_sc := safety_sc c; minbeta1 := minbeta1 c;
              minbeta2 := minbeta2 c; minalpha := minalpha c;
              error_exponent := error_exponent c; min_factor := min_factor c;
              nfev_stiff_detect := nsd |},
           {| t := t s; y := y s; f := skipn n (f s); h_abs := h_abs s;
              max_factor := max_factor s; standard_sc := standard_sc s;
              h_previous := None; y_old := None; f_old := None; error_norm_old := None;
              K := []; jflstp := 0; okstp := 0; havg := n0; nfs := 0; calls := calls s;
              ucalls := (if amb then [(t0, yt)] else []) ++
                        (if vel_indep then [(t0, yt)] else []);
              notes := [] |})
    end
  end.

(** scipy's solver object right after construction *)
Definition new_solver (s : St A) : Solver A := {| st := s; stat := Running; t_old := None |}.

End Init.
Arguments sc_arg : clear implicits.
Arguments Opts : clear implicits.
Arguments Cls : clear implicits.
