(** Model of /repo/extensisq/sensitivity.py.

    scipy's solve_ivp is a parameter of the model: an arbitrary function from the problem it is given
    to None (not sol.success) or the result.  2D arrays are lists of rows; the shapes are the ones the
    code asserts.  Not modelled: dtype tests, exceptions raised by the user functions themselves,
    the returned sol objects. *)
From Coq Require Import String ZArith QArith Bool List.
From Verif Require Import Arith Common.
Import ListNotations.
Close Scope string_scope.

Section Sens.
Context {A : Arith}.
Notation num := (num A).
Notation vec := (list num).
Notation mat := (list (list num)).
Local Open Scope num_scope.

(** ** array operations *)
(** v.reshape(n, m, order='F'): column j is v[j*n : (j+1)*n] *)
Definition reshapeF (n m : nat) (v : vec) : mat := map (fun i => map (fun j => nth (j * n + i) v n0) (seq 0 m)) (seq 0 n).
(** M.reshape(-1, order='F') of an n x m array *)
Definition flattenF (n m : nat) (M : mat) : vec := map (fun k => nth (k / n) (nth (k mod n) M []) n0) (seq 0 (n * m)).
Definition col (j : nat) (M : mat) : vec := map (fun r => nth j r n0) M.
(** X @ Y with m the number of columns of Y *)
Definition matmat (m : nat) (X Y : mat) : mat := map (fun r => map (fun j => ndot r (col j Y)) (seq 0 m)) X.
Definition matadd (X Y : mat) : mat := map2 vadd X Y.
(** X.T with m the number of columns of X *)
Definition transp (m : nat) (X : mat) : mat := map (fun j => col j X) (seq 0 m).
Definition matvec (X : mat) (v : vec) : vec := map (fun r => ndot r v) X.
(** v @ X *)
Definition vecmat (m : nat) (v : vec) (X : mat) : vec := map (fun j => ndot v (col j X)) (seq 0 m).
Definition vopp (v : vec) : vec := map (nopp A) v.
Definition shape2 (n m : nat) (M : mat) : bool := Nat.eqb (length M) n && forallb (fun r => Nat.eqb (length r) m) M.

(** a problem handed to solve_ivp: the keyword arguments that depend on the branch are kept in [i_jac] *)
Inductive ivp_jac := NoJac | Sparsity (P : list (list bool)) | Jac (J : num -> vec -> mat).
Record Ivp := { i_fun : num -> vec -> vec; i_ta : num; i_tb : num; i_y0 : vec; i_atol : vec; i_rtol : num; i_jac : ivp_jac }.

(** the user's functions: fun, jac, dfdp (and g, dgdp, dgdy) take (t, y, *p) *)
Record Model := { u_fun : num -> vec -> vec -> vec; u_jac : num -> vec -> vec -> mat; u_dfdp : num -> vec -> vec -> mat }.
Record Objective := { u_g : num -> vec -> vec -> vec; u_dgdp : num -> vec -> vec -> vec; u_dgdy : num -> vec -> vec -> vec }.

(** sensitivity.py 16-57 _test_functions: the shape of the value at (t0, y0); the returned function
    has p embedded *)
Definition test1 (n : nat) (f : num -> vec -> vec -> vec) (t0 : num) (y0 p : vec) : (num -> vec -> vec) + exn :=
  if Nat.eqb (length (f t0 y0 p)) n then inl (fun t y => f t y p) else inr (ValueError "the array returned should have shape").
Definition test2 (n m : nat) (f : num -> vec -> vec -> mat) (t0 : num) (y0 p : vec) : (num -> vec -> mat) + exn :=
  if shape2 n m (f t0 y0 p) then inl (fun t y => f t y p) else inr (ValueError "the array returned should have shape").

(** ** sens_forward *)
(** atol: a float, an ndarray, or another sequence (list, tuple) *)
Inductive atol_arg := AFloat (a : num) | ANdarray (a : vec) | ASeq (a : vec).
(** sensitivity.py 168-169: factor = abs(p_i); factor = factor or 1. *)
Definition p_factor (pi : num) : num := let f := nabs A pi in if f =? n0 then n1 else f.
(** sensitivity.py 161-170: total_atol; a list or tuple cannot be divided by a float *)
Definition total_atol (Ny : nat) (atol : atol_arg) (p : vec) : vec + exn :=
  match atol with
  | AFloat a => inl (repeat a Ny ++ concat (map (fun pi => repeat (a / p_factor pi) Ny) p))%list
  | ANdarray a => if Nat.eqb (length a) Ny then inl (a ++ concat (map (fun pi => map (fun x => x / p_factor pi) a) p))%list else inr AssertionError
  | ASeq a => if Nat.eqb (length a) Ny then
                match p with [] => inl a | _ => inr (TypeError "unsupported operand type(s) for /") end
              else inr AssertionError
  end.
(** sensitivity.py 173-178 total_fun *)
Definition total_fun (Ny Np : nat) (f : num -> vec -> vec) (dfdy dfdp : num -> vec -> mat) (t : num) (total_y : vec) : vec :=
  let y := firstn Ny total_y in
  let s := reshapeF Ny Np (skipn Ny total_y) in
  let dy := f t y in
  let ds := matadd (matmat Np (dfdy t y) s) (dfdp t y) in
  (dy ++ flattenF Ny Np ds)%list.
(** sensitivity.py 181-182: total_y0 *)
Definition total_y0 (Ny Np : nat) (y0 : vec) (dy0dp : mat) : vec := (y0 ++ flattenF Ny Np dy0dp)%list.
(** sensitivity.py 189-192 jac_sparsity (method BDF or Radau) *)
Definition jac_sparsity (Ny Np : nat) : list (list bool) :=
  let n := Nat.mul Ny (Nat.add Np 1) in
  map (fun r => map (fun c => Nat.ltb c Ny || existsb (fun i => Nat.leb ((i + 1) * Ny) r && Nat.ltb r ((i + 2) * Ny) && Nat.leb ((i + 1) * Ny) c && Nat.ltb c ((i + 2) * Ny)) (seq 0 Np)) (seq 0 n)) (seq 0 n).
(** sensitivity.py 200-205 total_jac (use_approx_jac): block_diag of Np + 1 copies of jac(t, y) *)
Definition block_diag (Ny k : nat) (J : mat) : mat :=
  map (fun r => map (fun c => if Nat.eqb (r / Ny) (c / Ny) then nth (c mod Ny) (nth (r mod Ny) J []) n0 else n0) (seq 0 (Ny * k))) (seq 0 (Ny * k)).
Definition total_jac (Ny Np : nat) (jac : num -> vec -> mat) (t : num) (y : vec) : mat := block_diag Ny (Np + 1) (jac t (firstn Ny y)).

(** sensitivity.py 185-210: the problem handed to solve_ivp.  [bdf]: method in ['BDF', 'Radau'] *)
Definition forward_pb (Ny Np : nat) (f : num -> vec -> vec) (jac dfdp : num -> vec -> mat) (t0 tf : num) (y0 : vec) (dy0dp : mat) (at_ : vec) (rtol : num) (bdf use_approx_jac : bool) : Ivp :=
  {| i_fun := total_fun Ny Np f jac dfdp; i_ta := t0; i_tb := tf; i_y0 := total_y0 Ny Np y0 dy0dp; i_atol := at_; i_rtol := rtol;
     i_jac := if use_approx_jac then Jac (total_jac Ny Np jac) else if bdf then Sparsity (jac_sparsity Ny Np) else NoJac |}.
Record Forward := { f_sens : mat; f_y : vec }.
(** sensitivity.py 60-217.  [solve] returns sol.y[:, -1] *)
Definition sens_forward (solve : Ivp -> option vec) (M : Model) (t0 tf : num) (y0 p : vec) (dy0dp : mat)
  (atol : atol_arg) (rtol : num) (t_eval : option vec) (bdf use_approx_jac : bool) : Forward + exn :=
  let Ny := length y0 in let Np := length p in
  if negb (shape2 Ny Np dy0dp) then inr AssertionError else
  if match t_eval with Some te => negb (last te n0 =? tf) | None => false end then inr AssertionError else
  match test1 Ny (u_fun M) t0 y0 p with inr e => inr e | inl f =>
  match test2 Ny Np (u_dfdp M) t0 y0 p with inr e => inr e | inl dfdp =>
  match test2 Ny Ny (u_jac M) t0 y0 p with inr e => inr e | inl jac =>
  match total_atol Ny atol p with inr e => inr e | inl at_ =>
  let pb := forward_pb Ny Np f jac dfdp t0 tf y0 dy0dp at_ rtol bdf use_approx_jac in
  match solve pb with
  | None => inr (RuntimeError "IVP solver not converged")
  | Some yl => inl {| f_sens := reshapeF Ny Np (skipn Ny yl); f_y := firstn Ny yl |}
  end end end end end.

(** ** the adjoint method *)
(** sensitivity.py 329-338, 496-505: the forward problem; [implicit]: method in ("LSODA", "BDF", "Radau") *)
Definition dense_pb (f : num -> vec -> vec) (jac : num -> vec -> mat) (t0 tf : num) (y0 atol : vec) (rtol : num) (implicit : bool) : Ivp :=
  {| i_fun := f; i_ta := t0; i_tb := tf; i_y0 := y0; i_atol := atol; i_rtol := rtol; i_jac := if implicit then Jac jac else NoJac |}.
(** the forward solve with dense_output=True: sol_y.sol, or the sol_y the caller provides
    (sensitivity.py 324-342, 491-509) *)
Definition forward_dense (dense : Ivp -> option (num -> vec)) (sol_y : option (num -> vec)) (implicit : bool)
  (f : num -> vec -> vec) (jac : num -> vec -> mat) (t0 tf : num) (y0 atol : vec) (rtol : num) : (num -> vec) + exn :=
  match sol_y with
  | Some s => inl s
  | None =>
    match dense (dense_pb f jac t0 tf y0 atol rtol implicit) with
    | Some s => inl s | None => inr (RuntimeError "IVP solver not converged in forward solve of y") end
  end.

(** sensitivity.py 347-354 fun_bw of sens_adjoint_end *)
Definition bw_end (Ny Np : nat) (y : num -> vec) (jac dfdp : num -> vec -> mat) (t : num) (total_y : vec) : vec :=
  let mu := firstn Ny total_y in
  (vopp (matvec (transp Ny (jac t (y t))) mu) ++ matvec (transp Np (dfdp t (y t))) mu)%list.
(** sensitivity.py 368-375, 539-546 jac_bw: rows [-J^T 0; dfdp^T 0] *)
Definition jac_bw (Ny extra : nat) (y : num -> vec) (jac dfdp : num -> vec -> mat) (Np : nat) (t : num) (_ : vec) : mat :=
  (map (fun r => vopp r ++ repeat n0 (Np + extra)) (transp Ny (jac t (y t))) ++ map (fun r => r ++ repeat n0 (Np + extra)) (transp Np (dfdp t (y t)))
   ++ repeat (repeat n0 (Ny + Np + extra)) extra)%list.

(** sensitivity.py 356-378: the backward problem *)
Definition adj_end_pb (Ny Np : nat) (y : num -> vec) (jac dfdp : num -> vec -> mat) (dgdy : num -> vec -> vec) (t0 tf rtol : num) (atol_adj atol_quad : vec) (implicit : bool) : Ivp :=
  {| i_fun := bw_end Ny Np y jac dfdp; i_ta := tf; i_tb := t0; i_y0 := (dgdy tf (y tf) ++ repeat n0 Np)%list; i_atol := (atol_adj ++ atol_quad)%list; i_rtol := rtol;
     i_jac := if implicit then Jac (jac_bw Ny 0 y jac dfdp Np) else NoJac |}.
Record AdjEnd := { ae_sens : vec; ae_g : vec }.
(** sensitivity.py 220-387 *)
Definition sens_adjoint_end (dense : Ivp -> option (num -> vec)) (solve : Ivp -> option vec) (M : Model) (O : Objective) (t0 tf : num) (y0 p : vec) (dy0dp : mat)
  (implicit : bool) (rtol : num) (atol : vec) (atol_adj atol_quad : vec) (sol_y : option (num -> vec)) : AdjEnd + exn :=
  let Ny := length y0 in let Np := length p in
  if negb (shape2 Ny Np dy0dp) then inr (ValueError "`dy0dp` should be a array of shape (ny, np)") else
  match test1 Ny (u_fun M) t0 y0 p with inr e => inr e | inl f =>
  match test2 Ny Np (u_dfdp M) t0 y0 p with inr e => inr e | inl dfdp =>
  match test2 Ny Ny (u_jac M) t0 y0 p with inr e => inr e | inl jac =>
  match test1 Ny (u_dgdy O) t0 y0 p with inr e => inr e | inl dgdy =>
  match test1 Np (u_dgdp O) t0 y0 p with inr e => inr e | inl dgdp =>
  match test1 1 (u_g O) t0 y0 p with inr e => inr e | inl g =>
  match forward_dense dense sol_y implicit f jac t0 tf y0 atol rtol with inr e => inr e | inl y =>
  let yf := y tf in
  let pb := adj_end_pb Ny Np y jac dfdp dgdy t0 tf rtol atol_adj atol_quad implicit in
  match solve pb with
  | None => inr (RuntimeError "IVP solver not converged in backward solve of lambda")
  | Some yl =>
    let mu0 := firstn Ny yl in
    let integral := vopp (skipn Ny yl) in
    inl {| ae_sens := vadd (vadd (dgdp tf yf) (vecmat Np mu0 dy0dp)) integral; ae_g := g tf yf |}
  end end end end end end end end.

(** sensitivity.py 514-525 fun_bw of sens_adjoint_int *)
Definition bw_int (Ny Np : nat) (y : num -> vec) (jac dfdp : num -> vec -> mat) (g dgdp dgdy : num -> vec -> vec) (t : num) (total_y : vec) : vec :=
  let lam := firstn Ny total_y in
  (vopp (vadd (matvec (transp Ny (jac t (y t))) lam) (dgdy t (y t))) ++ vadd (matvec (transp Np (dfdp t (y t))) lam) (dgdp t (y t)) ++ g t (y t))%list.
(** sensitivity.py 527-549: the backward problem *)
Definition adj_int_pb (Ny Np : nat) (y : num -> vec) (jac dfdp : num -> vec -> mat) (g dgdp dgdy : num -> vec -> vec) (t0 tf rtol : num) (atol_adj atol_quad : vec) (atol_G : num) (implicit : bool) : Ivp :=
  {| i_fun := bw_int Ny Np y jac dfdp g dgdp dgdy; i_ta := tf; i_tb := t0; i_y0 := repeat n0 (Ny + Np + 1); i_atol := (atol_adj ++ atol_quad ++ [atol_G])%list; i_rtol := rtol;
     i_jac := if implicit then Jac (jac_bw Ny 1 y jac dfdp Np) else NoJac |}.
Record AdjInt := { ai_sens : vec; ai_G : num }.
(** sensitivity.py 390-559 *)
Definition sens_adjoint_int (dense : Ivp -> option (num -> vec)) (solve : Ivp -> option vec) (M : Model) (O : Objective) (t0 tf : num) (y0 p : vec) (dy0dp : mat)
  (implicit : bool) (rtol : num) (atol : vec) (atol_adj atol_quad : vec) (atol_G : num) (sol_y : option (num -> vec)) : AdjInt + exn :=
  let Ny := length y0 in let Np := length p in
  if negb (shape2 Ny Np dy0dp) then inr (ValueError "`dy0dp` should be a array of shape (ny, np)") else
  match test1 Ny (u_fun M) t0 y0 p with inr e => inr e | inl f =>
  match test2 Ny Np (u_dfdp M) t0 y0 p with inr e => inr e | inl dfdp =>
  match test2 Ny Ny (u_jac M) t0 y0 p with inr e => inr e | inl jac =>
  match test1 Ny (u_dgdy O) t0 y0 p with inr e => inr e | inl dgdy =>
  match test1 Np (u_dgdp O) t0 y0 p with inr e => inr e | inl dgdp =>
  match test1 1 (u_g O) t0 y0 p with inr e => inr e | inl g =>
  match forward_dense dense sol_y implicit f jac t0 tf y0 atol rtol with inr e => inr e | inl y =>
  let pb := adj_int_pb Ny Np y jac dfdp g dgdp dgdy t0 tf rtol atol_adj atol_quad atol_G implicit in
  match solve pb with
  | None => inr (RuntimeError "IVP solver not converged in backward solve of lambda")
  | Some yl =>
    let lambda0 := firstn Ny yl in
    let integral := vopp (removelast (skipn Ny yl)) in
    inl {| ai_sens := vadd (vecmat Np lambda0 dy0dp) integral; ai_G := nopp A (last yl n0) |}
  end end end end end end end end.
End Sens.
Arguments Ivp : clear implicits. Arguments Model : clear implicits. Arguments Objective : clear implicits.
