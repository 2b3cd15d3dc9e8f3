(** The mass matrix and the start of a DAE: common.py 1778-1821 [_handle_M], 1823-1920
    [_consistent_ICs] and 1922-2006 [__init__] of class ESDIRK.

    np.linalg.svd, np.linalg.matrix_rank, np.linalg.solve and scipy.optimize.root are oracles
    (record [Lin]).  Simplifications: dense storage only; the Jacobian evaluations inside root
    and at the corrected y0, which the code does not count, are all taken as evaluation number 1
    of the Jacobian oracle; warnings are dropped; M of more than two dimensions is not
    expressible. *)
From Coq Require Import String ZArith QArith Bool List.
From Verif Require Import Arith Common Stiff RK HStart RKInit Tableaux Classes Dense Ode ESDIRK.
Import ListNotations.

Section DAE.
Context {A : Arith}.
Notation num := (num A).
Notation vec := (list num).
Notation mat := (list (list num)).
Local Open Scope num_scope.

(** the argument M: None, one- or two-dimensional *)
Inductive mass_arg := MassNone | Mass1 (v : vec) | Mass2 (X : mat).

Record Lin := {
  l_svd : mat -> mat * vec * mat;                             (* np.linalg.svd: U, s, Vh *)
  l_rank : mat -> nat;                                        (* np.linalg.matrix_rank *)
  l_solve : mat -> vec -> option vec;                         (* np.linalg.solve, None: LinAlgError *)
  l_root : (vec -> vec) -> (vec -> mat) -> vec -> option vec  (* scipy.optimize.root, None: no success *)
}.

(** np.diag of a vector *)
Definition diag (v : vec) : mat :=
  let n := length v in
  map (fun i => map (fun j => if Nat.eqb i j then nth i v n0 else n0) (seq 0 n)) (seq 0 n).

(** common.py 1778-1821 [_handle_M]: the matrix (None: the identity), and for a DAE U, s, Vh, nAE *)
Definition handle_M (L : Lin) (n : nat) (M : mass_arg) : (option mat * option (mat * vec * mat * nat)) + exn :=
  let bad := inr (ValueError "M should have shape (n,) or (n, n)") in
  let analyse X :=
    let '(U, s, Vh) := l_svd L X in
    let cond_lim := nth 0 s n0 * nofnat (n * n) * n_eps A in
    let nAE := length (filter (fun x => x <? cond_lim) s) in
    inl (Some X, if Nat.ltb 0 nAE then Some (U, s, Vh, nAE) else None) in
  match M with
  | MassNone => inl (None, None)
  | Mass1 v => if Nat.eqb (length v) n then analyse (diag v) else bad
  | Mass2 X => if Nat.eqb (length X) n && forallb (fun r => Nat.eqb (length r) n) X then analyse X else bad
  end.

(** np.allclose(x, 0.) with the default rtol and atol *)
Definition close0 (x : num) : bool := nabs A (x - n0) <=? lit (1 # 100000000) + lit (1 # 100000) * nabs A n0.

(** np.linalg.solve with a matrix on the right: column by column *)
Fixpoint all_some {X} (l : list (option X)) : option (list X) :=
  match l with
  | [] => Some []
  | None :: _ => None
  | Some x :: l' => match all_some l' with Some r => Some (x :: r) | None => None end
  end.
Definition msolve (L : Lin) (G B : mat) : option mat :=
  match all_some (map (fun j => l_solve L G (mcol j B)) (seq 0 (length (hd [] B)))) with
  | Some cols => Some (mtr cols)
  | None => None
  end.

(** U.T @ X @ Vh.T *)
Definition conj_mat (U X Vh : mat) : mat := mmul (mmul (mtr U) X) (mtr Vh).

(** what _consistent_ICs returns: y, ydot, J and the arguments u, udot, Jr, Tr for h_start *)
Record ICs := { i_y : vec; i_yp : vec; i_J : mat; i_u : vec; i_udot : vec; i_Jr : mat; i_Tr : vec }.

(** common.py 1844-1889, the index check and a consistent y0: y, f, J, u *)
Definition consistent_y (L : Lin) (fun_ : num -> vec -> vec) (jac : vec -> mat) (U Vh : mat) (nAE : nat)
           (t0 : num) (y0 f0 : vec) (J0 : mat) : (vec * vec * mat * vec) + exn :=
  let nu := (length y0 - nAE)%nat in
  let Gvv := map (skipn nu) (skipn nu (conj_mat U J0 Vh)) in
  if negb (Nat.eqb (l_rank L Gvv) nAE) then
    inr (ValueError "The index of the DAE seems to be larger than 1. This method is not suitable for solving it.")
  else
  let u := firstn nu (mv (Some Vh) y0) in
  if forallb close0 (skipn nu (mv (Some (mtr U)) f0)) then inl (y0, f0, J0, u)
  else
    let v0 := skipn nu (mv (Some Vh) y0) in
    let yC := fun v : vec => mv (Some (mtr Vh)) (u ++ v)%list in
    let funC := fun v => skipn nu (mv (Some (mtr U)) (fun_ t0 (yC v))) in
    let jacC := fun v => map (skipn nu) (skipn nu (conj_mat U (jac (yC v)) Vh)) in
    match l_root L funC jacC v0 with
    | None => inr (ValueError "Cannot find consistent initial conditions. Try to give a better y0")
    | Some v => inl (yC v, fun_ t0 (yC v), jac (yC v), u)
    end.

(** common.py 1891-1920, consistent derivatives and the reduced problem; the products with
    np.diag(1/s) are written componentwise *)
Definition consistent_yp (L : Lin) (U : mat) (s : vec) (Vh : mat) (nAE : nat)
           (y f : vec) (J : mat) (u fdot : vec) : ICs + exn :=
  let nu := (length y - nAE)%nat in
  let gdot := mv (Some (mtr U)) fdot in
  let gudot := firstn nu gdot in let gvdot := skipn nu gdot in
  let gu := firstn nu (mv (Some (mtr U)) f) in
  let G := conj_mat U J Vh in
  let Guu := map (firstn nu) (firstn nu G) in let Guv := map (skipn nu) (firstn nu G) in
  let Gvv := map (skipn nu) (skipn nu G) in let Gvu := map (firstn nu) (skipn nu G) in
  let su := firstn nu s in
  let udot := vdiv gu su in
  match l_solve L Gvv (vadd gvdot (mv (Some Gvu) udot)), msolve L Gvv Gvu with
  | Some x, Some Z =>
    let vdot := map (nopp A) x in
    let ydot := mv (Some (mtr Vh)) (udot ++ vdot)%list in
    let S := mmul Guv Z in
    let Tr := map2 (nmul A) (map (ndiv A n1) su) (vadd gudot (mv (Some Guv) vdot)) in
    let Jr := map2 (fun si r => map (nmul A si) r) (map (ndiv A n1) su) (map2 (map2 (nadd A)) Guu S) in
    inl {| i_y := y; i_yp := ydot; i_J := J; i_u := u; i_udot := udot; i_Jr := Jr; i_Tr := Tr |}
  | _, _ => inr (ValueError "Singular matrix")
  end.

(** h_start as called at common.py 1989-1991: J and T are given, y = u.  numpy broadcasts
    atol + rtol |u|: an array atol of another length than u is an error unless u has one
    component, and then neq = 1 although etol is longer (630-640, 735-739). *)
Definition hs_JT (a b : num) (u udot : vec) (morder : nat) (rtol : num) (atol : tol_arg A) (J : mat) (T : vec)
  : num + exn :=
  let bad := inr (ValueError "operands could not be broadcast together") in
  let plain := inl (fst (h_start (fun _ _ => []) a b u udot morder rtol atol (Some J) (Some T))) in
  match atol with
  | Scalar _ => plain
  | Array l =>
    if Nat.eqb (length l) (length u) then plain else
    match u with
    | [u0] =>
      let etol := map (fun x => x + rtol * nabs A u0) l in
      let tolexp := map (nlog10 A) etol in
      let tolp := npow A (lit 10) (lit (1#2) * (nsum tolexp / n1 + pymin (npmin_list tolexp) hs_big) / nofnat (S morder)) in
      let dx := b - a in
      let da := hs_da a dx in
      let sf := vadd udot (vscale da T) in
      let delf := norm (vsub sf udot) in
      let dfdxb := if delf <? hs_big * nabs A da then delf / nabs A da else hs_big in
      let dfdub := fro J in
      inl (hs_final a b dx (dfdxb + dfdub * norm sf) (norm sf) dfdub tolp)
    | _ => bad
    end
  end.

(** common.py 1922-2006 [__init__]: the checks that come first, _handle_M, then an ODE or a DAE *)
Definition no_first (o : EOpts A) : EOpts A :=
  {| p_max_step := p_max_step o; p_rtol := p_rtol o; p_rtol_is_float := p_rtol_is_float o;
     p_atol := p_atol o; p_first_step := None; p_sc := p_sc o; p_jac_each := p_jac_each o |}.
Definition esd_make (m : EMeth A) (o : EOpts A) (L : Lin) (luok : mat -> bool) (solve : mat -> vec -> option vec)
           (fun_ : num -> vec -> vec) (jac : jac_arg A) (M : mass_arg) (t0 : num) (y0 : vec) (tb : num)
  : (ECfg A * ES A) + exn :=
  match esd_init m (no_first o) (fun _ => true) (fun _ _ => Some []) fun_ jac None t0 y0 tb with
  | inr e => inr e
  | inl (c, s) =>
    match handle_M L (length y0) M with
    | inr e => inr e
    | inl (X, None) => esd_init m o luok solve fun_ jac X t0 y0 tb
    | inl (X, Some (U, sv, Vh, nAE)) =>
      let J0 := w_J (e_w s) in
      let j := fun y => match jac with JacConst J => J | JacFun j => j 1%nat t0 y end in
      let b := t0 + x_dir c * pymin (nabs A (tb - t0)) (p_max_step o) in
      match consistent_y L fun_ j U Vh nAE t0 y0 (x_f0 c) J0 with
      | inr e => inr e
      | inl (y, f, J, u) =>
        match consistent_yp L U sv Vh nAE y f J u (h_start_T fun_ t0 b y f) with
        | inr e => inr e
        | inl r =>
          let order := Nat.min (em_order2 m) (em_order m) in
          let h1 := match p_first_step o with
                    | Some h => inl h
                    | None => hs_JT t0 b (i_u r) (i_udot r) order (x_rtol c) (x_atol c) (i_Jr r) (i_Tr r)
                    end in
          match h1 with
          | inr e => inr e
          | inl h => esd_init_dae m o luok solve fun_ jac (mat_of (length y0) X) U nAE t0 y0 tb (i_y r, i_yp r, i_J r, h)
          end
        end
      end
    end
  end.
End DAE.
Arguments Lin : clear implicits. Arguments mass_arg : clear implicits. Arguments ICs : clear implicits.
