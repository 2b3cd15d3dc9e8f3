(** Model of h_start, /repo/extensisq/common.py 524-765 (real dtype). *)
From Coq Require Import String ZArith QArith Bool List.
From Verif Require Import Arith Common.
Import ListNotations.

Section HStart.
Context {A : Arith}.
Notation num := (num A).
Notation vec := (list num).
Local Open Scope num_scope.

(** Python [x or d] for a float x *)
Definition por (x d : num) : num := if x =? n0 then d else x.

(** np.where(v, v, d): replace the zero entries of v *)
Definition where_nz (v d : vec) : vec := map2 (fun x e => if x =? n0 then e else x) v d.

(** common.py 611-616: machine constants and increments *)
Definition hs_big : num := nsqrt A (n_max A).
Definition hs_relper : num := npow A (n_small A) (lit (375#1000)).

(** common.py 619-620: the time increment da *)
Definition hs_da (a dx : num) : num :=
  let m := pymax (pymin (hs_relper * nabs A a) (nabs A dx)) (lit 100 * n_small A * nabs A a) in
  por (ncopysign A m dx) (hs_relper * dx).

(** common.py 675-722: the Lipschitz estimate loop. k is the current iteration,
    [left] the number of iterations left (including this one). Returns dfdub,
    fbnd and the evaluation points. *)
Fixpoint hs_loop (left k : nat) (df : num -> vec -> vec) (a da dely : num)
         (y yprime sf spy yp : vec) (delf dfdub fbnd : num)
         (calls : list (num * vec)) : num * num * list (num * vec) :=
  match left with
  | O => (dfdub, fbnd, calls)
  | S left' =>
    let pv := vadd y (vscale (dely / delf) yp) in
    let two := Nat.eqb k 2 in
    let tx := if two then a + da else a in
    let yp1 := df tx pv in
    let pv1 := vsub yp1 (if two then sf else yprime) in
    let calls1 := (calls ++ [(tx, pv)])%list in
    let fbnd1 := pymax fbnd (norm yp1) in
    let delf1 := norm pv1 in
    if delf1 >=? hs_big * nabs A dely then (hs_big, fbnd1, calls1) else
    let dfdub1 := pymax dfdub (delf1 / nabs A dely) in
    if Nat.eqb left' 0 then (dfdub1, fbnd1, calls1) else
    let delf2 := por delf1 n1 in
    let dy := if two then where_nz y (map (fun _ => dely / hs_relper) y)
              else where_nz pv1 (map (fun _ => delf2) pv1) in
    let spy1 := where_nz spy yp1 in
    let yp2 := map2 (fun s d => if s =? n0 then d else ncopysign A d s) spy1 dy in
    hs_loop left' (S k) df a da dely y yprime sf spy1 yp2 (norm yp2) dfdub1 fbnd1 calls1
  end.

(** np.min of an array *)
Definition npmin_list (l : vec) : num :=
  match l with [] => n0 | x :: l' => fold_left npmin l' x end.

(** np.linalg.norm of a matrix: Frobenius norm (common.py 726) *)
Definition fro (J : list vec) : num := nsqrt A (nsum (map (fun r => ndot r r) J)).

(** common.py 735-739: the tolerance parameter *)
Definition hs_tolp (etol : vec) (morder : nat) : num :=
  let tolexp := map (nlog10 A) etol in
  let tolsum := nsum tolexp in
  let tolmin := pymin (npmin_list tolexp) hs_big in
  npow A (lit 10) (lit (1#2) * (tolsum / nofnat (length etol) + tolmin) / nofnat (S morder)).

(** common.py 741-765: step from the bounds *)
Definition hs_final (a b dx ydpb fbnd dfdub tolp : num) : num :=
  let absdx := nabs A dx in
  let h1 :=
    if (ydpb =? n0) && (fbnd =? n0) then
      if tolp <? n1 then absdx * tolp else absdx
    else if ydpb =? n0 then
      if tolp <? fbnd * absdx then tolp / fbnd else absdx
    else
      let srydpb := nsqrt A (lit (1#2) * ydpb) in
      if tolp <? srydpb * absdx then tolp / srydpb else absdx in
  let h2 := if dfdub =? n0 then h1 else pymin h1 (n1 / dfdub) in
  let h3 := pymax h2 (lit 100 * n_small A * nabs A a) in
  let h4 := por h3 (n_small A * nabs A b) in
  ncopysign A h4 dx.

(** common.py 524-765 [h_start] (returnT=False) *)
Definition h_start (df : num -> vec -> vec) (a b : num) (y yprime : vec) (morder : nat)
           (rtol : num) (atol : tol_arg A) (J : option (list vec)) (T : option vec)
  : num * list (num * vec) :=
  if Nat.eqb (length y) 0 then (n_inf A, []) else
  let neq := length y in
  let etol := vadd (bcast atol neq) (vscale rtol (map (nabs A) y)) in
  let dx := b - a in
  let da := hs_da a dx in
  let '(sf, calls0) := match T with
                       | None => (df (a + da) y, [(a + da, y)])
                       | Some T => (vadd yprime (vscale da T), []) end in
  let yp0 := vsub sf yprime in
  let delf0 := norm yp0 in
  let dfdxb := if delf0 <? hs_big * nabs A da then delf0 / nabs A da else hs_big in
  let fbnd0 := norm sf in
  let '(dfdub, fbnd, calls) :=
    match J with
    | Some J => (fro J, fbnd0, calls0)
    | None =>
      let dely := ncopysign A (por (hs_relper * norm y) hs_relper) dx in
      let delf := norm yprime in
      let fbnd := pymax fbnd0 delf in
      let '(spy, yp, delf1) :=
        if delf =? n0 then
          let ones := map (fun _ => n1) y in (map (fun _ => n0) y, ones, norm ones)
        else (yprime, yprime, delf) in
      let lk := Nat.min (neq + 1) 3 in
      hs_loop lk 1 df a da dely y yprime sf spy yp delf1 n0 fbnd calls0
    end in
  let ydpb := dfdxb + dfdub * fbnd in
  (hs_final a b dx ydpb fbnd dfdub (hs_tolp etol morder), calls).

(** h_start(..., returnT=True), common.py 632-633: numerical time derivative *)
Definition h_start_T (df : num -> vec -> vec) (a b : num) (y yprime : vec) : vec :=
  let da := hs_da a (b - a) in
  map (fun x => x / da) (vsub (df (a + da) y) yprime).

End HStart.
