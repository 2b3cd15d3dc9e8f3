(** Model of the implicit methods: class ESDIRK, common.py 1617-2254, and the classes
    TRBDF2, TRX2 (hosea.py), KC3I, KC4I, KC4Ia (kennedy.py), Kv3I (kvaerno.py).

    Linear algebra: a matrix is a list of rows.  scipy's factorisation object is
    represented by the matrix that was factorised; [x_luok] says whether lu
    accepts the matrix and [x_solve] what solve_lu returns for that
    factorisation (None: an exception).  Both are arbitrary functions.
    The Jacobian is an oracle: [x_jac] gets the number of its earlier
    evaluations, so the history-dependent finite difference approximation
    (num_jac with jac_factor) is an instance.
    The mass matrix argument (_handle_M, 1778-1821) and _consistent_ICs (1823-1920), whose
    results are inputs of [esd_init_dae], are modelled in DAE.v.  Not modelled: sparse storage. *)
From Coq Require Import String ZArith QArith Bool List.
From Verif Require Import Arith Common Stiff RK HStart RKInit Tableaux Classes Dense Ode.
Import ListNotations.

Section ESD.
Context {A : Arith}.
Notation num := (num A).
Notation vec := (list num).
Notation mat := (list (list num)).
Local Open Scope num_scope.

(** common.py 22-24 *)
Definition NEWTON_MAXITER : nat := 5.
Definition MAX_RATE : num := lit (1#5).
Definition MAX_FACTOR_NRF : num := lit (1#2).

Definition n_ninf : num := - n_inf A.
Definition nisfin (x : num) : bool := negb (nisnan A x || nisinf A x).

(** float ** int as repeated multiplication (pow of the C library rounds once) *)
Fixpoint nipow (x : num) (k : nat) : num := match k with O => n1 | S k' => x * nipow x k' end.

(** M @ v; None stands for eye_array(n) *)
Definition mv (M : option mat) (v : vec) : vec :=
  match M with None => v | Some rows => map (fun r => ndot r v) rows end.
Definition eye (n : nat) : mat :=
  map (fun i => map (fun j => if Nat.eqb i j then n1 else n0) (seq 0 n)) (seq 0 n).
Definition mat_of (n : nat) (M : option mat) : mat := match M with None => eye n | Some m => m end.
(** M - c * J *)
Definition msub (M : mat) (c : num) (J : mat) : mat := map2 (map2 (fun a b => a - c * b)) M J.
(** matrix product and transpose, for Sc = U @ diag(sc) @ U.T and Sc @ (M - h d J) *)
Definition mcol (j : nat) (M : mat) : vec := map (fun r => nth j r n0) M.
Definition mmul (X Y : mat) : mat :=
  map (fun r => map (fun j => ndot r (mcol j Y)) (seq 0 (length (hd [] Y)))) X.
Definition mtr (X : mat) : mat := map (fun j => mcol j X) (seq 0 (length (hd [] X))).
(** common.py 2036-2041: sc = ones(n); sc[-nAE:] = 1/(h d); U diag(sc) U.T *)
Definition scale_AE (U : mat) (nAE : nat) (hd : num) : mat :=
  let n := length U in
  let sc := (repeat n1 (n - nAE) ++ repeat (n1 / hd) nAE)%list in
  mmul (map (fun r => map2 (nmul A) r sc) U) (mtr U).

(** the class attributes *)
Record EMeth := {
  em_stages : nat; em_order : nat; em_order2 : nat;
  em_kappa : num; em_d : num;
  em_A : mat; em_C : vec; em_B : vec; em_E : vec; em_Az : mat;
  em_filter : bool;
  em_sc : sc_arg A
}.

(** what __init__ fixes for the life of the solver *)
Record ECfg := {
  x_fun : num -> vec -> vec;
  x_jac : option (nat -> num -> vec -> mat);       (* None: constant matrix given, linear *)
  x_jac_each : bool;
  x_n : nat;
  x_M : option mat;                                (* None: identity *)
  x_dae : option (mat * nat);                      (* isDAE: U of the SVD, nAE *)
  x_luok : mat -> bool;
  x_solve : mat -> vec -> option vec;
  x_tb : num; x_dir : num; x_rtol : num; x_atol : tol_arg A; x_max_step : num;
  x_hmina : num; x_hminb : num; x_tiny : num;
  x_safety : num; x_safety_sc : num; x_minbeta1 : num; x_minbeta2 : num; x_minalpha : num;
  x_ee : num;
  x_minf : num;
  x_f0 : vec                                       (* self.f: assigned in __init__ only *)
}.
Definition x_linear (c : ECfg) : bool := match x_jac c with None => true | _ => false end.

(** attributes that change while a step is tried.  [w_LU] and [w_Sc] are the local
    variables LU and Sc of _step_impl during the loop (stored back on acceptance;
    after a failed step they are not read any more). *)
Record EWk := mkW {
  w_J : mat; w_curJ : bool;
  w_LU : option mat; w_hLU : option num; w_Sc : option mat;
  w_rate : num; w_niter : nat;
  w_std : bool; w_maxf : num;
  w_nfs : nat; w_nfi : nat; w_nls : nat; w_nlu : nat;
  w_calls : list (num * vec);                      (* calls of self.fun *)
  w_jcalls : list (num * vec)                      (* calls of self.jac *)
}.
Definition w_call (w : EWk) (p : num * vec) : EWk :=
  mkW (w_J w) (w_curJ w) (w_LU w) (w_hLU w) (w_Sc w) (w_rate w) (w_niter w) (w_std w) (w_maxf w)
      (w_nfs w) (w_nfi w) (w_nls w) (w_nlu w) (w_calls w ++ [p])%list (w_jcalls w).
Definition w_solved (w : EWk) : EWk :=
  mkW (w_J w) (w_curJ w) (w_LU w) (w_hLU w) (w_Sc w) (w_rate w) (w_niter w) (w_std w) (w_maxf w)
      (w_nfs w) (w_nfi w) (S (w_nls w)) (w_nlu w) (w_calls w) (w_jcalls w).
Definition w_rates (w : EWk) (r : num) (ni : nat) : EWk :=
  mkW (w_J w) (w_curJ w) (w_LU w) (w_hLU w) (w_Sc w) r ni (w_std w) (w_maxf w)
      (w_nfs w) (w_nfi w) (w_nls w) (w_nlu w) (w_calls w) (w_jcalls w).
Definition w_factored (w : EWk) (L : mat) (h : num) (Sc : option mat) : EWk :=
  mkW (w_J w) (w_curJ w) (Some L) (Some h) Sc (w_rate w) (w_niter w) (w_std w) (w_maxf w)
      (w_nfs w) (w_nfi w) (w_nls w) (S (w_nlu w)) (w_calls w) (w_jcalls w).
(** self.J = self.jac(t, y); self.current_J = cur; LU = None *)
Definition w_newJ (w : EWk) (J : mat) (cur : bool) (p : num * vec) : EWk :=
  mkW J cur None (w_hLU w) (w_Sc w) (w_rate w) (w_niter w) (w_std w) (w_maxf w)
      (w_nfs w) (w_nfi w) (w_nls w) (w_nlu w) (w_calls w) (w_jcalls w ++ [p])%list.
Definition w_dropLU (w : EWk) : EWk :=
  mkW (w_J w) (w_curJ w) None (w_hLU w) (w_Sc w) (w_rate w) (w_niter w) (w_std w) (w_maxf w)
      (w_nfs w) (w_nfi w) (w_nls w) (w_nlu w) (w_calls w) (w_jcalls w).
Definition w_nfi_up (w : EWk) : EWk :=
  mkW (w_J w) (w_curJ w) (w_LU w) (w_hLU w) (w_Sc w) (w_rate w) (w_niter w) (w_std w) (w_maxf w)
      (w_nfs w) (S (w_nfi w)) (w_nls w) (w_nlu w) (w_calls w) (w_jcalls w).
Definition w_control (w : EWk) (std : bool) (mf : num) (nf : nat) : EWk :=
  mkW (w_J w) (w_curJ w) (w_LU w) (w_hLU w) (w_Sc w) (w_rate w) (w_niter w) std mf
      nf (w_nfi w) (w_nls w) (w_nlu w) (w_calls w) (w_jcalls w).
Definition w_cur (w : EWk) (b : bool) : EWk :=
  mkW (w_J w) b (w_LU w) (w_hLU w) (w_Sc w) (w_rate w) (w_niter w) (w_std w) (w_maxf w)
      (w_nfs w) (w_nfi w) (w_nls w) (w_nlu w) (w_calls w) (w_jcalls w).

Record ES := mkES {
  e_t : num; e_y : vec; e_yp : vec; e_habs : num;
  e_hprev : option num; e_yold : option vec; e_ypold : option vec; e_errold : option num;
  e_K : list vec;
  e_w : EWk
}.

Definition lin_error : exn := ValueError "array must not contain infs or NaNs".

(** common.py 2169-2224 [_solve_implicit_stage]; the for loop, [left] iterations to go *)
Inductive newton_res :=
| NwConv (z : vec) (rate : num) (niter : nat)
| NwDiv (rate : num) (niter : nat)
| NwRaise (e : exn).

Fixpoint newton (m : EMeth) (c : ECfg) (ts h : num) (psi y : vec) (L : mat)
         (left k : nat) (w : EWk) (z : vec) (dzold rate : num) : newton_res * EWk :=
  match left with
  | O => (NwDiv rate k, w)
  | S left' =>
    let y_predict := vadd psi (vscale (em_d m) z) in
    let fv := x_fun c ts y_predict in
    let w1 := w_call w (ts, y_predict) in
    if negb (forallb nisfin fv) then (NwDiv rate (S k), w1) else
    let z_residual := vsub (vscale h fv) (mv (x_M c) z) in
    match x_solve c L (mv (w_Sc w) z_residual) with
    | None => (NwRaise lin_error, w1)
    | Some dz =>
      let w2 := w_solved w1 in
      let z' := vadd z dz in
      let dzn := norm (vdiv dz (calculate_scale (x_atol c) (x_rtol c) y y_predict)) in
      if x_linear c then
        if w_curJ w && (match w_hLU w with Some hl => h =? hl | None => false end)
        then (NwConv z' rate 1, w2) else (NwRaise AssertionError, w2)
      else if dzn <=? x_tiny c then (NwConv z' rate (S k), w2)
      else match k with
      | O => newton m c ts h psi y L left' 1 w2 z' dzn rate
      | S _ =>
        let r := if (rate <? n0) || (dzold >? em_kappa m) then pymax rate (dzn / dzold) else rate in
        if (r >=? n1) || (dzn * nipow r (NEWTON_MAXITER - k) >=? em_kappa m * (n1 - r))
        then (NwDiv r (S k), w2)
        else if dzn * r <? em_kappa m * (n1 - r) then (NwConv z' r (S k), w2)
        else newton m c ts h psi y L left' (S k) w2 z' dzn r
      end
    end
  end.

(** common.py 2043-2060: the stages s = 1 .. n_stages-1 *)
Inductive stages_res :=
| SgOk (K : list vec) (psi z : vec)
| SgDiv
| SgRaise (e : exn).

Fixpoint estages (m : EMeth) (c : ECfg) (t h : num) (y : vec) (L : mat)
         (left s : nat) (w : EWk) (K : list vec) (psi z : vec) : stages_res * EWk :=
  match left with
  | O => (SgOk K psi z, w)
  | S left' =>
    let ts := t + nth s (em_C m) n0 * h in
    let psi' := vadd y (vscale h (lincomb (length y) (firstn s (nth s (em_A m) [])) K)) in
    let zp := vscale h (lincomb (length y) (firstn s (nth s (em_Az m) [])) K) in
    match newton m c ts h psi' y L NEWTON_MAXITER 0 w zp n0 n_ninf with
    | (NwConv z' r ni, w1) =>
      estages m c t h y L left' (S s) (w_rates w1 (pymax r (w_rate w1)) (Nat.max ni (w_niter w1)))
              (K ++ [map (fun a => a / h) z'])%list psi' z'
    | (NwDiv r ni, w1) => (SgDiv, w_rates w1 (pymax r (w_rate w1)) (Nat.max ni (w_niter w1)))
    | (NwRaise e, w1) => (SgRaise e, w1)
    end
  end.

(** common.py 2123-2162 [_assess_error_and_stepsize]: accepted, factor and the new
    standard_sc, max_factor, NFS *)
Definition eassess (c : ECfg) (s : ES) (w : EWk) (en ha : num) (rejected : bool)
  : (bool * num * EWk) + exn :=
  let close acc factor std nf :=
    let mf := if factor <? MAX_FACTOR then MAX_FACTOR else w_maxf w in
    inl (acc, ha * factor, w_control w std mf nf) in
  if en <? n1 then
    let fin factor std :=
      if rejected then close true (pymin n1 factor) true (w_nfs w) else close true factor std (w_nfs w) in
    if en <? x_tiny c then fin (w_maxf w) true
    else if w_std w then
      fin (pymin (x_safety c * npow A en (x_ee c)) (w_maxf w))
          (if w_maxf w =? MAX_FACTOR then false else true)
    else match e_hprev s, e_errold s with
         | Some hp, Some eo =>
           let h_ratio := ha * x_dir c / hp in
           let factor := x_safety_sc c * (npow A en (x_minbeta1 c) * npow A eo (x_minbeta2 c)
                                          * npow A h_ratio (x_minalpha c)) in
           fin (pymax (x_minf c) (pymin factor (w_maxf w))) false
         | _, _ => inr (TypeError "unsupported operand type(s): NoneType")
         end
  else close false (pymax (x_safety c * npow A en (x_ee c)) (x_minf c)) true (S (w_nfs w)).

Inductive etrial_res :=
| EtFail (w : EWk)
| EtRaise (e : exn)
| EtAgain (w : EWk) (ha : num) (rejected : bool)
| EtAccept (w : EWk) (h h_next t_new : num) (y_new : vec) (en : num) (K : list vec).

(** common.py 2031-2042 *)
Definition need_lu (c : ECfg) (w : EWk) (h : num) : bool :=
  (match w_LU w with None => true | _ => false end) || x_jac_each c ||
  (x_linear c && match w_hLU w with None => true | Some hl => negb (h =? hl) end).

Definition factorise (m : EMeth) (c : ECfg) (w : EWk) (h : num) : (mat * EWk) + exn :=
  match need_lu c w h, w_LU w with
  | false, Some L => inl (L, w)
  | _, _ =>
    let base := msub (mat_of (x_n c) (x_M c)) (h * em_d m) (w_J w) in
    let '(Sc, X) := match x_dae c with
                    | None => (w_Sc w, base)
                    | Some (U, nAE) => let sc := scale_AE U nAE (h * em_d m) in (Some sc, mmul sc base)
                    end in
    if x_luok c X then inl (X, w_factored w X h Sc) else inr lin_error
  end.

(** common.py 2024-2092: the body of the while loop *)
Definition etrial (m : EMeth) (c : ECfg) (s : ES) (w : EWk) (ha min_step : num) (rejected : bool) : etrial_res :=
  if ha <? min_step then EtFail w else
  let h := ha * x_dir c in
  let t_new := e_t s + h in
  match factorise m c w h with
  | inr e => EtRaise e
  | inl (L, w1) =>
    match estages m c (e_t s) h (e_y s) L (em_stages m - 1) 1 (w_rates w1 n_ninf 0) [e_yp s] [] [] with
    | (SgRaise e, _) => EtRaise e
    | (SgDiv, w2) =>
      let w3 := w_nfi_up w2 in
      if negb (w_curJ w3) then
        match x_jac c with
        | None => EtRaise (TypeError "'NoneType' object is not callable")
        | Some jac =>
          EtAgain (w_newJ w3 (jac (length (w_jcalls w3)) (e_t s) (e_y s)) true (e_t s, e_y s)) ha rejected
        end
      else
        let factor := MAX_RATE / w_rate w3 in
        EtAgain (w_control (w_dropLU w3) true (w_maxf w3) (w_nfs w3))
                (ha * pymax MIN_FACTOR (pymin factor MAX_FACTOR_NRF)) true
    | (SgOk K psi z, w2) =>
      let y_new := vadd psi (vscale (em_d m) z) in
      let scale := calculate_scale (x_atol c) (x_rtol c) (e_y s) y_new in
      let err := vscale h (lincomb (length (e_y s)) (em_E m) K) in
      let filtered :=
        if em_filter m then
          match x_solve c L (mv (w_Sc w2) err) with
          | Some x => inl (mv (x_M c) x, w_solved w2)
          | None => inr lin_error
          end
        else inl (err, w2) in
      match filtered with
      | inr e => EtRaise e
      | inl (err', w3) =>
        let en := norm (vdiv err' scale) in
        match eassess c s w3 en ha rejected with
        | inr e => EtRaise e
        | inl (true, h_next, w4) => EtAccept w4 h h_next t_new y_new en K
        | inl (false, h_next, w4) => EtAgain w4 h_next true
        end
      end
    end
  end.

(** common.py 2094-2109 *)
Definition efinish (c : ECfg) (s : ES) (w : EWk) (h h_next t_new : num) (y_new : vec) (en : num) (K : list vec) : ES :=
  mkES t_new y_new (last K []) h_next (Some h) (Some (e_y s)) (Some (x_f0 c)) (Some en) K
       (w_cur w (x_linear c)).

Definition too_small : string := "Required step size is less than spacing between numbers.".

Fixpoint eloop (fuel : nat) (m : EMeth) (c : ECfg) (s : ES) (w : EWk) (ha min_step : num) (rejected : bool) : impl_res ES :=
  match fuel with
  | O => IFuel
  | S k =>
    match etrial m c s w ha min_step rejected with
    | EtFail w' => IFail (mkES (e_t s) (e_y s) (e_yp s) (e_habs s) (e_hprev s) (e_yold s) (e_ypold s)
                               (e_errold s) (e_K s) w') too_small
    | EtRaise e => IRaise e
    | EtAgain w' ha' rej' => eloop k m c s w' ha' min_step rej'
    | EtAccept w' h h_next t_new y_new en K => IDone (efinish c s w' h h_next t_new y_new en K)
    end
  end.

(** common.py 2164-2178 [_reassess_stepsize]: h_abs, min_step, standard_sc *)
Definition ereassess (c : ECfg) (t ha : num) (std : bool) : num * num * bool :=
  let min_step := pymax (x_hmina c * (nabs A t + ha)) (x_hminb c) in
  let lim := (ha <? min_step) || (ha >? x_max_step c) in
  let h1 := if lim then pymin (x_max_step c) (pymax min_step ha) else ha in
  let std1 := if lim then true else std in
  let d := nabs A (x_tb c - t) in
  let h2 := if (nabs A (d / h1 - n1) <? lit (1#100)) || (d <? h1) then d else h1 in
  (h2, min_step, std1).

(** common.py 2111-2131 [_preemptive_lu_and_jac] *)
Definition preemptive (c : ECfg) (s : ES) (w : EWk) (ha : num) : EWk + exn :=
  let no_jac := inr (TypeError "'NoneType' object is not callable") in
  if x_jac_each c && negb (w_curJ w) then
    match x_jac c with
    | None => no_jac
    | Some jac => inl (w_newJ w (jac (length (w_jcalls w)) (e_t s) (e_y s)) true (e_t s, e_y s))
    end
  else if w_rate w >? n0 then
    match e_hprev s, w_hLU w with
    | Some hp, Some hl =>
      let h := ha * x_dir c in
      let rate_predict := w_rate w * (h / hp) in
      let rate_predict_LU := nabs A (h / hl - n1) in
      let rate_predict_JAC := rate_predict - rate_predict_LU in
      if Nat.ltb 2 (w_niter w) && (rate_predict_JAC >? MAX_RATE) then
        match x_jac c with
        | None => no_jac
        | Some jac => inl (w_newJ w (jac (length (w_jcalls w)) (e_t s) (e_y s)) (w_curJ w) (e_t s, e_y s))
        end
      else if rate_predict_LU >? MAX_RATE then inl (w_dropLU w)
      else inl w
    | _, _ => inr (TypeError "unsupported operand type(s): NoneType")
    end
  else inl w.

(** common.py 2008-2109 [_step_impl] *)
Definition estep_impl (m : EMeth) (c : ECfg) (fuel : nat) (s : ES) : impl_res ES :=
  let '(ha, min_step, std) := ereassess c (e_t s) (e_habs s) (w_std (e_w s)) in
  let w0 := e_w s in
  match preemptive c s (w_control w0 std (w_maxf w0) (w_nfs w0)) ha with
  | inr e => IRaise e
  | inl w => eloop fuel m c s w ha min_step false
  end.

(** common.py 1680-1701 [_init_sc_control]: kb1, kb2, a, g *)
Definition esd_coefs (a : sc_arg A) : (num * num * num * num) + exn :=
  let bad := inr (ValueError "sc_params should be a tuple of length 4 or one of the strings") in
  match a with
  | ScName s =>
    if String.eqb s "G" then inl (lit 2, lit (-1), lit (-1), lit (8#10)) else
    if String.eqb s "S" then inl (lit (11#10), lit (-7#10), lit (-1), lit (8#10)) else
    if String.eqb s "standard" then inl (n1, n0, n0, lit (8#10)) else bad
  | ScTuple [kb1; kb2; al; g] => inl (kb1, kb2, al, g)
  | _ => bad
  end.

Record EOpts := {
  p_max_step : num; p_rtol : num; p_rtol_is_float : bool; p_atol : tol_arg A;
  p_first_step : option num; p_sc : sc_arg A; p_jac_each : bool
}.
(** the user's jac: a constant matrix, or an oracle (callable or finite differences) *)
Inductive jac_arg := JacConst (J : mat) | JacFun (jac : nat -> num -> vec -> mat).

(** the checks of common.py 1941-1947 on the class *)
Definition esd_class_ok (m : EMeth) : bool :=
  forallb (fun i => nth i (nth i (em_A m) []) n0 =? em_d m) (seq 2 (em_stages m - 2)) &&
  (nth 0 (nth 0 (em_A m) []) n0 =? n0) && (nth 0 (em_C m) n0 =? n0) &&
  forallb (fun p => fst p =? snd p) (combine (last (em_A m) []) (em_B m)).

Definition esd_first (o : EOpts) (t0 tb dir : num) (hs : num -> num * list (num * vec)) : num + exn :=
  match p_first_step o with
  | Some h =>
    if h <=? n0 then inr (ValueError "`first_step` must be positive.") else
    if h >? nabs A (tb - t0) then inr (ValueError "`first_step` exceeds bounds.") else inl h
  | None => let b := t0 + dir * pymin (nabs A (tb - t0)) (p_max_step o) in inl (nabs A (fst (hs b)))
  end.

(** common.py 1918-2006 [__init__] for a non-singular (or absent) mass matrix; fun_single of
    h_start is not counted, so its calls are not logged.  n_jac = 1 evaluation of the Jacobian
    (none for a constant matrix). *)
Definition esd_init (m : EMeth) (o : EOpts) (luok : mat -> bool) (solve : mat -> vec -> option vec)
           (fun_ : num -> vec -> vec) (jac : jac_arg) (M : option mat) (t0 : num) (y0 : vec) (tb : num)
  : (ECfg * ES) + exn :=
  let n := length y0 in
  let dir := direction0 t0 tb in
  if p_max_step o <=? n0 then inr (ValueError "`max_step` must be positive.") else
  match validate_tol (p_rtol_is_float o) (p_rtol o) (p_atol o) y0 with
  | inr e => inr e
  | inl (rtol, atol) =>
    let f0 := fun_ t0 y0 in
    let order := Nat.min (em_order2 m) (em_order m) in
    let ee := - n1 / nofnat (S order) in
    match esd_coefs (sc_or (p_sc o) (em_sc m)) with
    | inr e => inr e
    | inl (kb1, kb2, al, g) =>
      if negb (esd_class_ok m) then inr AssertionError else
      let '(J0, jcalls, xjac) := match jac with
                                 | JacConst J => (J, [], None)
                                 | JacFun j => (j 0%nat t0 y0, [(t0, y0)], Some j)
                                 end in
      let LU_M := mat_of n M in
      if negb (luok LU_M) then inr lin_error else
      match solve LU_M f0 with
      | None => inr lin_error
      | Some yp0 =>
        (* fun_ext raises if the solve does; a missing solution is replaced by f in the model *)
        let fun_ext := fun t y => match solve LU_M (fun_ t y) with Some x => x | None => fun_ t y end in
        match esd_first o t0 tb dir (fun b => h_start fun_ext t0 b y0 yp0 order rtol atol None None) with
        | inr e => inr e
        | inl h =>
          inl ({| x_fun := fun_; x_jac := xjac; x_jac_each := p_jac_each o; x_n := n; x_M := M; x_dae := None;
                  x_luok := luok; x_solve := solve; x_tb := tb; x_dir := dir; x_rtol := rtol; x_atol := atol;
                  x_max_step := p_max_step o; x_hmina := h_min_a0 (em_C m); x_hminb := h_min_b0;
                  x_tiny := nsqrt A (nofnat n) * npow A (n_eps A) (lit (8#10));
                  x_safety := g; x_safety_sc := npow A g (kb1 + kb2);
                  x_minbeta1 := kb1 * ee; x_minbeta2 := kb2 * ee; x_minalpha := - al; x_ee := ee;
                  x_minf := MIN_FACTOR; x_f0 := f0 |},
               mkES t0 y0 yp0 h None None None None []
                 (mkW J0 true None None None n_ninf 0 true MAX_FACTOR0 0 0 0 0 [(t0, y0)] jcalls))
        end
      end
    end
  end.

(** the same for a DAE: U, nAE and the results y, yp0, J of _consistent_ICs and the
    first step are given *)
Definition esd_init_dae (m : EMeth) (o : EOpts) (luok : mat -> bool) (solve : mat -> vec -> option vec)
           (fun_ : num -> vec -> vec) (jac : jac_arg) (M : mat) (U : mat) (nAE : nat)
           (t0 : num) (y0 : vec) (tb : num) (ics : vec * vec * mat * num) : (ECfg * ES) + exn :=
  match esd_init m o (fun _ => true) (fun _ _ => Some []) fun_ jac None t0 y0 tb with
  | inr e => inr e
  | inl (c, s) =>
    let '(y1, yp1, J1, h1) := ics in
    match esd_first o t0 tb (x_dir c) (fun _ => (h1, [])) with
    | inr e => inr e
    | inl h =>
      inl ({| x_fun := fun_; x_jac := x_jac c; x_jac_each := x_jac_each c; x_n := x_n c; x_M := Some M;
              x_dae := Some (U, nAE); x_luok := luok; x_solve := solve; x_tb := tb; x_dir := x_dir c;
              x_rtol := x_rtol c; x_atol := x_atol c; x_max_step := x_max_step c; x_hmina := x_hmina c;
              x_hminb := x_hminb c; x_tiny := x_tiny c; x_safety := x_safety c; x_safety_sc := x_safety_sc c;
              x_minbeta1 := x_minbeta1 c; x_minbeta2 := x_minbeta2 c; x_minalpha := x_minalpha c; x_ee := x_ee c;
              x_minf := x_minf c; x_f0 := x_f0 c |},
           mkES t0 y1 yp1 h None None None None []
             (mkW J1 true None None None n_ninf 0 true MAX_FACTOR0 0 0 0 0 (w_calls (e_w s)) (w_jcalls (e_w s))))
    end
  end.

Definition eview : View A ES :=
  {| v_t := e_t; v_set_t := fun s t' => mkES t' (e_y s) (e_yp s) (e_habs s) (e_hprev s) (e_yold s) (e_ypold s) (e_errold s) (e_K s) (e_w s);
     v_n := fun s => length (e_y s) |}.

End ESD.
Arguments EMeth : clear implicits. Arguments ECfg : clear implicits. Arguments EWk : clear implicits.
Arguments ES : clear implicits. Arguments EOpts : clear implicits. Arguments jac_arg : clear implicits.
Arguments newton_res : clear implicits. Arguments stages_res : clear implicits. Arguments etrial_res : clear implicits.
