(** Model of the Runge-Kutta-Chebyshev method SSV2stab,
    /repo/extensisq/sommeijer.py.  Numbers of stages are integers (type Z), all
    floats are elements of an [Arith].  The functions math.log, math.sinh,
    math.cosh and the conversions int(x), int(round(x)), which [Arith] does not
    contain, are the record [Elem]. *)
From Coq Require Import String ZArith QArith Bool List.
From Verif Require Import Arith Common Stiff RK HStart RKInit Dense Ode.
Import ListNotations.

(** what int(x) gives: an integer, or ValueError (nan) / OverflowError (inf) *)
Record Elem (A : Arith) := {
  el_log : num A -> num A;               (* math.log *)
  el_sinh : num A -> num A;              (* math.sinh *)
  el_cosh : num A -> num A;              (* math.cosh *)
  el_int : num A -> Z + exn;             (* int(x) *)
  el_round : num A -> Z + exn            (* int(round(x)) *)
}.
Arguments el_log {A}. Arguments el_sinh {A}. Arguments el_cosh {A}.
Arguments el_int {A}. Arguments el_round {A}.

Notation "x <- a ;; b" := (match a with inl x => b | inr e => inr e end)
  (at level 61, a at next level, right associativity).

Section Rkc.
Context {A : Arith} (EL : Elem A).
Notation num := (num A).
Notation vec := (list num).
Local Open Scope num_scope.

Definition zlit (z : Z) : num := lit (inject_Z z).
(** math.sqrt raises on a negative argument (nan is returned unchanged) *)
Definition msqrt (x : num) : num + exn :=
  if x <? n0 then inr (ValueError "math domain error") else inl (nsqrt A x).
(** division of two Python floats *)
Definition pdiv (a b : num) : num + exn :=
  if b =? n0 then inr ZeroDivisionError else inl (a / b).
(** np.linalg.norm of a vector *)
Definition norm2 (x : vec) : num := nsqrt A (ndot x x).

(** attributes that do not change after the constructor *)
Record RkcCfg := mkRC {
  rc_fun : num -> vec -> vec;
  rc_tb : num; rc_dir : num;
  rc_max_step : num; rc_rtol : num; rc_atol : tol_arg A;
  rc_hmin : num;                         (* self.hmin, used for the first step *)
  rc_mmax : Z;
  rc_const_jac : bool;
  rc_rho : option (num -> vec -> num)    (* rho_jac *)
}.

(** attributes that change.  [rs_yn], [rs_fn], [rs_v1], [rs_v2] are the rows of W.
    [rs_calls], [rs_rcalls] and [rs_nrho] are ghosts: the counted calls of fun,
    the uncounted ones of the spectral radius estimation, and the number of
    times the spectral radius was determined.  sprad and errold do not exist
    before they are first written. *)
Record RkcSt := mkRS {
  rs_t : num; rs_y : vec;
  rs_absh : option num; rs_hold : option num; rs_errold : num;
  rs_yn : vec; rs_fn : vec; rs_v1 : vec; rs_v2 : vec;
  rs_V : option vec;
  rs_nstsig : nat; rs_mlim : nat;
  rs_newspc : bool; rs_jacatt : bool; rs_sprad : num;
  rs_nrejct : nat; rs_maxm : Z; rs_nfesig : nat;
  rs_calls : list (num * vec); rs_rcalls : list (num * vec); rs_nrho : nat;
  rs_notes : list string
}.

(** ** the constructor, sommeijer.py 93-145 *)
Record RkcOpts := mkRO {
  ro_max_step : num; ro_rtol : num; ro_rtol_is_float : bool; ro_atol : tol_arg A;
  ro_first_step : option num; ro_const_jac : option bool;    (* None: not a bool *)
  ro_rho : option (num -> vec -> num); ro_rho_float : bool   (* rho_jac returns a float *)
}.

Definition rkc_init (o : RkcOpts) (fun_ : num -> vec -> vec) (t0 : num) (y0 : vec) (tb : num)
  : (RkcCfg * RkcSt) + exn :=
  let dir := direction0 t0 tb in
  absh <- match ro_first_step o with
          | None => inl None
          | Some h => if h <=? n0 then inr (ValueError "`first_step` must be positive.") else
                      if h >? nabs A (tb - t0) then inr (ValueError "`first_step` exceeds bounds.")
                      else inl (Some h)
          end ;;
  cj <- match ro_const_jac o with
        | None => inr (TypeError "`const_jac` should be True or False") | Some b => inl b end ;;
  _ <- match ro_rho o with
       | None => inl tt
       | Some r => if negb (ro_rho_float o) then inr (TypeError "`rho_jac` should return a float") else
                   if r t0 y0 <=? n0 then inr (ValueError "`rho_jac` should return a positive float")
                   else inl tt
       end ;;
  if ro_max_step o <=? n0 then inr (ValueError "`max_step` must be positive.") else
  match validate_tol (ro_rtol_is_float o) (ro_rtol o) (ro_atol o) y0 with
  | inr e => inr e
  | inl (rtol, atol) =>
    q <- msqrt (rtol / (lit 10 * n_small A)) ;;
    mm <- el_round EL q ;;
    let ms := pymin (pymin (ro_max_step o) (nabs A (tb - t0))) (nsqrt A (n_max A)) in
    let hm := if tb =? n_inf A then nabs A t0 else pymax (nabs A t0) (nabs A ms) in
    inl (mkRC fun_ tb dir ms rtol atol (pymax (nsqrt A (n_tiny A)) (lit 10 * n_small A * hm))
              (Z.max mm 2) cj (ro_rho o),
         mkRS t0 y0 absh None n0 y0 (fun_ t0 y0) [] [] None 0 0 true false n0
              0 0 0 [(t0, y0)] [] 0 [])
  end.

(** ** _rho, sommeijer.py 331-398: the nonlinear power method *)
(** v[i] = -v[i] *)
Fixpoint flip (i : nat) (v : vec) : vec :=
  match v, i with
  | [], _ => []
  | x :: v', O => - x :: v'
  | x :: v', S j => x :: flip j v'
  end.

(** 347-363: the start vector and dynrm *)
Definition rho_start (yn V : vec) : vec * num :=
  let ynrm := norm2 yn in
  let vnrm := norm2 V in
  let sqrtu := nsqrt A (n_small A) in
  if negb (ynrm =? n0) && negb (vnrm =? n0) then
    (vadd yn (map (fun x => x * (ynrm * sqrtu / vnrm)) V), ynrm * sqrtu)
  else if negb (ynrm =? n0) then
    (map (fun x => x * (n1 + sqrtu)) V, ynrm * sqrtu)
  else if negb (vnrm =? n0) then
    (map (fun x => x * (n_small A / vnrm)) V, n_small A)
  else (repeat (n_small A) (length V), n_small A).

(** 366-398: [left] iterations are left, [iter] is the number of the iteration.
    Result: Some (sprad, V), and v, fv, the points of evaluation *)
Fixpoint rho_iter (left iter : nat) (g : num -> vec -> vec) (t : num) (yn fn : vec)
    (small dynrm sigma : num) (v fv : vec) (rc : list (num * vec))
  : option (num * vec) * vec * vec * list (num * vec) :=
  match left with
  | O => (None, v, fv, rc)
  | S left' =>
    let fv := g t v in
    let rc := (rc ++ [(t, v)])%list in
    let dfnrm := norm2 (vsub fv fn) in
    let sigmal := sigma in
    let sigma := dfnrm / dynrm in
    if negb (Nat.eqb iter 0) && (nabs A (sigma - sigmal) <=? pymax sigma small * lit (1#100))
    then (Some (lit (12#10) * sigma, vsub v yn), v, fv, rc)
    else
      let v' := if negb (dfnrm =? n0)
                then vadd yn (map (fun x => x * (dynrm / dfnrm)) (vsub fv fn))
                else flip (Nat.modulo iter (length yn)) v in
      rho_iter left' (S iter) g t yn fn small dynrm sigma v' fv rc
  end.

(** 331-398 _rho *)
Definition rkc_rho (c : RkcCfg) (s : RkcSt) (t : num)
  : option (num * vec) * vec * vec * list (num * vec) :=
  let V := match rs_V s with Some V => V | None => rs_fn s end in
  let '(v, dynrm) := rho_start (rs_yn s) V in
  rho_iter 50 0 (rc_fun c) t (rs_yn s) (rs_fn s) (n1 / rc_max_step c) dynrm n0 v (rs_v2 s) (rs_rcalls s).

(** 174-183: the spectral radius when newspc is set; None: no convergence *)
Definition rkc_sprad (c : RkcCfg) (s : RkcSt) : RkcSt * bool :=
  if negb (rs_newspc s) then (s, true) else
  match rc_rho c with
  | Some r =>
    (mkRS (rs_t s) (rs_y s) (rs_absh s) (rs_hold s) (rs_errold s) (rs_yn s) (rs_fn s) (rs_v1 s) (rs_v2 s)
          (rs_V s) (rs_nstsig s) (rs_mlim s) (rs_newspc s) true (r (rs_t s) (rs_yn s))
          (rs_nrejct s) (rs_maxm s) (rs_nfesig s) (rs_calls s) (rs_rcalls s) (S (rs_nrho s)) (rs_notes s), true)
  | None =>
    let '(res, v, fv, rc) := rkc_rho c s (rs_t s) in
    let nf := (rs_nfesig s + (length rc - length (rs_rcalls s)))%nat in
    match res with
    | Some (sp, V) =>
      (mkRS (rs_t s) (rs_y s) (rs_absh s) (rs_hold s) (rs_errold s) (rs_yn s) (rs_fn s) v fv
            (Some V) (rs_nstsig s) (rs_mlim s) (rs_newspc s) true sp
            (rs_nrejct s) (rs_maxm s) nf (rs_calls s) rc (S (rs_nrho s)) (rs_notes s), true)
    | None =>
      (mkRS (rs_t s) (rs_y s) (rs_absh s) (rs_hold s) (rs_errold s) (rs_yn s) (rs_fn s) v fv
            (Some (match rs_V s with Some V => V | None => rs_fn s end))
            (rs_nstsig s) (rs_mlim s) (rs_newspc s) (rs_jacatt s) (rs_sprad s)
            (rs_nrejct s) (rs_maxm s) nf (rs_calls s) rc (S (rs_nrho s)) (rs_notes s), false)
    end
  end.

(** 147-160 _init_step_size: step, vtemp1, vtemp2 and the point of evaluation.
    [t + absh] is the code's, also when integrating backward. *)
Definition rkc_init_step (c : RkcCfg) (sprad t : num) (yn fn : vec)
  : (num * vec * vec * (num * vec)) + exn :=
  let absh := rc_max_step c in
  let absh := if sprad * absh >? n1 then n1 / sprad else absh in
  let absh := pymax absh (rc_hmin c) in
  let v1 := vadd yn (vscale absh fn) in
  let v2 := rc_fun c (t + absh) v1 in
  let wt := vadd (bcast (rc_atol c) (length yn)) (map (fun x => rc_rtol c * nabs A x) yn) in
  let est := absh * norm (vdiv (vsub v2 fn) wt) in
  sq <- msqrt est ;;
  if lit (1#10) * absh <? rc_max_step c * sq
  then inl (pymax (lit (1#10) * absh / sq) (rc_hmin c), v1, v2, (t + absh, v1))
  else inl (rc_max_step c, v1, v2, (t + absh, v1)).

(** 190-203: step size and number of stages; the flag tells that m was limited *)
Definition rkc_select (c : RkcCfg) (sprad t absh : num) : (Z * num * bool) + exn :=
  let absh := if nabs A (rc_tb c - t) <=? lit (11#10) * absh then nabs A (rc_tb c - t) else absh in
  sq <- msqrt (lit (154#100) * absh * sprad + n1) ;;
  k <- el_int EL sq ;;
  let m := (1 + k)%Z in
  if (rc_mmax c <? m)%Z
  then inl (rc_mmax c, zlit (rc_mmax c * rc_mmax c - 1) / (lit (154#100) * sprad), true)
  else inl (m, absh, false).

(** ** _stages, sommeijer.py 273-329 *)
(** the scalars carried from stage to stage *)
Record Coef := mkCoef {
  thjm1 : num; thjm2 : num; zjm1 : num; zjm2 : num; dzjm1 : num; dzjm2 : num;
  d2zjm1 : num; d2zjm2 : num; bjm1 : num; bjm2 : num }.

(** 278 *)
Definition rkc_w0 (m : Z) : num := n1 + lit 2 / (lit 13 * zlit (m * m)).
(** 278-282 *)
Definition rkc_w1 (m : Z) : num + exn :=
  let w0 := rkc_w0 m in
  let temp1 := w0 * w0 - n1 in
  temp2 <- msqrt temp1 ;;
  let arg := zlit m * el_log EL (w0 + temp2) in
  pdiv (el_sinh EL arg * temp1) (el_cosh EL arg * zlit m * temp2 - w0 * el_sinh EL arg).
(** 283 *)
Definition rkc_b1 (m : Z) : num := n1 / ((lit 2 * rkc_w0 m) * (lit 2 * rkc_w0 m)).
(** 284-297 *)
Definition coef1 (m : Z) (w1 : num) : Coef :=
  mkCoef (w1 * rkc_b1 m) n0 (rkc_w0 m) n1 n1 n0 n0 n0 (rkc_b1 m) (rkc_b1 m).

(** 301-308, 314, 317-329: the coefficients of stage j: mu, nu, mus, ajm1 and the next scalars *)
Definition coef_next (w0 w1 : num) (k : Coef) : (num * num * num * num * Coef) + exn :=
  let zj := lit 2 * w0 * zjm1 k - zjm2 k in
  let dzj := lit 2 * w0 * dzjm1 k - dzjm2 k + lit 2 * zjm1 k in
  let d2zj := lit 2 * w0 * d2zjm1 k - d2zjm2 k + lit 4 * dzjm1 k in
  bj <- pdiv d2zj (dzj * dzj) ;;
  let ajm1 := n1 - zjm1 k * bjm1 k in
  mu <- pdiv (lit 2 * w0 * bj) (bjm1 k) ;;
  nu <- pdiv (- bj) (bjm2 k) ;;
  mus <- pdiv (mu * w1) w0 ;;
  let thj := mu * thjm1 k + nu * thjm2 k + mus * (n1 - ajm1) in
  inl (mu, nu, mus, ajm1, mkCoef thj (thjm1 k) zj (zjm1 k) dzj (dzjm1 k) d2zj (d2zjm1 k) bj (bjm1 k)).

(** 311-313: one stage *)
Definition rkc_stage (g : num -> vec -> vec) (t : num) (yn fn : vec) (h : num)
    (mu nu mus ajm1 thjm1 : num) (yjm1 yjm2 : vec) : vec :=
  let F := g (t + h * thjm1) yjm1 in
  vadd (vadd (vadd (vscale mu yjm1) (vscale nu yjm2)) (vscale (n1 - mu - nu) yn))
       (vscale (h * mus) (vsub F (vscale ajm1 fn))).

(** 287-329: [left] stages are left to do; the code skips the shift of the data
    after the last stage: yjm1 and yjm2 (vtemp1, vtemp2) keep their values *)
Fixpoint stage_loop (left : nat) (g : num -> vec -> vec) (t : num) (yn fn : vec) (h w0 w1 : num)
    (k : Coef) (y yjm1 yjm2 : vec) (cl : list (num * vec))
  : (vec * vec * vec * list (num * vec)) + exn :=
  match left with
  | O => inl (y, yjm1, yjm2, cl)
  | S left' =>
    match coef_next w0 w1 k with
    | inr e => inr e
    | inl (mu, nu, mus, ajm1, k') =>
      let cl' := (cl ++ [(t + h * thjm1 k, yjm1)])%list in
      let y' := rkc_stage g t yn fn h mu nu mus ajm1 (thjm1 k) yjm1 yjm2 in
      match left' with
      | O => inl (y', yjm1, yjm2, cl')
      | _ => stage_loop left' g t yn fn h w0 w1 k' y' y' yjm1 cl'
      end
    end
  end.

(** 273-329 _stages *)
Definition rkc_stages (g : num -> vec -> vec) (t : num) (yn fn : vec) (h : num) (m : Z) (y : vec)
    (cl : list (num * vec)) : (vec * vec * vec * list (num * vec)) + exn :=
  let w0 := rkc_w0 m in
  w1 <- rkc_w1 m ;;
  let k := coef1 m w1 in
  let yjm1 := vadd yn (map (fun x => h * (w1 * rkc_b1 m) * x) fn) in
  stage_loop (Z.to_nat (m - 1)) g t yn fn h w0 w1 k y yjm1 yn cl.

(** ** _step_impl, sommeijer.py 162-271 *)
Inductive rkc_trial_res :=
| RFail (s : RkcSt) (msg : string)
| RRaise (e : exn)
| RReject (s : RkcSt) (absh : num) (y : vec)
| RAccept (s : RkcSt) (h absh hmin err : num) (y : vec).

Definition rkc_norho : string := "The method to estimate the spectral radius of the Jacobian did not converge".
Definition rkc_toostiff : string := "Your problem is too stiff for this method.".
Definition rkc_overflow : string := "Overflow or underflow encountered.".
Definition rkc_toosmall : string := "Required step size is less than spacing between numbers.".

(** 186-187 *)
Definition rkc_first (c : RkcCfg) (s : RkcSt) (absh : option num) : (num * RkcSt) + exn :=
  match absh with
  | Some a => inl (a, s)
  | None =>
    match rkc_init_step c (rs_sprad s) (rs_t s) (rs_yn s) (rs_fn s) with
    | inr e => inr e
    | inl (a, v1, v2, p) =>
      inl (a, mkRS (rs_t s) (rs_y s) (rs_absh s) (rs_hold s) (rs_errold s) (rs_yn s) (rs_fn s) v1 v2
                   (rs_V s) (rs_nstsig s) (rs_mlim s) (rs_newspc s) (rs_jacatt s) (rs_sprad s)
                   (rs_nrejct s) (rs_maxm s) (rs_nfesig s) (rs_calls s ++ [p])%list (rs_rcalls s)
                   (rs_nrho s) (rs_notes s))
    end
  end.

(** 211-212 *)
Definition rkc_hmin (t absh : num) (m : Z) : num :=
  pymax (nsqrt A (n_tiny A)) (lit (133#10) * n_small A * (nabs A t + absh) * zlit (m * m - 1)).

(** 218-220: the norm of the error estimate *)
Definition rkc_err (c : RkcCfg) (yn y fn f1 : vec) (h : num) : num :=
  let wt := calculate_scale (rc_atol c) (rc_rtol c) y yn in
  let est := vadd (vscale (lit (8#10)) (vsub yn y)) (vscale (lit (4#10) * h) (vadd fn f1)) in
  norm (vdiv est wt).

(** one turn of the while loop, 172-235.  [y] is the scratch array. *)
Definition rkc_trial (c : RkcCfg) (s : RkcSt) (absh : option num) (y : vec) : rkc_trial_res :=
  let '(s1, ok) := rkc_sprad c s in
  if negb ok then RFail s1 rkc_norho else
  match rkc_first c s1 absh with
  | inr e => RRaise e
  | inl (a, s2) =>
    match rkc_select c (rs_sprad s2) (rs_t s2) a with
    | inr e => RRaise e
    | inl (m, a, lim) =>
      let mlim := if lim then S (rs_mlim s2) else 0%nat in
      let notes := if lim && Nat.eqb mlim 15 then (rs_notes s2 ++ [rkc_toostiff])%list else rs_notes s2 in
      let h := rc_dir c * a in
      let hmin := rkc_hmin (rs_t s2) a m in
      match rkc_stages (rc_fun c) (rs_t s2) (rs_yn s2) (rs_fn s2) h m y (rs_calls s2) with
      | inr e => RRaise e
      | inl (y', _, v2, cl) =>
        let v1 := rc_fun c (rs_t s2 + h) y' in
        let cl := (cl ++ [(rs_t s2 + h, y')])%list in
        let err := rkc_err c (rs_yn s2) y' (rs_fn s2) v1 h in
        let s3 := mkRS (rs_t s2) (rs_y s2) (rs_absh s2) (rs_hold s2) (rs_errold s2) (rs_yn s2) (rs_fn s2) v1 v2
                       (rs_V s2) (rs_nstsig s2) mlim (rs_newspc s2) (rs_jacatt s2) (rs_sprad s2)
                       (rs_nrejct s2) (Z.max m (rs_maxm s2)) (rs_nfesig s2) cl (rs_rcalls s2)
                       (rs_nrho s2) notes in
        if err <? n1 then RAccept s3 h a hmin err y'
        else if nisnan A err || nisinf A err then RFail s3 rkc_overflow
        else
          let a' := lit (8#10) * a / npow A err (n1 / lit 3) in
          let s4 nsp ab :=
            mkRS (rs_t s3) (rs_y s3) ab (rs_hold s3) (rs_errold s3) (rs_yn s3) (rs_fn s3) v1 v2
                 (rs_V s3) (rs_nstsig s3) mlim nsp (rs_jacatt s3) (rs_sprad s3)
                 (S (rs_nrejct s3)) (rs_maxm s3) (rs_nfesig s3) cl (rs_rcalls s3) (rs_nrho s3) notes in
          if a' <? hmin then RFail (s4 (rs_newspc s3) (rs_absh s3)) rkc_toosmall
          else RReject (s4 (negb (rs_jacatt s3)) (Some a')) a' y'
      end
    end
  end.

(** 252-262: the factor for the next step size *)
Definition rkc_fac (hold : option num) (errold absh err : num) : num :=
  let fac := lit 10 in
  match hold with
  | None =>
    let temp2 := npow A err (n1 / lit 3) in
    if lit (8#10) <? fac * temp2 then lit (8#10) / temp2 else fac
  | Some ho =>
    let temp1 := lit (8#10) * absh * npow A errold (n1 / lit 3) in
    let temp2 := nabs A ho * npow A err (lit 2 / lit 3) in
    if temp1 <? fac * temp2 then temp1 / temp2 else fac
  end.

(** 238-271: after acceptance *)
Definition rkc_finish (c : RkcCfg) (s : RkcSt) (h absh hmin err : num) (y : vec) : RkcSt :=
  let t' := rs_t s + h in
  let jacatt := rc_const_jac c in
  let nst := Nat.modulo (S (rs_nstsig s)) 25 in
  let newspc := (match rc_rho c with Some _ => true | None => false end || Nat.eqb nst 0) && negb jacatt in
  let absh' := pymax (lit (1#10)) (rkc_fac (rs_hold s) (rs_errold s) absh err) * absh in
  mkRS t' y (Some (pymax hmin (pymin (rc_max_step c) absh'))) (Some h) err
       y (rs_v1 s) (rs_yn s) (rs_fn s) (rs_V s) nst (rs_mlim s) newspc jacatt (rs_sprad s)
       (rs_nrejct s) (rs_maxm s) (rs_nfesig s) (rs_calls s) (rs_rcalls s) (rs_nrho s) (rs_notes s).

(** 172-271 *)
Fixpoint rkc_loop (fuel : nat) (c : RkcCfg) (s : RkcSt) (absh : option num) (y : vec) : impl_res RkcSt :=
  match fuel with
  | O => IFuel
  | S k =>
    match rkc_trial c s absh y with
    | RFail s' msg => IFail s' msg
    | RRaise e => IRaise e
    | RReject s' a y' => rkc_loop k c s' (Some a) y'
    | RAccept s' h a hmin err y' => IDone (rkc_finish c s' h a hmin err y')
    end
  end.

(** 162-171 *)
Definition rkc_step_impl (c : RkcCfg) (fuel : nat) (s : RkcSt) : impl_res RkcSt :=
  rkc_loop fuel c s (rs_absh s) (rs_y s).

Definition rkc_view : View A RkcSt :=
  {| v_t := rs_t;
     v_set_t := fun s x => mkRS x (rs_y s) (rs_absh s) (rs_hold s) (rs_errold s) (rs_yn s) (rs_fn s) (rs_v1 s) (rs_v2 s)
        (rs_V s) (rs_nstsig s) (rs_mlim s) (rs_newspc s) (rs_jacatt s) (rs_sprad s)
        (rs_nrejct s) (rs_maxm s) (rs_nfesig s) (rs_calls s) (rs_rcalls s) (rs_nrho s) (rs_notes s);
     v_n := fun s => length (rs_y s) |}.

Definition rkc_step (c : RkcCfg) (fuel : nat) (v : OSolver A RkcSt) : ostep_res RkcSt :=
  ostep rkc_view (rc_tb c) (rc_dir c) (rkc_step_impl c fuel) v.

(** 400-406 _dense_output_impl *)
Definition rkc_dense (t_old : num) (s : RkcSt) : dense A :=
  mk_cubic t_old (rs_t s) (rs_v1 s) (rs_yn s) (rs_v2 s) (rs_fn s).

(** scipy OdeSolver.dense_output *)
Definition rkc_dense_output (v : OSolver A RkcSt) : dense A + exn :=
  match ot_old v with
  | None => inr (RuntimeError "Dense output is available after a successful step was made.")
  | Some to => if Nat.eqb (length (rs_y (ost v))) 0 || (rs_t (ost v) =? to) then inl (DConst to (rs_t (ost v)) (rs_y (ost v))) else inl (rkc_dense to (ost v))
  end.

End Rkc.
Arguments RkcCfg : clear implicits. Arguments RkcSt : clear implicits. Arguments RkcOpts : clear implicits.
