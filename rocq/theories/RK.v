(** Model of the explicit Runge-Kutta stepping of /repo/extensisq/common.py:
    class RungeKutta (66-521) and class RungeKuttaNystrom (1211-1490), and of the
    overridden _step_impl of BS5 (bogacki.py 240-331) and CFMR7osc
    (calvo.py 152-250).

    Python's virtual dispatch is modelled by the record [Meth]: it holds the
    methods that subclasses override ([_rk_stage], [_comp_sol_err],
    [_estimate_error], the pre-estimate of BS5/CFMR7osc and the stiffness
    parameters).  The stepping loop below is shared. *)
From Coq Require Import String ZArith QArith Bool List Lia.
From Verif Require Import Arith Common Stiff.
Import ListNotations.

Section RK.
Context {A : Arith}.
Notation num := (num A).
Notation vec := (list num).
Local Open Scope num_scope.

(** common.py 18-20 *)
Definition MIN_FACTOR : num := lit (1#5).
Definition MAX_FACTOR : num := lit 4.
Definition MAX_FACTOR0 : num := lit 10.

Inductive stab_params :=
| NoStab                                     (* stbrad/tanang NotImplemented *)
| StabRK (stbrad tanang : num)
| StabRKN (stbre stbim tanang : num).

Record Meth := {
  m_stages : nat;                            (* n_stages *)
  m_dim : nat;                               (* self.n: rows of fun's result kept in K *)
  (* evaluation point of stage i from t, y, h and the stages so far: _rk_stage *)
  m_point : num -> vec -> num -> list vec -> nat -> num * vec;
  (* new solution from y, h and the n_stages stages: _comp_sol_err *)
  m_sol : vec -> num -> list vec -> vec;
  (* error vector from h and K[:n_stages+FSAL]: _estimate_error *)
  m_err : num -> list vec -> vec;
  m_fsal : bool;                             (* FSAL *)
  (* BS5, CFMR7osc: y_pre and err of _estimate_error_norm_pre, from y, h and the
     first n_stages-1 stages *)
  m_pre : option (vec -> num -> list vec -> vec * vec);
  m_nan_first : bool;                        (* BS5 tests nan before counting *)
  m_stab : stab_params
}.

(** Solver constants fixed by __init__. [fn] is self.fun; [fn1] is the function
    handed to the stiffness test (self.fun, or fun_first_order for Nystrom). *)
Record Cfg := {
  fn : num -> vec -> vec;
  fn1 : num -> vec -> vec;
  t_bound : num;
  direction : num;
  rtol : num;
  atol : tol_arg A;
  max_step : num;
  h_min_a : num;
  h_min_b : num;
  tiny_err : num;
  safety : num;
  safety_sc : num;
  minbeta1 : num;
  minbeta2 : num;
  minalpha : num;
  error_exponent : num;
  min_factor : num;
  nfev_stiff_detect : nat
}.

(** Mutable solver state. Python's None / not-yet-assigned attributes are None.
    [calls] logs the arguments of every call of the wrapped fun (nfev is its
    length); [ucalls] those of fun_first_order (Nystrom, not counted in nfev). *)
Record St := mkSt {
  t : num;
  y : vec;
  f : vec;
  h_abs : num;
  max_factor : num;
  standard_sc : bool;
  h_previous : option num;
  y_old : option vec;
  f_old : option vec;
  error_norm_old : option num;
  K : list vec;
  jflstp : nat;
  okstp : nat;
  havg : num;
  nfs : nat;
  calls : list (num * vec);
  ucalls : list (num * vec);
  notes : list note
}.

Definition nfev (s : St) : nat := length (calls s).

Inductive failmsg := TOO_SMALL_STEP | OVERFLOW.

Inductive result :=
| Done (s : St)                       (* return True, None *)
| Fail (s : St) (m : failmsg)         (* return False, message *)
| Raise (e : exn)                     (* an exception escapes *)
| OutOfFuel.                          (* the model's fuel ran out *)

(** common.py 308-331 [_reassess_stepsize]: new h_abs, min_step, standard_sc *)
Definition reassess_stepsize (c : Cfg) (s : St) : num * num * bool :=
  let h := h_abs s in
  let min_step := pymax (h_min_a c * (nabs A (t s) + h)) (h_min_b c) in
  let lim := (h <? min_step) || (h >? max_step c) in
  let h1 := if lim then pymin (max_step c) (pymax min_step h) else h in
  let sc1 := if lim then true else standard_sc s in
  let d := nabs A (t_bound c - t s) in
  if d <? n2 * h1 then
    if d >? h1 then (pymax (lit (1#2) * d) min_step, min_step, true)
    else (d, min_step, sc1)
  else (h1, min_step, sc1).

(** common.py 236-237 and 351-354: stages 1 .. n_stages-1.
    [stages m c t y h k K] appends k further stages to K. *)
Fixpoint stages (m : Meth) (g : num -> vec -> vec) (t : num) (y : vec) (h : num) (k : nat)
         (K : list vec) (calls : list (num * vec)) : list vec * list (num * vec) :=
  match k with
  | O => (K, calls)
  | S k' =>
    let p := m_point m t y h K (length K) in
    stages m g t y h k' (K ++ [g (fst p) (snd p)]) (calls ++ [p])
  end.

(** common.py 333-340: error norm of an error vector given y and the new y *)
Definition err_norm (c : Cfg) (y y_new err : vec) : num :=
  norm (vdiv err (calculate_scale (atol c) (rtol c) y y_new)).

(** common.py 343-354 [_comp_sol_err]: new solution, error norm, stages, calls *)
Definition comp_sol_err (m : Meth) (c : Cfg) (t : num) (y : vec) (h : num) (K : list vec)
           (calls : list (num * vec)) : vec * num * list vec * list (num * vec) :=
  let y_new := m_sol m y h K in
  let '(K', calls') :=
    if m_fsal m then ((K ++ [fn c (t + h) y_new])%list, (calls ++ [(t + h, y_new)])%list)
    else (K, calls) in
  (y_new, err_norm c y y_new (m_err m h K'), K', calls').

(** the second order controller needs h_previous and error_norm_old *)
Inductive factor_res := Factor (x : num) (sc : bool) | FactorExn (e : exn).

(** common.py 246-266: step size factor after acceptance, and new standard_sc *)
Definition accept_factor (c : Cfg) (s : St) (sc : bool) (h error_norm : num) : factor_res :=
  if error_norm <? tiny_err c then Factor (max_factor s) true
  else if sc then Factor (safety c * npow A error_norm (error_exponent c)) false
  else match h_previous s, error_norm_old s with
       | Some hp, Some eo =>
         let h_ratio := h / hp in
         let fac := safety_sc c * (npow A error_norm (minbeta1 c) * npow A eo (minbeta2 c)
                                   * npow A h_ratio (minalpha c)) in
         Factor (pymin (max_factor s) (pymax (min_factor c) fac)) false
       | None, _ => FactorExn (TypeError "unsupported operand NoneType")
       | _, None => FactorExn (AttributeError "error_norm_old")
       end.

(** common.py 278-280: shrink after rejection *)
Definition reject_factor (c : Cfg) (error_norm : num) : num :=
  pymax (min_factor c) (safety c * npow A error_norm (error_exponent c)).

(** common.py 370-427 [_diagnose_stiffness], counters and the call of stiff_a. *)
Definition diagnose (m : Meth) (c : Cfg) (s : St) (h : num) (yold : vec) : St + exn :=
  if Nat.eqb (nfev_stiff_detect c) 0 then inl s else
  let ok := S (okstp s) in
  let hv := lit (9#10) * havg s + lit (1#10) * h in
  let '(hv, jf) := if Nat.eqb ok 20 then (h, 0%nat) else (hv, jflstp s) in
  let '(lotsfl, jf) := if Nat.eqb (Nat.modulo ok 40) 39
                       then (Nat.leb 10 jf, 0%nat) else (false, jf) in
  let many := Nat.div (nfev_stiff_detect c) (m_stages m) in
  if Nat.eqb many 0 then inr ZeroDivisionError else
  let toomch := Nat.eqb (Nat.modulo ok many) (many - 1) in
  let upd := fun (ca uca : list (num * vec)) (ns : list note) =>
    {| t := t s; y := y s; f := f s; h_abs := h_abs s; max_factor := max_factor s;
       standard_sc := standard_sc s; h_previous := h_previous s; y_old := y_old s;
       f_old := f_old s; error_norm_old := error_norm_old s; K := K s;
       jflstp := jf; okstp := ok; havg := hv; nfs := nfs s;
       calls := (calls s ++ ca)%list; ucalls := (ucalls s ++ uca)%list;
       notes := (notes s ++ ns)%list |} in
  if toomch || lotsfl then
    let avgy := vscale (lit (1#2)) (vadd (map (nabs A) (y s)) (map (nabs A) yold)) in
    let wt := map (fun a => npmax a (nsqrt A (n_tiny A))) avgy in
    let v0 := m_err m h (if m_fsal m then K s else firstn (m_stages m) (K s)) in
    match m_stab m with
    | StabRK stbrad tanang =>
      let '(r, ca) := stiff_a (fn1 c) (t s) (y s) h hv (t_bound c)
                              (nfev_stiff_detect c) wt (f s) v0 (m_stages m) in
      inl (upd ca [] (notes_rk lotsfl (decide_rk stbrad tanang r)))
    | StabRKN stbre stbim tanang =>
      (* common.py 1377-1387: back to first order form *)
      let f1 := (skipn (m_dim m) (y s) ++ f s)%list in
      let '(r, ca) := stiff_a (fn1 c) (t s) (y s) h hv (t_bound c)
                              (nfev_stiff_detect c) wt f1 v0 (m_stages m) in
      inl (upd [] ca (notes_rkn stbre stbim lotsfl r (decide_rkn stbre stbim tanang r)))
    | NoStab => inl (upd [] [] [])     (* excluded by _init_stiffness_detection *)
    end
  else inl (upd [] [] []).

(** the state while looping: only these attributes change before acceptance *)
Definition with_trial (s : St) (sc : bool) (mf : num) (jf : nat) (nf : nat)
           (K' : list vec) (cl : list (num * vec)) : St :=
  {| t := t s; y := y s; f := f s; h_abs := h_abs s; max_factor := mf;
     standard_sc := sc; h_previous := h_previous s; y_old := y_old s; f_old := f_old s;
     error_norm_old := error_norm_old s; K := K'; jflstp := jf; okstp := okstp s;
     havg := havg s; nfs := nf; calls := cl; ucalls := ucalls s; notes := notes s |}.

(** One trial step of the loop, common.py 226-292 (BS5: bogacki.py 252-322,
    CFMR7osc: calvo.py 164-240). *)
Inductive trial :=
| Accept (s : St) (h : num) (h_next : num) (t_new : num) (y_new : vec) (error_norm : num)
| Reject (s : St) (h_next : num)                        (* back to while *)
| Abort (s : St) (m : failmsg)
| TrialExn (e : exn).

Definition trial_step (m : Meth) (c : Cfg) (s : St) (h_abs min_step : num) (rejected : bool)
  : trial :=
  if h_abs <? min_step then Abort s TOO_SMALL_STEP else
  let h := h_abs * direction c in
  let t_new := t s + h in
  let npre := match m_pre m with None => (m_stages m - 1)%nat
                               | Some _ => (m_stages m - 2)%nat end in
  let '(K1, calls1) := stages m (fn c) (t s) (y s) h npre [f s] (calls s) in
  let pre := match m_pre m with
             | None => None
             | Some g => let '(y_pre, err) := g (y s) h K1 in
                         Some (err_norm c (y s) y_pre err) end in
  let prerej := match pre with Some e => e >? n1 | None => false end in
  if prerej then
    let e := match pre with Some e => e | None => n0 end in
    (* bogacki.py 270-279, calvo.py 182-191 *)
    Reject (with_trial s (standard_sc s) (max_factor s)
              (if Nat.eqb (nfev_stiff_detect c) 0 then jflstp s else S (jflstp s))
              (S (nfs s)) K1 calls1)
           (h_abs * reject_factor c e)
  else
  let '(K2, calls2) := match m_pre m with
                       | None => (K1, calls1)
                       | Some _ => stages m (fn c) (t s) (y s) h 1 K1 calls1 end in
  let '(y_new, error_norm, K3, calls3) := comp_sol_err m c (t s) (y s) h K2 calls2 in
  if error_norm <? n1 then
    match accept_factor c s (standard_sc s) h error_norm with
    | FactorExn e => TrialExn e
    | Factor fac sc =>
      let fac := if rejected then pymin n1 fac else fac in
      let mf := if fac <? MAX_FACTOR then MAX_FACTOR else max_factor s in
      Accept (with_trial s sc mf (jflstp s) (nfs s) K3 calls3)
             h (h_abs * fac) t_new y_new error_norm
    end
  else
    let bad := nisnan A error_norm || nisinf A error_norm in
    let count := negb (bad && m_nan_first m) in
    let s' := with_trial s (standard_sc s) (max_factor s)
                (if count then S (jflstp s) else jflstp s)
                (if count then S (nfs s) else nfs s) K3 calls3 in
    if bad then Abort s' OVERFLOW
    else Reject s' (h_abs * reject_factor c error_norm).

(** common.py 294-315: after acceptance (f_old is only stored by the base class;
    BS5 and CFMR7osc never read it). *)
Definition finish (m : Meth) (c : Cfg) (s : St) (h h_next t_new : num) (y_new : vec)
           (error_norm : num) : result :=
  let '(K4, calls4) :=
    if m_fsal m then (K s, calls s)
    else ((K s ++ [fn c (t s + h) y_new])%list, (calls s ++ [(t s + h, y_new)])%list) in
  let s' :=
    {| t := t_new; y := y_new; f := nth (m_stages m) K4 []; h_abs := h_next;
       max_factor := max_factor s; standard_sc := standard_sc s;
       h_previous := Some h; y_old := Some (y s); f_old := Some (f s);
       error_norm_old := Some error_norm; K := K4; jflstp := jflstp s; okstp := okstp s;
       havg := havg s; nfs := nfs s; calls := calls4; ucalls := ucalls s;
       notes := notes s |} in
  match diagnose m c s' h (y s) with
  | inl s'' => Done s''
  | inr e => Raise e
  end.

(** common.py 226: the while loop. *)
Fixpoint rk_loop (fuel : nat) (m : Meth) (c : Cfg) (s : St) (h_abs min_step : num)
         (rejected : bool) : result :=
  match fuel with
  | O => OutOfFuel
  | S fuel' =>
    match trial_step m c s h_abs min_step rejected with
    | Abort s' msg => Fail s' msg
    | TrialExn e => Raise e
    | Reject s' h' => rk_loop fuel' m c s' h' min_step true
    | Accept s' h h' t_new y_new en => finish m c s' h h' t_new y_new en
    end
  end.

(** common.py 214-318 [_step_impl] *)
Definition step_impl (fuel : nat) (m : Meth) (c : Cfg) (s : St) : result :=
  let '(h, min_step, sc) := reassess_stepsize c s in
  rk_loop fuel m c (with_trial s sc (max_factor s) (jflstp s) (nfs s) (K s) (calls s))
          h min_step false.

(** scipy.integrate.OdeSolver.step (scipy/integrate/_ivp/base.py), from its
    documentation: status, t_old, and the finished test. *)
Inductive status := Running | Finished | Failed (m : failmsg).

Record Solver := { st : St; stat : status; t_old : option num }.

Inductive step_res := StepOk (s : Solver) | StepExn (e : exn) | StepFuel.

Definition ode_step (fuel : nat) (m : Meth) (c : Cfg) (v : Solver) : step_res :=
  match stat v with
  | Running =>
    if Nat.eqb (length (y (st v))) 0 || (t (st v) =? t_bound c) then
      (* no state variables or the interval is empty *)
      StepOk {| st := {| t := t_bound c; y := y (st v); f := f (st v);
                 h_abs := h_abs (st v); max_factor := max_factor (st v);
                 standard_sc := standard_sc (st v); h_previous := h_previous (st v);
                 y_old := y_old (st v); f_old := f_old (st v);
                 error_norm_old := error_norm_old (st v); K := K (st v);
                 jflstp := jflstp (st v); okstp := okstp (st v); havg := havg (st v);
                 nfs := nfs (st v); calls := calls (st v); ucalls := ucalls (st v);
                 notes := notes (st v) |};
              stat := Finished; t_old := Some (t (st v)) |}
    else
      match step_impl fuel m c (st v) with
      | Done s' =>
        StepOk {| st := s';
                  stat := if nleb A n0 (direction c * (t s' - t_bound c))
                          then Finished else Running;
                  t_old := Some (t (st v)) |}
      | Fail s' msg => StepOk {| st := s'; stat := Failed msg; t_old := t_old v |}
      | Raise e => StepExn e
      | OutOfFuel => StepFuel
      end
  | _ => StepExn (RuntimeError "Attempt to step on a failed or finished solver.")
  end.

(** ** Instances of [Meth] *)

(** Tableau of an explicit RK pair. [rE] has n_stages+1 entries. *)
Record Tab := {
  r_stages : nat;
  r_A : list vec;
  r_B : vec;
  r_C : vec;
  r_E : vec
}.

(** common.py 351-354 [_rk_stage] *)
Definition rk_point (T : Tab) (n : nat) (t : num) (y : vec) (h : num) (K : list vec) (i : nat)
  : num * vec :=
  (t + nth i (r_C T) n0 * h,
   vadd y (vscale h (lincomb n (firstn i (nth i (r_A T) [])) K))).

(** common.py 344 *)
Definition rk_sol (T : Tab) (n : nat) (y : vec) (h : num) (K : list vec) : vec :=
  vadd y (vscale h (lincomb n (r_B T) K)).

(** common.py 333-336 [_estimate_error] *)
Definition rk_err (T : Tab) (n : nat) (h : num) (K : list vec) : vec :=
  vscale h (lincomb n (r_E T) K).

(** class RungeKutta with tableau T; FSAL as in common.py 207 *)
Definition rk_meth (T : Tab) (n : nat) (stab : stab_params) : Meth :=
  {| m_stages := r_stages T; m_dim := n; m_point := rk_point T n; m_sol := rk_sol T n;
     m_err := rk_err T n;
     m_fsal := negb (nth (r_stages T) (r_E T) n0 =? n0);
     m_pre := None; m_nan_first := false; m_stab := stab |}.

(** BS5 (bogacki.py 333-339): pre-estimate from the first 6 stages *)
Definition bs5_meth (T : Tab) (B_scale_pre E_pre : vec) (n : nat) (stab : stab_params) : Meth :=
  {| m_stages := r_stages T; m_dim := n; m_point := rk_point T n; m_sol := rk_sol T n;
     m_err := rk_err T n; m_fsal := negb (nth (r_stages T) (r_E T) n0 =? n0);
     m_pre := Some (fun y h K => (vadd y (vscale h (lincomb n B_scale_pre K)),
                                  vscale h (lincomb n E_pre K)));
     m_nan_first := true; m_stab := stab |}.

(** CFMR7osc (calvo.py 252-260): pre-estimate from the first 8 stages *)
Definition cfmr_meth (T : Tab) (n : nat) (stab : stab_params) : Meth :=
  {| m_stages := r_stages T; m_dim := n; m_point := rk_point T n; m_sol := rk_sol T n;
     m_err := rk_err T n; m_fsal := negb (nth (r_stages T) (r_E T) n0 =? n0);
     m_pre := Some (fun y h K =>
       (vadd y (vscale h (lincomb n (firstn 8 (nth 8 (r_A T) [])) K)),
        vscale h (lincomb n (firstn 8 (r_E T)) K)));
     m_nan_first := false; m_stab := stab |}.

(** Nystrom tableau *)
Record TabN := {
  n_stages : nat;
  n_A : list vec; n_Ap : list vec;
  n_B : vec; n_Bp : vec;
  n_C : vec;
  n_E : vec; n_Ep : vec
}.

(** common.py 1274-1281 [_rk_stage]; h**2 is h*h *)
Definition rkn_point (T : TabN) (n : nat) (t : num) (y : vec) (h : num) (K : list vec) (i : nat)
  : num * vec :=
  let dt := nth i (n_C T) n0 * h in
  let du := vadd (vscale (h * h) (lincomb n (firstn i (nth i (n_A T) [])) K))
                 (vscale dt (skipn n y)) in
  let dv := vscale h (lincomb n (firstn i (nth i (n_Ap T) [])) K) in
  (t + dt, vadd y (du ++ dv)).

(** common.py 1283-1290 *)
Definition rkn_sol (T : TabN) (n : nat) (y : vec) (h : num) (K : list vec) : vec :=
  let du := vadd (vscale (h * h) (lincomb n (n_B T) K)) (vscale h (skipn n y)) in
  let dv := vscale h (lincomb n (n_Bp T) K) in
  vadd y (du ++ dv).

(** common.py 1299-1305 *)
Definition rkn_err (T : TabN) (n : nat) (h : num) (K : list vec) : vec :=
  (vscale (h * h) (lincomb n (n_E T) K) ++ vscale h (lincomb n (n_Ep T) K))%list.

(** class RungeKuttaNystrom; FSAL from E[n_stages] (207) or Ep[-1] (1262-1263) *)
Definition rkn_meth (T : TabN) (n : nat) (stab : stab_params) : Meth :=
  {| m_stages := n_stages T; m_dim := n; m_point := rkn_point T n; m_sol := rkn_sol T n;
     m_err := rkn_err T n;
     m_fsal := negb (nth (n_stages T) (n_E T) n0 =? n0) || negb (last (n_Ep T) n0 =? n0);
     m_pre := None; m_nan_first := false; m_stab := stab |}.

(** driving the solver: repeat step() while it is running *)
Fixpoint run (fuel n : nat) (m : Meth) (c : Cfg) (v : Solver) : step_res :=
  match n with
  | O => StepOk v
  | S n' =>
    match stat v with
    | Running => match ode_step fuel m c v with
                 | StepOk v' => run fuel n' m c v'
                 | e => e
                 end
    | _ => StepOk v
    end
  end.

End RK.
Arguments Meth : clear implicits.
Arguments Cfg : clear implicits.
Arguments St : clear implicits.
Arguments result : clear implicits.
Arguments Solver : clear implicits.
Arguments step_res : clear implicits.
Arguments stab_params : clear implicits.
Arguments Tab : clear implicits.
Arguments TabN : clear implicits.
