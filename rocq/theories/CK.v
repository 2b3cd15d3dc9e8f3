(** Model of the variable order method CKdisc, cash.py 115-416.  Its constants are
    the tables CKdisc_* of Tableaux.v (generated from the source). *)
From Coq Require Import String ZArith QArith Bool List.
From Verif Require Import Arith Common Stiff RK HStart RKInit Tableaux Classes Dense Ode.
Import ListNotations.

Section CK.
Context {A : Arith}.
Notation num := (num A).
Notation vec := (list num).
Local Open Scope num_scope.

(** cash.py 6 *)
Definition CK_SAFETY : num := lit (9#10).

Definition CKdisc_tab : Tab A := mk_tab CKdisc_n_stages CKdisc_A CKdisc_B CKdisc_C CKdisc_E.
(** stbrad and tanang are not given: no stiffness detection (147-157) *)
Definition CKdisc_meth (n : nat) : Meth A := rk_meth CKdisc_tab n NoStab.
Definition CKdisc_cls : Cls A := {| k_order := CKdisc_order; k_order2 := CKdisc_order_secondary;
  k_C := lv CKdisc_C; k_sc := ScName "standard"; k_stab := NoStab |}.

(** the solver state: that of RungeKutta plus twiddle, quit and order_accepted
    (0 before the first accepted step: the attribute does not exist then) *)
Record CKst := mkCK {
  ckb : St A;
  tw0 : num; tw1 : num;
  qt0 : num; qt1 : num;
  ckord : nat
}.

(** cash.py 247-252: __init__ passes nfev_stiff_detect=0 *)
Definition ck_init (o : Opts A) (fun_ : num -> vec -> vec) (t0 : num) (y0 : vec) (tb : num)
  : (Cfg A * CKst) + exn :=
  let o' := {| o_max_step := o_max_step o; o_rtol := o_rtol o;
               o_rtol_is_float := o_rtol_is_float o; o_atol := o_atol o;
               o_first_step := o_first_step o; o_stiff := 0; o_sc := o_sc o |} in
  match rk_init CKdisc_cls o' fun_ t0 y0 tb with
  | inr e => inr e
  | inl (c, s) => inl (c, mkCK s (lit (3#2)) (lit (11#10)) (lit 100) (lit 100) 0)
  end.

(** cash.py 386-395: first i stages; solution *)
Definition ck_sol (B : vec) (i : nat) (y : vec) (h : num) (K : list vec) : vec :=
  vadd (vscale h (lincomb (length y) (firstn i B) (firstn i K))) y.
Definition ck_err (E : vec) (i : nat) (n : nat) (h : num) (K : list vec) : vec :=
  vscale h (lincomb n (firstn i E) (firstn i K)).
(** the solution and norm(err/tol) *)
Definition ck_cand (c : Cfg A) (B E : vec) (i : nat) (y : vec) (h : num) (K : list vec) : vec * num :=
  let sol := ck_sol B i y h K in
  (sol, err_norm c y sol (ck_err E i (length y) h K)).

Definition row (i : nat) (M : list (list Q)) : vec := lv (nth i M []).
Definition entry (i : nat) (M : list Q) : num := lit (nth i M 0%Q).

(** cash.py 317-323 *)
Definition ck_quit (q quit : num) : num :=
  let q' := if q >? quit then pymin q (lit 10 * quit) else pymax q (lit (2#3) * quit) in
  pymax n1 (pymin (lit 10000) q').
(** cash.py 333-336 *)
Definition ck_twiddle (e quit tw : num) : num :=
  let EQ := e / quit in if EQ <? tw then pymax (lit (11#10)) EQ else tw.

(** the state during the loop: K, calls and NFS change, and the factors *)
Definition ck_with (s : CKst) (nf : nat) (K' : list vec) (cl : list (num * vec)) (a0 a1 b0 b1 : num) : CKst :=
  let s0 := ckb s in
  mkCK (with_trial s0 (standard_sc s0) (max_factor s0) (jflstp s0) nf K' cl) a0 a1 b0 b1 (ckord s).

Inductive ck_trial_res :=
| CkAbort (s : CKst) (msg : string)
| CkReject (s : CKst) (h_next : num)
| CkAccept (s : CKst) (ord : nat) (h h_next : num) (y_new : vec).

Definition ck_too_small : string := "Required step size is less than spacing between numbers.".
Definition ck_overflow : string := "Overflow or underflow encountered.".

(** cash.py 268-374: the body of the while loop *)
Definition ck_trial (c : Cfg A) (s : CKst) (ha min_step : num) (rejected : bool) : ck_trial_res :=
  if ha <? min_step then CkAbort s ck_too_small else
  let s0 := ckb s in
  let h := ha * direction c in
  let y0 := y s0 in
  let m := CKdisc_meth (length y0) in
  let '(K1, cl1) := stages m (fn c) (t s0) y0 h 1 [f s0] (calls s0) in
  let E1 := npow A (snd (ck_cand c (row 0 CKdisc_B_assess) (row 0 CKdisc_E_assess) 2 y0 h K1)) (lit (1#2)) in
  (* 371-374, with the esttol of the stage reached *)
  let again s' esttol := CkReject s' (ha * pymax (lit CKdisc_min_factor) (CK_SAFETY / esttol)) in
  if E1 <? tw0 s * qt0 s then
    let '(K2, cl2) := stages m (fn c) (t s0) y0 h 2 K1 cl1 in
    let E2 := npow A (snd (ck_cand c (row 1 CKdisc_B_assess) (row 1 CKdisc_E_assess) 4 y0 h K2)) (lit (1#3)) in
    (* 352-369; [esttol] is used when E1 >= 1 *)
    let low K' cl' a0 a1 esttol :=
      if E1 <? n1 then
        let '(y_new, en) := ck_cand c (row 0 CKdisc_B_fallback) (row 0 CKdisc_E_fallback) 2 y0 h K' in
        let ha' := ha * entry 0 CKdisc_C_fallback in
        if en <? n1 then
          CkAccept (ck_with s (nfs s0) K' cl' a0 a1 (qt0 s) (qt1 s)) 1 (ha' * direction c) ha' y_new
        else CkReject (ck_with s (S (nfs s0)) K' cl' a0 a1 (qt0 s) (qt1 s)) ha'
      else again (ck_with s (S (nfs s0)) K' cl' a0 a1 (qt0 s) (qt1 s)) esttol in
    if E2 <? tw1 s * qt1 s then
      let '(K3, cl3) := stages m (fn c) (t s0) y0 h 2 K2 cl2 in
      let '(y_new, en) := ck_cand c (lv CKdisc_B) (lv CKdisc_E) 6 y0 h K3 in
      let E4 := npow A en (lit (1#5)) in
      let E4 := if E4 =? n0 then lit (1 # (10^160)) else E4 in
      if E4 <? n1 then
        let factor := pymin (lit CKdisc_max_factor) (CK_SAFETY / E4) in
        let factor := if rejected then pymin n1 factor else factor in
        CkAccept (ck_with s (nfs s0) K3 cl3 (tw0 s) (tw1 s)
                    (ck_quit (E1 / E4) (qt0 s)) (ck_quit (E2 / E4) (qt1 s)))
                 4 h (ha * factor) y_new
      else if nisnan A E4 || nisinf A E4 then
        CkAbort (ck_with s (nfs s0) K3 cl3 (tw0 s) (tw1 s) (qt0 s) (qt1 s)) ck_overflow
      else
        let a0 := ck_twiddle E1 (qt0 s) (tw0 s) in
        let a1 := ck_twiddle E2 (qt1 s) (tw1 s) in
        let '(y3, en3) := ck_cand c (row 1 CKdisc_B_fallback) (row 1 CKdisc_E_fallback) 4 y0 h K3 in
        if (E2 <? n1) && (en3 <? n1) then
          let ha' := ha * entry 1 CKdisc_C_fallback in
          CkAccept (ck_with s (nfs s0) K3 cl3 a0 a1 (qt0 s) (qt1 s)) 2 (ha' * direction c) ha' y3
        else low K3 cl3 a0 a1 E4
    else low K2 cl2 (tw0 s) (tw1 s) (E2 / qt1 s)
  else again (ck_with s (S (nfs s0)) K1 cl1 (tw0 s) (tw1 s) (qt0 s) (qt1 s)) (E1 / qt0 s).

(** cash.py 376-393.  In the code f_new is written to the last row of a
    preallocated K; here it is appended, so it is the last row as well (rows
    between are not read by the dense output when the order accepted is low). *)
Definition ck_finish (c : Cfg A) (s : CKst) (ord : nat) (h ha' : num) (y_new : vec) : CKst :=
  let s0 := ckb s in
  let t_new := t s0 + h in
  let f_new := fn c t_new y_new in
  mkCK {| t := t_new; y := y_new; f := f_new; h_abs := ha';
          max_factor := max_factor s0; standard_sc := standard_sc s0; h_previous := Some h;
          y_old := Some (y s0); f_old := f_old s0; error_norm_old := error_norm_old s0;
          K := (K s0 ++ [f_new])%list; jflstp := jflstp s0; okstp := okstp s0; havg := havg s0;
          nfs := nfs s0; calls := (calls s0 ++ [(t_new, y_new)])%list; ucalls := ucalls s0;
          notes := notes s0 |} (tw0 s) (tw1 s) (qt0 s) (qt1 s) ord.

Fixpoint ck_loop (fuel : nat) (c : Cfg A) (s : CKst) (ha min_step : num) (rejected : bool) : impl_res CKst :=
  match fuel with
  | O => IFuel
  | S k =>
    match ck_trial c s ha min_step rejected with
    | CkAbort s' msg => IFail s' msg
    | CkReject s' ha' => ck_loop k c s' ha' min_step true
    | CkAccept s' ord h ha' y_new => IDone (ck_finish c s' ord h ha' y_new)
    end
  end.

(** cash.py 254-266: _reassess_stepsize also sets standard_sc (308-331) *)
Definition ck_step_impl (fuel : nat) (c : Cfg A) (s : CKst) : impl_res CKst :=
  let s0 := ckb s in
  let '(h, min_step, sc) := reassess_stepsize c s0 in
  ck_loop fuel c (mkCK (with_trial s0 sc (max_factor s0) (jflstp s0) (nfs s0) (K s0) (calls s0))
                       (tw0 s) (tw1 s) (qt0 s) (qt1 s) (ckord s)) h min_step false.

Definition ck_set_t (s : CKst) (x : num) : CKst :=
  let s0 := ckb s in
  mkCK {| t := x; y := y s0; f := f s0; h_abs := h_abs s0;
          max_factor := max_factor s0; standard_sc := standard_sc s0; h_previous := h_previous s0;
          y_old := y_old s0; f_old := f_old s0; error_norm_old := error_norm_old s0;
          K := K s0; jflstp := jflstp s0; okstp := okstp s0; havg := havg s0;
          nfs := nfs s0; calls := calls s0; ucalls := ucalls s0;
          notes := notes s0 |} (tw0 s) (tw1 s) (qt0 s) (qt1 s) (ckord s).

Definition ck_view : View A CKst :=
  {| v_t := fun s => t (ckb s); v_set_t := ck_set_t; v_n := fun s => length (y (ckb s)) |}.

(** cash.py 405-416 *)
Definition ck_dense (to : num) (s : CKst) : option (dense A) :=
  match y_old (ckb s) with
  | None => None
  | Some yo =>
    Some (if Nat.eqb (ckord s) 4
          then mk_horner to (t (ckb s)) yo (KtP (length (y (ckb s))) (K (ckb s)) (lm CKdisc_P))
          else mk_cubic to (t (ckb s)) yo (y (ckb s)) (nth 0 (K (ckb s)) []) (last (K (ckb s)) []))
  end.

End CK.
Arguments CKst : clear implicits.
Arguments ck_trial_res : clear implicits.
