(** Model of the stiffness diagnosis of /repo/extensisq/common.py:
    stiff_a (819-1100), stiff_b (1103-1138), stiff_c (1141-1178),
    stiff_d (1181-1208), and the decision/warning part of
    RungeKutta._diagnose_stiffness (370-521) and
    RungeKuttaNystrom._diagnose_stiffness (1314-1490).

    Real dtype only (the complex expansion of lines 900-908 is not modelled).
    Each function also returns the list of points where fun was evaluated. *)
From Coq Require Import String ZArith QArith Bool List.
From Verif Require Import Arith Common.
Import ListNotations.

Section Stiff.
Context {A : Arith}.
Notation num := (num A).
Notation vec := (list num).
Local Open Scope num_scope.

(** a complex number as the code's list [re, im] *)
Definition croot := (num * num)%type.

(** (v/wt) @ (w/wt) *)
Definition wdot (wt v w : vec) : num := ndot (vdiv v wt) (vdiv w wt).

Definition sq (x : num) : num := x * x.

(** common.py 1181-1208 [stiff_d]; returns z, zdotz and the evaluation point *)
Definition stiff_d (fn : num -> vec -> vec) (v : vec) (havg x : num) (y fxy wt : vec)
           (scale vdotv : num) : vec * num * (num * vec) :=
  let temp1 := scale / nsqrt A vdotv in
  let p := vadd y (vscale temp1 v) in
  let z := vscale (havg / temp1) (vsub (fn x p) fxy) in
  (z, wdot wt z z, (x, p)).

(** common.py 1103-1138 [stiff_b]; returns rold, rho, root1, root2, rootre *)
Definition stiff_b (v1v1 v0v1 v0v0 rold : num) : num * num * croot * croot * bool :=
  let r := v0v1 / v0v0 in
  let rho := nabs A r in
  let det := v0v0 * v1v1 - sq v0v1 in
  let res := nabs A (det / v0v0) in
  let rootre := (det =? n0) ||
                ((res <=? lit (1#1000000) * v1v1)
                   && (nabs A (r - rold) <=? lit (1#1000) * rho)) in
  (r, rho, (if rootre then r else n0, n0), (n0, n0), rootre).

(** common.py 1141-1178 [stiff_c] *)
Definition stiff_c (alpha beta : num) : croot * croot :=
  let temp := alpha / n2 in
  let disc := sq temp - beta in
  if disc =? n0 then ((- temp, n0), (- temp, n0)) else
  let sqdisc := nsqrt A (nabs A disc) in
  if disc <? n0 then ((- temp, sqdisc), (- temp, - sqdisc)) else
  let r1 := if temp >? n0 then - temp - sqdisc else - temp + sqdisc in
  ((r1, n0), (beta / r1, n0)).

Record stiff_res := {
  stif : option bool;                       (* None = unsure *)
  rootre : option bool;
  roots : option (croot * croot * num)
}.

Definition unsure : stiff_res := {| stif := None; rootre := None; roots := None |}.
Definition notstiff : stiff_res := {| stif := Some false; rootre := None; roots := None |}.

(** The power iteration, common.py 976-1091: the [for ntry in range(8)] loop.
    [k] counts the remaining tries, [first] is [ntry == 0]. *)
Fixpoint stiff_loop (fn : num -> vec -> vec) (k : nat) (first : bool) (havg x : num)
         (y fxy wt : vec) (scale : num) (v0 : vec) (v0v0 rold : num)
         (calls : list (num * vec)) : stiff_res * list (num * vec) :=
  match k with
  | O => (unsure, calls)                            (* 1082-1087 no convergence *)
  | S k' =>
    let '(v1, v1v1, c1) := stiff_d fn v0 havg x y fxy wt scale v0v0 in
    let calls := (calls ++ [c1])%list in
    if nsqrt A v1v1 >? lit 10000000000 * nsqrt A v0v0 then (unsure, calls) else
    let v0v1 := wdot wt v0 v1 in
    let chk :=                                       (* 994-1012 *)
      if first then
        let r0 := v0v1 / v0v0 in
        if nabs A r0 <? npow A (n_epsneg A) (lit (1#3)) then inl notstiff
        else inr (r0, None)
      else
        let '(r, rho, root1, root2, re) := stiff_b v1v1 v0v1 v0v0 rold in
        if re then inl {| stif := None; rootre := Some true;
                          roots := Some (root1, root2, rho) |}
        else inr (r, Some re) in
    match chk with
    | inl res => (res, calls)
    | inr (rold, _) =>
      let '(v2, v2v2, c2) := stiff_d fn v1 havg x y fxy wt scale v1v1 in
      let calls := (calls ++ [c2])%list in
      let v0v2 := wdot wt v0 v2 in
      let v1v2 := wdot wt v1 v2 in
      let '(rold, rho, root1, root2, re) := stiff_b v2v2 v1v2 v1v1 rold in
      if re then ({| stif := None; rootre := Some true;
                     roots := Some (root1, root2, rho) |}, calls) else
      let det1 := v0v0 * v1v1 - sq v0v1 in
      let alpha1 := (- v0v0 * v1v2 + v0v1 * v0v2) / det1 in
      let beta1 := (v0v1 * v1v2 - v1v1 * v0v2) / det1 in
      let '(v3, v3v3, c3) := stiff_d fn v2 havg x y fxy wt scale v2v2 in
      let calls := (calls ++ [c3])%list in
      let v1v3 := wdot wt v1 v3 in
      let v2v3 := wdot wt v2 v3 in
      let '(rold, rho, root1, root2, re) := stiff_b v3v3 v2v3 v2v2 rold in
      if re then ({| stif := None; rootre := Some true;
                     roots := Some (root1, root2, rho) |}, calls) else
      let det2 := v1v1 * v2v2 - sq v1v2 in
      let alpha2 := (- v1v1 * v2v3 + v1v2 * v1v3) / det2 in
      let beta2 := (v1v2 * v2v3 - v2v2 * v1v3) / det2 in
      let res2 := nabs A (v3v3 + v2v2 * sq alpha2 + v1v1 * sq beta2
                          + n2 * v2v3 * alpha2 + n2 * v1v3 * beta2
                          + n2 * v1v2 * alpha2 * beta2) in
      let conv :=
        if res2 <=? lit (1#1000000) * v3v3 then
          let '(r1, r2) := stiff_c alpha1 beta1 in
          let '(root1, root2) := stiff_c alpha2 beta2 in
          let rho := nsqrt A (sq (fst root1) + sq (snd root1)) in
          let D1 := sq (fst root1 - fst r1) + sq (snd root1 - snd r1) in
          let D2 := sq (fst root1 - fst r2) + sq (snd root1 - snd r2) in
          if nsqrt A (pymin D1 D2) <=? lit (1#1000) * rho
          then Some (root1, root2, rho) else None
        else None in
      match conv with
      | Some rt => ({| stif := None; rootre := Some re; roots := Some rt |}, calls)
      | None =>
        let v3nrm := nsqrt A v3v3 in
        stiff_loop fn k' false havg x y fxy wt scale
                   (map (fun u => u / v3nrm) v3) n1 rold calls
      end
    end
  end.

(** common.py 819-1100 [stiff_a] *)
Definition stiff_a (fn : num -> vec -> vec) (x : num) (y : vec) (hnow havg xend : num)
           (maxfcn : nat) (wt fxy v0 : vec) (cost : nat)
  : stiff_res * list (num * vec) :=
  let r := nabs A (hnow / havg) in
  if (r >? lit 5) || (r <? lit (1#5)) then (notstiff, []) else
  let xtrfcn := nofnat cost * nabs A ((xend - x) / havg) in
  if xtrfcn <=? nofnat maxfcn then (notstiff, []) else
  let sqrrmc := nsqrt A (n_epsneg A) in
  let scale0 := nsqrt A (wdot wt y y) * sqrrmc in
  let scale := if scale0 =? n0 then nsqrt A (wdot wt v0 v0) * sqrrmc else scale0 in
  if scale =? n0 then (unsure, []) else
  let v0' := if wdot wt v0 v0 =? n0 then map (fun _ => n1) v0 else v0 in
  let v0nrm := nsqrt A (wdot wt v0' v0') in
  stiff_loop fn 8 true havg x y fxy wt scale (map (fun u => u / v0nrm) v0') n1 n0 [].

(** Messages: warnings (visible to the user) and log entries. *)
Inductive note :=
| WarnOscillatory        (* 'complex pair of dominant roots near the imaginary axis' *)
| WarnStiffReal
| WarnStiffComplex
| WarnStiffComplexRe | WarnStiffComplexIm   (* Nystrom variants *)
| LogNotConverged | LogNearImag | LogImpossible
| LogNotStiffNoIter | LogNotStiffReal | LogNotStiffComplex.

Definition is_warning (w : note) : bool :=
  match w with
  | WarnOscillatory | WarnStiffReal | WarnStiffComplex
  | WarnStiffComplexRe | WarnStiffComplexIm => true
  | _ => false
  end.

(** common.py 428-457: decide from the roots (explicit RK: circular arc). *)
Definition decide_rk (stbrad tanang : num) (r : stiff_res) : option bool * option bool :=
  match roots r with
  | None => (stif r, rootre r)
  | Some (root1, root2, rho) =>
    let re := snd root1 =? n0 in
    if fst root1 >? n0 then (Some false, Some re) else
    let rho2 := nsqrt A (sq (fst root2) + sq (snd root2)) in
    if (rho2 >=? lit (9#10) * rho) && (fst root2 >? n0) then (Some false, Some re) else
    if nabs A (snd root1) >? nabs A (fst root1) * tanang then (None, Some re) else
    (Some (rho >=? lit (9#10) * stbrad), Some re)
  end.

(** common.py 1396-1426: the Nystrom variant (rectangular stability region). *)
Definition decide_rkn (stbre stbim tanang : num) (r : stiff_res) : option bool * option bool :=
  match roots r with
  | None => (stif r, rootre r)
  | Some (root1, root2, rho) =>
    let re := snd root1 =? n0 in
    if fst root1 >? n0 then (Some false, Some re) else
    let rho2 := nsqrt A (sq (fst root2) + sq (snd root2)) in
    if (rho2 >=? lit (9#10) * rho) && (fst root2 >? n0) then (Some false, Some re) else
    if nabs A (snd root1) >? nabs A (fst root1) * tanang then (None, Some re) else
    (Some ((nabs A (fst root1) >=? lit (85#100) * stbre)
           || (nabs A (snd root1) >=? lit (9#10) * stbim)), Some re)
  end.

(** The common part of the message selection for stif = None / False
    (common.py 462-486 and 505-521; note that line 467 is [if], not [elif]). *)
Definition notes_unsure (lotsfl : bool) (re : option bool) : list note :=
  (match re with None => [LogNotConverged] | Some _ => [] end) ++
  (match re with
   | None | Some false => if lotsfl then [WarnOscillatory] else [LogNearImag]
   | Some true => [LogImpossible]
   end).

Definition notes_notstiff (re : option bool) : list note :=
  match re with
  | None => [LogNotStiffNoIter]
  | Some true => [LogNotStiffReal]
  | Some false => [LogNotStiffComplex]
  end.

(** common.py 459-521 *)
Definition notes_rk (lotsfl : bool) (d : option bool * option bool) : list note :=
  match fst d with
  | None => notes_unsure lotsfl (snd d)
  | Some true => match snd d with
                 | None => [LogImpossible]
                 | Some true => [WarnStiffReal]
                 | Some false => [WarnStiffComplex] end
  | Some false => notes_notstiff (snd d)
  end.

(** common.py 1428-1490 *)
Definition notes_rkn (stbre stbim : num) (lotsfl : bool) (r : stiff_res)
           (d : option bool * option bool) : list note :=
  match fst d with
  | None => notes_unsure lotsfl (snd d)
  | Some true =>
    match snd d with
    | None => [LogImpossible]
    | Some true => [WarnStiffReal]
    | Some false =>
      match roots r with
      | None => [LogImpossible]       (* root1 unbound; unreachable, see theorem *)
      | Some (root1, _, _) =>
        if nabs A (fst root1) >=? lit (9#10) * stbre then [WarnStiffComplexRe]
        else if nabs A (snd root1) >=? lit (9#10) * stbim then [WarnStiffComplexIm]
        else [LogImpossible]
      end
    end
  | Some false => notes_notstiff (snd d)
  end.

End Stiff.
