(** Model of the dense outputs: common.py 766-818 (HornerDenseOutput,
    CubicDenseOutput), 1489-1582 (HornerDenseOutputNystrom,
    QuinticHermiteDenseOutput), the _dense_output_impl methods of RungeKutta
    (358-368), RungeKuttaNystrom (1312-1321), BS5 (bogacki.py 348-393), Fi5N
    (fine.py 381-414), Mu5Nmb (murua.py 228-246), and OdeSolver.dense_output of scipy. *)
From Coq Require Import String ZArith QArith Bool List.
From Verif Require Import Arith Common RK Tableaux Classes.
Import ListNotations.

Section Dense.
Context {A : Arith}.
Notation num := (num A).
Notation vec := (list num).
Local Open Scope num_scope.

Inductive dense :=
| DConst (t_old t : num) (y : vec)                              (* scipy ConstantDenseOutput *)
| DHorner (t_old t h : num) (y_old : vec) (Q : list vec)        (* Q.T, already times h *)
| DCubic (t_old t h : num) (y_old y f_old f : vec)
| DNystrom (t_old t h : num) (n : nat) (y_old : vec) (Q Qp : list vec)
| DQuintic (t_old t h : num) (n : nat) (y_old y f_old f : vec).

(** attributes t_old and t of the DenseOutput (t_min, t_max are derived from them) *)
Definition d_interval (d : dense) : num * num :=
  match d with
  | DConst a b _ | DHorner a b _ _ _ | DCubic a b _ _ _ _ _ | DNystrom a b _ _ _ _ _
  | DQuintic a b _ _ _ _ _ _ => (a, b) end.

(** common.py 779-783: y = Q[-1] * x; for q in reversed(Q[:-1]): y += q; y *= x *)
Definition horner (rows : list vec) (x : num) : vec :=
  match rev rows with
  | [] => []                                           (* numpy: IndexError *)
  | q :: qs => fold_left (fun acc q => map (fun a => a * x) (vadd acc q)) qs (map (fun a => a * x) q)
  end.
(** common.py 1563-1566: x = Q[-1]; for q in reversed(Q[:-1]): x *= xi; x += q *)
Definition horner0 (rows : list vec) (x : num) : vec :=
  match rev rows with
  | [] => []
  | q :: qs => fold_left (fun acc q => vadd (map (fun a => a * x) acc) q) qs q
  end.

(** columns of P *)
Definition column (j : nat) (P : list vec) : vec := map (fun row => nth j row n0) P.
Definition ncols (P : list vec) : nat := match P with [] => 0%nat | r :: _ => length r end.
(** rows of (K.T @ P).T: sum_i P_ij K_i *)
Definition KtP (n : nat) (K P : list vec) : list vec :=
  map (fun j => lincomb n (column j P) K) (seq 0 (ncols P)).

(** common.py 769-773 HornerDenseOutput.__init__; self.h = t - t_old *)
Definition mk_horner (t_old t : num) (y_old : vec) (Q : list vec) : dense :=
  let h := t - t_old in DHorner t_old t h y_old (map (vscale h) Q).
(** common.py 796-803 *)
Definition mk_cubic (t_old t : num) (y_old y f_old f : vec) : dense :=
  DCubic t_old t (t - t_old) y_old y f_old f.
(** common.py 1492-1498 *)
Definition mk_nystrom (t_old t : num) (n : nat) (y_old : vec) (Q Qp : list vec) : dense :=
  let h := t - t_old in DNystrom t_old t h n y_old (map (vscale (h * h)) Q) (map (vscale h) Qp).
(** common.py 1541-1551 *)
Definition mk_quintic (t_old t : num) (n : nat) (y_old y f_old f : vec) : dense :=
  DQuintic t_old t (t - t_old) n y_old y f_old f.

(** the _call_impl methods, for a scalar argument (an array argument is handled
    elementwise by numpy broadcasting) *)
Definition call (d : dense) (t : num) : vec :=
  match d with
  | DConst _ _ y => y
  | DHorner t_old _ h y_old Q =>                       (* common.py 775-790 *)
    let x := (t - t_old) / h in vadd (horner Q x) y_old
  | DCubic t_old _ h y_old y f_old f =>                (* common.py 805-818 *)
    let x := (t - t_old) / h in
    let sq := fun a : num => a * a in
    let h00 := (n1 + n2 * x) * sq (n1 - x) in
    let h10 := x * sq (n1 - x) * h in
    let h01 := sq x * (lit 3 - n2 * x) in
    let h11 := sq x * (x - n1) * h in
    vadd (vadd (vadd (vscale h00 y_old) (vscale h10 f_old)) (vscale h01 y)) (vscale h11 f)
  | DNystrom t_old _ h n y_old Q Qp =>                 (* common.py 1500-1525 *)
    let x := (t - t_old) / h in
    let v := vadd (horner Qp x) (skipn n y_old) in
    let u := vadd (horner Q x) (vscale h (skipn n y_old)) in
    (vadd (map (fun a => a * x) u) (firstn n y_old) ++ v)%list
  | DQuintic t_old _ h n y_old y f_old f =>            (* common.py 1553-1575 *)
    let x := (t - t_old) / h in
    let xo := firstn n y_old in let vo := skipn n y_old in
    let xn := firstn n y in let vn := skipn n y in
    let P := lm QuinticHermiteDenseOutput_P in
    let Pp := lm QuinticHermiteDenseOutput_Pp in
    let Q := KtP n [xo; vscale h vo; vscale (h * h) f_old; xn; vscale h vn; vscale (h * h) f] P in
    let Qp := KtP n [map (fun a => a / h) xo; vo; vscale h f_old; map (fun a => a / h) xn; vn; vscale h f] Pp in
    (horner0 Q x ++ horner0 Qp x)%list
  end.

(** ** dense_output *)
Inductive dense_res := DenseOk (d : dense) (s : St A) | DenseExn (e : exn).
(** a method's _dense_output_impl: from t_old and the state; it may evaluate fun
    (appending to calls) and may change the state *)
Definition dimpl := Cfg A -> num -> St A -> option (dense * St A).

(** scipy OdeSolver.dense_output *)
Definition dense_output (impl : dimpl) (c : Cfg A) (v : Solver A) : dense_res :=
  match t_old v with
  | None => DenseExn (RuntimeError "Dense output is available after a successful step was made.")
  | Some to =>
    if Nat.eqb (length (y (st v))) 0 || (t (st v) =? to) then DenseOk (DConst to (t (st v)) (y (st v))) (st v)
    else match impl c to (st v) with
         | Some (d, s) => DenseOk d s
         | None => DenseExn (AttributeError "y_old")
         end
  end.

Definition with_calls (s : St A) (K' : list vec) (cl : list (num * vec)) (y' : vec) : St A :=
  {| t := t s; y := y'; f := f s; h_abs := h_abs s; max_factor := max_factor s;
     standard_sc := standard_sc s; h_previous := h_previous s; y_old := y_old s; f_old := f_old s;
     error_norm_old := error_norm_old s; K := K'; jflstp := jflstp s; okstp := okstp s;
     havg := havg s; nfs := nfs s; calls := cl; ucalls := ucalls s; notes := notes s |}.

(** common.py 358-364, P implemented *)
Definition dense_rk (n : nat) (P : list vec) : dimpl := fun _ to s =>
  match y_old s with
  | Some yo => Some (mk_horner to (t s) yo (KtP n (K s) P), s)
  | None => None end.
(** common.py 366-368, no interpolant *)
Definition dense_cubic : dimpl := fun _ to s =>
  match y_old s, f_old s with
  | Some yo, Some fo => Some (mk_cubic to (t s) yo (y s) fo (f s), s)
  | _, _ => None end.
(** common.py 1312-1318 *)
Definition dense_rkn (n : nat) (P Pp : list vec) : dimpl := fun _ to s =>
  match y_old s with
  | Some yo => Some (mk_nystrom to (t s) n yo (KtP n (K s) P) (KtP n (K s) Pp), s)
  | None => None end.
(** common.py 1320-1321 *)
Definition dense_quintic (n : nat) : dimpl := fun _ to s =>
  match y_old s, f_old s with
  | Some yo, Some fo => Some (mk_quintic to (t s) n yo (y s) fo (f s), s)
  | _, _ => None end.

(** extra stages, bogacki.py 357-359 and 365-368: row a, node c; K_extended is the
    list K, longer by one at each stage *)
Fixpoint extra_stages (g : num -> vec -> vec) (n : nat) (to : num) (yo : vec) (h : num)
         (rows : list vec) (cs : vec) (K : list vec) (cl : list (num * vec)) : list vec * list (num * vec) :=
  match rows, cs with
  | a :: rows', c :: cs' =>
    let p := (to + c * h, vadd yo (map (fun x => x * h) (lincomb n (firstn (length K) a) K))) in
    extra_stages g n to yo h rows' cs' (K ++ [g (fst p) (snd p)]) (cl ++ [p])
  | _, _ => (K, cl)
  end.

(** bogacki.py 356-361 'low' *)
Definition dense_bs5_low (n : nat) : dimpl := fun c to s =>
  match y_old s, h_previous s with
  | Some yo, Some h =>
    let '(K', cl) := extra_stages (fn c) n to yo h (firstn 1 (lm BS5_A_extra)) (firstn 1 (lv BS5_C_extra)) (K s) (calls s) in
    Some (mk_horner to (t s) yo (KtP n K' (lm BS5_Plow)), with_calls s (K s) cl (y s))
  | _, _ => None end.
(** bogacki.py 373-388: the column sums of Pbest with the terms in the order of the
    source (the nesting of the additions is not kept: left to right) *)
Definition vsum_idx (n : nat) (KP : list vec) (idx : list nat) : vec :=
  fold_left (fun acc i => vadd acc (nth i KP [])) idx (repeat n0 n).
Definition bs5_order (j : nat) : list nat :=
  match j with
  | 1 => [4;5;7;0;2;8;9;3;10;6]
  | 2 => [4;5;2;8;9;7;0;3;10;6]
  | 3 => [3;7;6;5;4;9;8;2;10;0]
  | 4 => [9;8;6;5;4;3;7;2;10;0]
  | _ => [4;9;7;6;5;3;8;2;10;0]
  end%nat.
Definition bs5_best_Q (n : nat) (K : list vec) : list vec :=
  nth 7 K [] :: map (fun j => vsum_idx n (map2 vscale (column j (lm BS5_Pbest)) K) (bs5_order j)) [1;2;3;4;5]%nat.
(** bogacki.py 363-393 'best': the polynomial is in (t - t_new)/h and the object is
    labelled with the interval [t, t + h] *)
Definition dense_bs5_best (n : nat) : dimpl := fun c to s =>
  match y_old s, h_previous s with
  | Some yo, Some h =>
    let '(K', cl) := extra_stages (fn c) n to yo h (lm BS5_A_extra) (lv BS5_C_extra) (K s) (calls s) in
    Some (mk_horner (t s) (t s + h) (y s) (bs5_best_Q n K'), with_calls s (K s) cl (y s))
  | _, _ => None end.
Inductive bs5_interp := Best | Low | Free.
Definition dense_bs5 (i : bs5_interp) (n : nat) : dimpl :=
  match i with Best => dense_bs5_best n | Low => dense_bs5_low n | Free => dense_rk n (lm BS5_P) end.

(** Nystrom extra stages, fine.py 399-405, murua.py 236-242 *)
Fixpoint extra_stages_n (g : num -> vec -> vec) (n : nat) (to : num) (yo : vec) (h : num)
         (rows rows' : list vec) (cs : vec) (K : list vec) (cl : list (num * vec)) : list vec * list (num * vec) :=
  match rows, rows', cs with
  | a :: ra, ap :: rap, c :: cs' =>
    let dt := c * h in
    let du := vadd (map (fun x => x * (h * h)) (lincomb n (firstn (length K) a) K)) (vscale dt (skipn n yo)) in
    let dv := map (fun x => x * h) (lincomb n (firstn (length K) ap) K) in
    let p := (to + dt, vadd yo (du ++ dv)) in
    extra_stages_n g n to yo h ra rap cs' (K ++ [g (fst p) (snd p)]) (cl ++ [p])
  | _, _, _ => (K, cl)
  end.

Definition fi5n_extra (i : nat) : list (list Q) * list (list Q) * list Q * list (list Q) * list (list Q) :=
  match i with
  | 1%nat => (Fi5N_A_extra1, Fi5N_Ap_extra1, Fi5N_C_extra1, Fi5N_P1, Fi5N_Pp1)
  | 2%nat => (Fi5N_A_extra2, Fi5N_Ap_extra2, Fi5N_C_extra2, Fi5N_P2, Fi5N_Pp2)
  | _ => (Fi5N_A_extra3, Fi5N_Ap_extra3, Fi5N_C_extra3, Fi5N_P3, Fi5N_Pp3)
  end.
(** fine.py 381-414; interpolant 0: quintic *)
Definition dense_fi5n (i : nat) (n : nat) : dimpl :=
  match i with
  | O => dense_quintic n
  | _ => fun c to s =>
    match y_old s, h_previous s with
    | Some yo, Some h =>
      let '(xa, xap, xc, P, Pp) := fi5n_extra i in
      let '(K', cl) := extra_stages_n (fn c) n to yo h (lm xa) (lm xap) (lv xc) (K s) (calls s) in
      let ynew := if Nat.eqb i 1 then
          let du := vadd (vscale (h * h) (lincomb n (lv Fi5N_Bi) K')) (vscale h (skipn n yo)) in
          (vadd (firstn n yo) du ++ skipn n (y s))%list
        else y s in
      Some (mk_nystrom to (t s) n yo (KtP n K' (lm P)) (KtP n K' (lm Pp)), with_calls s (K s) cl ynew)
    | _, _ => None end
  end.
(** murua.py 228-246 *)
Definition dense_mu5 (free : bool) (n : nat) : dimpl :=
  if free then dense_quintic n else fun c to s =>
    match y_old s, h_previous s with
    | Some yo, Some h =>
      let '(K', cl) := extra_stages_n (fn c) n to yo h [lv Mu5Nmb_A_extra] [lv Mu5Nmb_Ap_extra] [lit Mu5Nmb_C_extra] (K s) (calls s) in
      Some (mk_nystrom to (t s) n yo (KtP n K' (lm Mu5Nmb_P_better)) (KtP n K' (lm Mu5Nmb_Pp_better)), with_calls s (K s) cl (y s))
    | _, _ => None end.
End Dense.
Arguments dense : clear implicits.
Arguments dense_res : clear implicits.
Arguments dimpl : clear implicits.
