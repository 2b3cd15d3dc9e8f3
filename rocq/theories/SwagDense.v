(** Dense output of SWAG, /repo/extensisq/shampine.py 482-610.

    Conventions as in Swag.v: checked arrays, [phi] as the list of its columns.  The
    matrix-vector product phi @ v is [lincomb] (order of summation idealised).  The work
    array g of np.empty is an argument; it is carried from one output point to the next as
    in the code. *)
From Coq Require Import String ZArith QArith Bool List Arith.
From Verif Require Import Arith Common Stiff RK HStart RKInit Ode Swag.
Import ListNotations.

Section SwagDense.
Context {A : Arith}.
Notation num := (num A).
Notation vec := (list num).
Local Open Scope num_scope.

(** np.diff(l, prepend=0.0) *)
Definition diff0 (l : vec) : vec := map2 (nsub A) l (n0 :: l).

(** shampine.py 514-516: for i in range(m, kold), [cnt] passes *)
Fixpoint gdi_loop (cnt i kold : nat) (al w : vec) (gdi : num) : num + exn :=
  match cnt with
  | O => inl gdi
  | S cnt' =>
    a <- aget al i;;
    b <- (if (kold <? i)%nat then inr IndexError else aget w (kold - i));;
    gdi_loop cnt' (S i) kold al w (gdi * (- a) + b)
  end.
(** shampine.py 503-516 *)
Definition swag_gdi (kmax : nat) (co : Co A) (kold : nat) : num + exn :=
  if (kold <=? kgi co)%nat then aget (gi co) (kold - 1)
  else
    st <- (if Nat.eqb (ivc co) 0 then q <- aget (sw_iqq kmax) kold;; inl (q, 1%nat)
           else
             iw <- aget (iv co) (ivc co - 1);;
             if Nat.eqb iw 0 || (kold + 2 <? iw)%nat then inr IndexError else
             q <- aget (ww co) (iw - 1);; inl (q, (kold + 2 - iw)%nat));;
    let '(q, m) := st in
    gdi_loop (kold - m) m kold (alpha co) (ww co) q.

(** the dense output objects: SwagDenseOutput, LinearDenseOutput, scipy's ConstantDenseOutput *)
Record SDat := mkSD { sd_told : num; sd_t : num; sd_y : vec; sd_kold : nat; sd_phi : list vec; sd_alpha : vec;
  sd_gdif : vec; sd_oy : vec; sd_iqq : vec; sd_gdi : num }.
Inductive sdense := SDSwag (d : SDat) | SDLin (t_old t : num) (y_old y : vec) | SDConst (t_old t : num) (y : vec).

(** shampine.py 482-524: _dense_output_impl and SwagDenseOutput.__init__ *)
Definition swag_dense_impl (kmax : nat) (told : num) (s : SSt A) : sdense + exn :=
  let kold := s_kold s in
  if Nat.eqb kold 0 then inl (SDLin told (s_t s) (s_yold s) (s_y s)) else
  let co := s_co s in
  gdi <- swag_gdi kmax co kold;;
  inl (SDSwag (mkSD told (s_t s) (s_y s) kold (sl (s_phi s) 0 (kold + 1)) (sl (alpha co) 1 kold)
                    (diff0 (sl (gg co) 0 (kold + 1))) (s_yold s) (sl (sw_iqq kmax) 0 (kold + 1)) gdi)).

(** scipy OdeSolver.dense_output *)
Definition swag_dense (c : SCfg A) (v : OSolver A (SSt A)) : sdense + exn :=
  match ot_old v with
  | None => inr (RuntimeError "Dense output is available after a successful step was made.")
  | Some told =>
    if Nat.eqb (length (s_y (ost v))) 0 || neqb A (s_t (ost v)) told then inl (SDConst told (s_t (ost v)) (s_y (ost v)))
    else swag_dense_impl (s_kmax c) told (ost v)
  end.

(** shampine.py 561-566: the loop over enumerate(alpha) *)
Fixpoint sd_loop (kold i : nat) (alps : vec) (xim1 : num) (w g : vec) : (vec * vec) + exn :=
  match alps with
  | [] => inl (w, g)
  | alp :: alps' =>
    let lim := (kold - i)%nat in
    let gamma := n1 + xim1 * alp in
    d <- bop (nsub A) (map (fun x => gamma * x) (sl w 0 lim)) (map (fun x => alp * x) (sl w 1 (lim + 1)));;
    w' <- set_sl w 0 lim d;;
    x <- aget w' 0;;
    g' <- aset g (i + 2) x;;
    sd_loop kold (S i) alps' xim1 w' g'
  end.

(** shampine.py 545-578: one output point; returns the value and the work array g *)
Definition sd_point (d : SDat) (g : vec) (xout : num) : (vec * vec) + exn :=
  let kold := sd_kold d in
  let hi := xout - sd_told d in
  let h := sd_t d - sd_told d in
  let xi := hi / h in
  let xim1 := xi - n1 in
  w0 <- bop (nmul A) (cumul (nmul A) (repeat xi (kold + 1))) (sd_iqq d);;
  let w := map (fun x => xi * x) w0 in
  g1 <- aset g 0 xi;;
  g2 <- aset g1 1 (lit (1#2) * xi * xi);;
  wg <- sd_loop kold 0 (sd_alpha d) xim1 w g2;;
  let '(w', g3) := wg in
  w1 <- aget w' 1;;
  w00 <- aget w' 0;;
  let sigma := (w1 - xim1 * w00) / sd_gdi d in
  let g4 := diff0 g3 in
  cf <- bop (nsub A) g4 (map (fun x => sigma * x) (sd_gdif d));;
  _ <- bop (fun a b => (a, b)) cf (sd_phi d);;
  let yout := vscale h (lincomb (length (sd_y d)) cf (sd_phi d)) in
  let yout' := vadd yout (vadd (vscale sigma (sd_y d)) (vscale (n1 - sigma) (sd_oy d))) in
  inl (yout', g4).
Fixpoint sd_points (d : SDat) (g : vec) (xs : list num) : (list vec) + exn :=
  match xs with
  | [] => inl []
  | x :: xs' => r <- sd_point d g x;; let '(y, g') := r in ys <- sd_points d g' xs';; inl (y :: ys)
  end.

(** sol(ts), a list of points: the columns of the result.  [g] is the work array of
    np.empty(kold + 1).  shampine.py 526-588 and 603-610; ConstantDenseOutput returns y *)
Definition swag_sol (D : sdense) (g : vec) (ts : list num) : (list vec) + exn :=
  match D with
  | SDSwag d => sd_points d g ts
  | SDLin t_old t y_old y =>
    let h := t - t_old in let dy := vsub y y_old in
    inl (map (fun s => vadd (vscale ((s - t_old) / h) dy) y_old) ts)
  | SDConst _ _ y => inl (map (fun _ => y) ts)
  end.
(** np.empty(kold + 1): any contents *)
Definition work_ok (D : sdense) (g : vec) : Prop := match D with SDSwag d => length g = (sd_kold d + 1)%nat | _ => True end.
End SwagDense.
Arguments SDat : clear implicits.
Arguments sdense : clear implicits.
