(** Model of the variable order Adams method SWAG, /repo/extensisq/shampine.py.

    The work arrays are lists of fixed length.  Every scalar access is checked
    (IndexError), every vector operation checks that the shapes agree (numpy
    would also broadcast a length one operand; the model raises ValueError, so
    absence of exceptions here is the stronger statement).  numpy slices clip,
    as [sl] does.  All indices of the code are modelled as natural numbers;
    where a Python index could be negative (it would count from the end) the
    model raises IndexError.  [phi] is the list of the columns phi[:, i]. *)
From Coq Require Import String ZArith QArith Bool List Arith.
From Verif Require Import Arith Common Stiff RK HStart RKInit Ode.
Import ListNotations.

(** ** exceptions *)
Notation "x <- a ;; b" := (match a with inl x => b | inr e => inr e end)
  (at level 61, a at next level, right associativity).

Section Arrays.
Context {X : Type}.
(** l[i] *)
Definition aget (l : list X) (i : nat) : X + exn :=
  match nth_error l i with Some x => inl x | None => inr IndexError end.
(** l[i] = x *)
Definition aset (l : list X) (i : nat) (x : X) : list X + exn :=
  if (i <? length l)%nat then inl (firstn i l ++ x :: skipn (S i) l) else inr IndexError.
(** l[a:b] *)
Definition sl (l : list X) (a b : nat) : list X := firstn (b - a) (skipn a l).
(** l[a:b] = v *)
Definition set_sl (l : list X) (a b : nat) (v : list X) : list X + exn :=
  if (length v =? length (sl l a b))%nat
  then inl (firstn a l ++ v ++ skipn (a + length v) l)
  else inr (ValueError "could not broadcast input array").
End Arrays.
(** elementwise operation of two arrays *)
Definition bop {X Y Z} (op : X -> Y -> Z) (a : list X) (b : list Y) : list Z + exn :=
  if (length a =? length b)%nat then inl (map2 op a b)
  else inr (ValueError "operands could not be broadcast together").

(** np.cumprod / np.cumsum: running product or sum *)
Fixpoint scan {X} (op : X -> X -> X) (acc : X) (l : list X) : list X :=
  match l with [] => [] | x :: l' => let a := op acc x in a :: scan op a l' end.
Definition cumul {X} (op : X -> X -> X) (l : list X) : list X :=
  match l with [] => [] | x :: l' => x :: scan op x l' end.

Section Swag.
Context {A : Arith}.
Notation num := (num A).
Notation vec := (list num).
Local Open Scope num_scope.

(** ** constants, shampine.py 121-133 *)
Definition sw_twou : num := n2 * n_small A.
Definition sw_fouru : num := lit 4 * n_small A.
Definition sw_two : vec := map lit [2; 4; 8; 16; 32; 64; 128; 256; 512; 1024; 2048; 4096; 8192]%Q.
Definition sw_gstr : vec := map lit
  [5#10; 833#10000; 417#10000; 264#10000; 188#10000; 143#10000; 114#10000;
   936#100000; 789#100000; 679#100000; 592#100000; 524#100000; 468#100000]%Q.
Definition sw_iq (kmax : nat) : vec := map nofnat (seq 1 (S kmax)).
Definition sw_iqq (kmax : nat) : vec := map (fun q => n1 / (q * (q + n1))) (sw_iq kmax).
Definition sw_eps : num := n1.
Definition sw_p5eps : num := lit (1#2).

(** the arrays of coefficients and the counters that belong to them *)
Record Co := mkCo {
  psi : vec; alpha : vec; beta : vec; sig : vec; vv : vec; ww : vec; gg : vec; gi : vec;
  iv : list nat; ivc : nat; kgi : nat; kprev : nat; ns : nat }.

(** ** block 1 *)
(** shampine.py 257-269: psi, alpha, beta, sig *)
Definition co_steps (kmax : nat) (c : Co) (k : nat) (h : num) : Co + exn :=
  let nsm1 := (ns c - 1)%nat in let km1 := (k - 1)%nat in let kp1 := (k + 1)%nat in
  let psi_old := sl (psi c) nsm1 km1 in
  psi1 <- aset (psi c) nsm1 (h * nofnat (ns c));;
  psi2 <- set_sl psi1 (ns c) k (map (fun x => h + x) psi_old);;
  alpha1 <- aset (alpha c) nsm1 (n1 / nofnat (ns c));;
  alpha2 <- set_sl alpha1 (ns c) k (map (fun x => h / x) (sl psi2 (ns c) k));;
  beta1 <- aset (beta c) nsm1 n1;;
  q <- bop (ndiv A) (sl psi2 nsm1 km1) psi_old;;
  beta2 <- set_sl beta1 (ns c) k (cumul (nmul A) q);;
  m <- bop (nmul A) (sl (sw_iq kmax) nsm1 k) (sl alpha2 nsm1 k);;
  sig1 <- set_sl (sig c) (ns c) kp1 (cumul (nmul A) m);;
  inl (mkCo psi2 alpha2 beta2 sig1 (vv c) (ww c) (gg c) (gi c) (iv c) (ivc c) (kgi c) (kprev c) (ns c)).

Definition co_vw (c : Co) (v w g gi' : vec) (iv' : list nat) (ivc' kgi' : nat) : Co :=
  mkCo (psi c) (alpha c) (beta c) (sig c) v w g gi' iv' ivc' kgi' (kprev c) (ns c).

(** shampine.py 273-280: ns == 1 *)
Definition co_first (kmax : nat) (c : Co) (k : nat) : Co + exn :=
  v <- set_sl (vv c) 0 k (sl (sw_iqq kmax) 0 k);;
  w <- set_sl (ww c) 0 k (sl (sw_iqq kmax) 0 k);;
  if Nat.eqb k 1 then inl (co_vw c v w (gg c) (gi c) (iv c) 0 0) else
  x <- aget w 1;;
  gi' <- aset (gi c) 0 x;;
  inl (co_vw c v w (gg c) gi' (iv c) 0 1).

(** shampine.py 292-295: the loop over j, with alp = alpha[j] *)
Fixpoint co_diag (km1 j : nat) (alps : vec) (v w : vec) : (vec * vec) + exn :=
  match alps with
  | [] => inl (v, w)
  | alp :: alps' =>
    if (km1 <? j)%nat then inr IndexError else
    let i := (km1 - j)%nat in
    a <- aget v i;;
    b <- aget v (i + 1);;
    v' <- aset v i (a - alp * b);;
    w' <- aset w i (a - alp * b);;
    co_diag km1 (S j) alps' v' w'
  end.

(** shampine.py 283-298: the order was raised *)
Definition co_raised (kmax : nat) (c : Co) (k : nat) : Co + exn :=
  let km1 := (k - 1)%nat in let kp1 := (k + 1)%nat in let nsm1 := (ns c - 1)%nat in
  r <- (if negb (Nat.eqb (ivc c) 0) then
          x <- aget (iv c) (ivc c - 1);;
          if (kp1 <? x)%nat then inr IndexError else
          inl (vv c, ww c, gi c, (ivc c - 1)%nat, kgi c, (kp1 - x)%nat)
        else
          q <- aget (sw_iqq kmax) km1;;
          v <- aset (vv c) km1 q;;
          w <- aset (ww c) km1 q;;
          if Nat.eqb k 2 then
            x <- aget w 1;; gi' <- aset (gi c) 0 x;;
            inl (v, w, gi', ivc c, 1%nat, 1%nat)
          else inl (v, w, gi c, ivc c, kgi c, 1%nat));;
  let '(v, w, gi', ivc', kgi', jv) := r in
  vw <- co_diag km1 jv (sl (alpha c) jv nsm1) v w;;
  let '(v', w') := vw in
  if Nat.eqb k (ns c) && (jv <? nsm1)%nat then
    x <- aget w' 1;; gi'' <- aset gi' (nsm1 - 1) x;;
    inl (co_vw c v' w' (gg c) gi'' (iv c) ivc' nsm1)
  else inl (co_vw c v' w' (gg c) gi' (iv c) ivc' kgi').

(** shampine.py 299-309: update v and set w; push on iv if the order was lowered *)
Definition co_update (c : Co) (k kold : nat) : Co + exn :=
  let kp1 := (k + 1)%nat in let nsm1 := (ns c - 1)%nat in
  let limit1 := (kp1 - ns c)%nat in
  al <- aget (alpha c) nsm1;;
  d <- bop (nsub A) (sl (vv c) 0 limit1) (map (fun x => al * x) (sl (vv c) 1 (limit1 + 1)));;
  v <- set_sl (vv c) 0 limit1 d;;
  w <- set_sl (ww c) 0 (limit1 + 1) (sl v 0 (limit1 + 1));;
  x <- aget w 0;;
  g <- aset (gg c) (ns c) x;;
  r <- (if negb (Nat.eqb limit1 1) then
          x1 <- aget w 1;; gi' <- aset (gi c) nsm1 x1;; inl (gi', ns c)
        else inl (gi c, kgi c));;
  let '(gi', kgi') := r in
  if (k <? kold)%nat then
    iv' <- aset (iv c) (ivc c) (limit1 + 2)%nat;;
    inl (co_vw c v w g gi' iv' (ivc c + 1) kgi')
  else inl (co_vw c v w g gi' (iv c) (ivc c) kgi').

(** shampine.py 312-316: the loop over i, with alp = alpha[i] *)
Fixpoint co_g (k i : nat) (alps : vec) (w g : vec) : (vec * vec) + exn :=
  match alps with
  | [] => inl (w, g)
  | alp :: alps' =>
    let limit2 := (k - i)%nat in
    d <- bop (nsub A) (sl w 0 limit2) (map (fun x => alp * x) (sl w 1 (limit2 + 1)));;
    w' <- set_sl w 0 limit2 d;;
    x <- aget w' 0;;
    g' <- aset g (i + 1) x;;
    co_g k (S i) alps' w' g'
  end.

Definition with_ns (c : Co) (n : nat) : Co :=
  mkCo (psi c) (alpha c) (beta c) (sig c) (vv c) (ww c) (gg c) (gi c) (iv c) (ivc c) (kgi c) (kprev c) n.
Definition with_psi (c : Co) (p : vec) : Co :=
  mkCo p (alpha c) (beta c) (sig c) (vv c) (ww c) (gg c) (gi c) (iv c) (ivc c) (kgi c) (kprev c) (ns c).

(** shampine.py 251-255: ns at the start of a trial *)
Definition ns_trial (n kold : nat) (h hold : num) : nat :=
  let n' := if h =? hold then n else 0%nat in
  if (n' <=? kold)%nat then S n' else n'.

(** shampine.py 251-318: block 1 *)
Definition block1 (kmax : nat) (c0 : Co) (k kold : nat) (h hold : num) : Co + exn :=
  let c := with_ns c0 (ns_trial (ns c0) kold h hold) in
  if (ns c <=? k)%nat then
    c1 <- co_steps kmax c k h;;
    c2 <- (if Nat.eqb (ns c) 1 then co_first kmax c1 k else
           c2 <- (if (kprev c1 <? k)%nat then co_raised kmax c1 k else inl c1);;
           co_update c2 k kold);;
    wg <- co_g k (ns c) (sl (alpha c2) (ns c) k) (ww c2) (gg c2);;
    let '(w, g) := wg in
    inl (mkCo (psi c2) (alpha c2) (beta c2) (sig c2) (vv c2) w g (gi c2) (iv c2) (ivc c2) (kgi c2) k (ns c2))
  else inl c.

(** ** solver *)
Record SCfg := mkSC {
  s_fn : num -> vec -> vec; s_tb : num; s_dir : num; s_max : num; s_rtol : num; s_atol : tol_arg A; s_kmax : nat }.
Record SSt := mkSS {
  s_t : num; s_y : vec; s_yold : vec;
  s_h : num; s_hold : num; s_wt : vec; s_k : nat; s_kold : nat;
  s_phi : list vec; s_yp : vec; s_co : Co; s_phase1 : bool; s_kle4 : nat;
  s_nfs : nat; s_calls : list (num * vec); s_notes : list string }.

(** shampine.py 325-333: phi star, the predicted solution, the predicted differences *)
Definition predict (c : Co) (phi : list vec) (k : nat) (h : num) (y : vec) : (list vec * vec) + exn :=
  let kp1 := (k + 1)%nat in
  sc <- bop vscale (sl (beta c) (ns c) k) (sl phi (ns c) k);;
  phi1 <- set_sl phi (ns c) k sc;;
  pk <- aget phi1 k;;
  phi2 <- aset phi1 kp1 pk;;
  phi3 <- aset phi2 k (map (fun _ => n0) y);;
  _ <- bop (fun a b => (a, b)) (sl phi3 0 k) (sl (gg c) 0 k);;
  let p := vadd (vscale h (lincomb (length y) (sl (gg c) 0 k) (sl phi3 0 k))) y in
  phi4 <- set_sl phi3 0 k (rev (cumul vadd (rev (sl phi3 0 k))));;
  inl (phi4, p).

(** the quantities of shampine.py 343-356.  erkm1, erkm2 are None when the code
    does not assign them. *)
Record Errs := mkE { erk : num; err : num; erkm1 : option num; erkm2 : option num }.
Definition estimate (c : Co) (phi : list vec) (k : nat) (absh : num) (yp wt : vec) : Errs + exn :=
  let km1 := (k - 1)%nat in let km2 := (k - 2)%nat in
  let temp3 := map (fun x => n1 / x) wt in
  ph0 <- aget phi 0;;
  let temp4 := vsub yp ph0 in
  e2 <- (if (2 <? k)%nat then
           ph <- aget phi km2;; s <- aget (sig c) km2;; gs <- aget sw_gstr (km2 - 1);;
           inl (Some (absh * norm (map2 (nmul A) (vadd ph temp4) temp3) * (s * gs)))
         else inl None);;
  e1 <- (if (1 <? k)%nat then
           ph <- aget phi km1;; s <- aget (sig c) km1;; gs <- aget sw_gstr km2;;
           inl (Some (absh * norm (map2 (nmul A) (vadd ph temp4) temp3) * (s * gs)))
         else inl None);;
  let ek := absh * norm (map2 (nmul A) temp4 temp3) in
  ga <- aget (gg c) km1;; gb <- aget (gg c) k;;
  s <- aget (sig c) k;; gs <- aget sw_gstr km1;;
  inl (mkE (ek * (s * gs)) (ek * (ga - gb)) e1 e2).

(** a Python name that may be unassigned *)
Definition pyname {X} (x : option X) : X + exn := match x with Some a => inl a | None => inr (AttributeError "UnboundLocalError") end.

(** shampine.py 358-363 *)
Definition lower_order (k : nat) (e : Errs) : nat + exn :=
  if (2 <? k)%nat then
    a <- pyname (erkm1 e);; b <- pyname (erkm2 e);;
    inl (if pymax a b <? erk e then (k - 1)%nat else k)
  else if Nat.eqb k 2 then
    a <- pyname (erkm1 e);; inl (if a <? lit (1#2) * erk e then (k - 1)%nat else k)
  else inl k.

(** shampine.py 376-382: restore phi and psi *)
Definition restore (c : Co) (phi : list vec) (k : nat) (h : num) : (Co * list vec) + exn :=
  let kp1 := (k + 1)%nat in let km1 := (k - 1)%nat in
  d <- bop vsub (sl phi 0 k) (sl phi 1 kp1);;
  phi1 <- set_sl phi 0 k d;;
  q <- bop (fun v b => map (fun x => x / b) v) (sl phi1 0 k) (sl (beta c) 0 k);;
  phi2 <- set_sl phi1 0 k q;;
  psi' <- set_sl (psi c) 0 km1 (map (fun x => x - h) (sl (psi c) 1 k));;
  inl (with_psi c psi', phi2).

(** shampine.py 384-393: the next trial after the failure number [ifail] of this step *)
Definition retry_h (ifail : nat) (e : num) (h : num) : num :=
  h * (if (4 <=? ifail)%nat && (sw_p5eps <? lit (1#4) * e) then nsqrt A (sw_p5eps / e) else lit (1#2)).
Definition retry_k (ifail knew : nat) : nat := if (3 <=? ifail)%nat then 1%nat else knew.

(** shampine.py 420-455: the order for the next step and the error used for its size *)
Definition next_order (c : SCfg) (co : Co) (phi : list vec) (k knew : nat) (ph1 : bool) (absh : num) (wt : vec) (e : Errs)
  : (nat * num) + exn :=
  let kp1 := (k + 1)%nat in let km1 := (k - 1)%nat in
  if ph1 then inl (kp1, n0)
  else if Nat.eqb knew km1 then a <- pyname (erkm1 e);; inl (km1, a)
  else if (k <? ns co)%nat then
    gs <- aget sw_gstr k;; ph <- aget phi kp1;;
    let erkp1 := gs * absh * norm (vdiv ph wt) in
    if Nat.eqb k 1 then
      inl (if (erkp1 <? lit (1#2) * erk e) && (k <? s_kmax c)%nat then (kp1, erkp1) else (k, erk e))
    else
      a <- pyname (erkm1 e);;
      inl (if a <=? pymin (erk e) erkp1 then (km1, a)
           else if negb ((erk e <? erkp1) || Nat.eqb k (s_kmax c)) then (kp1, erkp1)
           else (k, erk e))
  else inl (k, erk e).

(** shampine.py 457-469 *)
Definition next_h (ph1 : bool) (k : nat) (e h absh min_step : num) : num + exn :=
  let reduced := if sw_p5eps >=? e then h else
    let r := npow A (sw_p5eps / e) (n1 / nofnat (k + 1)) in
    let hn := absh * pymax (lit (1#2)) (pymin (lit (9#10)) r) in
    ncopysign A (pymax hn min_step) h in
  if ph1 then inl (h + h) else
  tw <- aget sw_two k;;
  inl (if sw_p5eps >=? e * tw then h + h else reduced).

(** shampine.py 402-480: block 4 *)
Definition block4 (c : SCfg) (s : SSt) (co : Co) (phi : list vec) (p yp wt : vec) (k knew : nat)
           (x h min_step : num) (ph : bool) (e : Errs) (nf : nat) (cl : list (num * vec)) : SSt + exn :=
  let kp1 := (k + 1)%nat in let km1 := (k - 1)%nat in
  gk <- aget (gg co) k;; ph0 <- aget phi 0;;
  let y' := vadd (vscale (h * gk) (vsub yp ph0)) p in
  let yp' := s_fn c x y' in
  let d := vsub yp' ph0 in
  phi1 <- aset phi k d;;
  pk <- aget phi1 kp1;;
  phi2 <- aset phi1 kp1 (vsub d pk);;
  phi3 <- set_sl phi2 0 k (map (fun a => vadd a d) (sl phi2 0 k));;
  let ph1 := ph && negb (Nat.eqb knew km1 || Nat.eqb k (s_kmax c)) in
  ke <- next_order c co phi3 k knew ph1 (nabs A h) wt e;;
  let '(k', e') := ke in
  h' <- next_h ph1 k' e' h (nabs A h) min_step;;
  inl (mkSS x y' (s_y s) h' h wt k' k phi3 yp' co ph1 (s_kle4 s) nf (cl ++ [(x, y')]) (s_notes s)).

(** one pass of the while loop, shampine.py 246-398.  On a failure the updated
    state is returned; [s_k], [s_h], [s_phase1] are the local variables k, h,
    phase1. *)
Inductive strial := SAccept (s : SSt) | SAgain (s : SSt) | STooSmall (s : SSt).
Definition too_small_step : string := "Required step size is less than spacing between numbers.".
Definition swag_trial (c : SCfg) (s : SSt) (ifail : nat) (min_step : num) : strial + exn :=
  let k := s_k s in let h := s_h s in
  co <- block1 (s_kmax c) (s_co s) k (s_kold s) h (s_hold s);;
  pp <- predict co (s_phi s) k h (s_y s);;
  let '(phi, p) := pp in
  let x := s_t s + h in
  let absh := nabs A h in
  let yp := s_fn c x p in
  let cl := (s_calls s ++ [(x, p)])%list in
  let wt := calculate_scale_mean (s_atol c) (s_rtol c) p (s_y s) in
  e <- estimate co phi k absh yp wt;;
  knew <- lower_order k e;;
  if err e <=? sw_eps then
    s' <- block4 c s co phi p yp wt k knew x h min_step (s_phase1 s) e (s_nfs s) cl;;
    inl (SAccept s')
  else
    cp <- restore co phi k h;;
    let '(co', phi') := cp in
    let h' := retry_h (S ifail) (erk e) h in
    let s' := mkSS (s_t s) (s_y s) (s_yold s) h' (s_hold s) wt (retry_k (S ifail) knew) (s_kold s)
                   phi' yp (with_ns co' 0) false (s_kle4 s) (S (s_nfs s)) cl (s_notes s) in
    inl (if nabs A h' <? min_step then STooSmall s' else SAgain s').

(** when the loop returns False the local variables h, k, phase1, ns, kprev,
    ivc, kgi are not written back; the arrays are (they are modified in place) *)
Definition swag_abort (s0 s : SSt) : SSt :=
  let c0 := s_co s0 in let c := s_co s in
  mkSS (s_t s0) (s_y s0) (s_y s0) (s_h s0) (s_hold s0) (s_wt s) (s_k s0) (s_kold s0) (s_phi s) (s_yp s)
       (mkCo (psi c) (alpha c) (beta c) (sig c) (vv c) (ww c) (gg c) (gi c) (iv c) (ivc c0) (kgi c0) (kprev c0) (ns c0))
       (s_phase1 s0) (s_kle4 s) (s_nfs s) (s_calls s) (s_notes s).

Fixpoint swag_loop (fuel : nat) (c : SCfg) (s0 s : SSt) (ifail : nat) (min_step : num) : impl_res SSt :=
  match fuel with
  | O => IFuel
  | S n =>
    match swag_trial c s ifail min_step with
    | inr e => IRaise e
    | inl (SAccept s') => IDone s'
    | inl (STooSmall s') => IFail (swag_abort s0 s') too_small_step
    | inl (SAgain s') => swag_loop n c s0 s' (S ifail) min_step
    end
  end.

(** shampine.py 198-207: kle4 and its warning *)
Definition stiff_note : string := "Your problem appears to be stiff (for this tolerance).".
Definition kle4_step (c : SCfg) (s : SSt) : nat * list string :=
  if (4 <? s_kold s)%nat then (0%nat, s_notes s)
  else let n := S (s_kle4 s) in
       if (50 <? n)%nat && (4 <? s_kmax c)%nat then (0%nat, (s_notes s ++ [stiff_note])%list) else (n, s_notes s).

Definition sw_set (s : SSt) (t : num) (y yold : vec) (h : num) (kold kle4 : nat) (nt : list string) : SSt :=
  mkSS t y yold h (s_hold s) (s_wt s) (s_k s) kold (s_phi s) (s_yp s) (s_co s) (s_phase1 s) kle4 (s_nfs s) (s_calls s) nt.

(** shampine.py 214-227: the step size of the first trial *)
Definition trial_h (c : SCfg) (s : SSt) : num :=
  let d := s_tb c - s_t s in
  let h := if s_dir c * (s_h s - d) >? n0 then d else s_h s in
  if s_max c =? n_inf A then h else ncopysign A (pymin (s_max c) (nabs A h)) (s_dir c).

Definition too_tight : string := "tolerance too tight.".
(** shampine.py 180-480: _step_impl *)
Definition swag_step (fuel : nat) (c : SCfg) (s : SSt) : impl_res SSt :=
  let min_step := sw_fouru * nabs A (s_t s) in
  let '(kle, nt) := kle4_step c s in
  let d := s_tb c - s_t s in
  if nabs A d <=? min_step then
    IDone (sw_set s (s_tb c) (vadd (s_y s) (vscale d (s_yp s))) (s_y s) (s_h s) 0 kle nt)
  else
  let h := trial_h c s in
  let s1 := sw_set s (s_t s) (s_y s) (s_y s) h (s_kold s) kle nt in
  let fail msg := IFail (sw_set s (s_t s) (s_y s) (s_y s) (s_h s) (s_kold s) kle nt) msg in
  if nabs A h <? min_step then fail too_small_step else
  if sw_p5eps <? sw_twou * norm (vdiv (s_y s) (s_wt s)) then fail too_tight else
  swag_loop fuel c (sw_set s (s_t s) (s_y s) (s_y s) (s_h s) (s_kold s) kle nt) s1 0 min_step.

(** ** construction, shampine.py 99-178.  [e_...] are the uninitialised arrays
    of np.empty: any contents. *)
Record Junk := { e_phi : list vec; e_psi : vec; e_alpha : vec; e_beta : vec; e_sig : vec;
  e_v : vec; e_w : vec; e_g : vec; e_gi : vec }.
Definition junk_ok (kmax n : nat) (j : Junk) : Prop :=
  length (e_phi j) = (kmax + 2)%nat /\ (forall col, In col (e_phi j) -> length col = n) /\
  length (e_psi j) = kmax /\ length (e_alpha j) = kmax /\
  length (e_beta j) = kmax /\ length (e_sig j) = (kmax + 1)%nat /\ length (e_v j) = kmax /\
  length (e_w j) = kmax /\ length (e_g j) = (kmax + 1)%nat /\ length (e_gi j) = (kmax - 1)%nat.

Definition rounding_note : string := "Numerical rounding may limit the accuracy at this tolerance.".

Record SOpts := { so_max : num; so_rtol : num; so_rtol_float : bool; so_atol : tol_arg A;
  so_first : option num; so_kmax : Z }.

Definition swag_init (o : SOpts) (j : Junk) (fun_ : num -> vec -> vec) (t0 : num) (y0 : vec) (tb : num) : (SCfg * SSt) + exn :=
  if negb ((0 <? so_kmax o)%Z && (so_kmax o <? 13)%Z) then inr (ValueError "`k_max` should be an integer between 1 and 12.") else
  let kmax := Z.to_nat (so_kmax o) in
  let dir := direction0 t0 tb in
  if so_max o <=? n0 then inr (ValueError "`max_step` must be positive.") else
  ra <- validate_tol (so_rtol_float o) (so_rtol o) (so_atol o) y0;;
  let '(rtol, atol) := ra in
  let yp := fun_ t0 y0 in
  first <- (match so_first o with
            | None =>
              let b := t0 + ncopysign A (pymin (nabs A (tb - t0)) (so_max o)) dir in
              inl (h_start fun_ t0 b y0 yp 1 rtol atol None None)
            | Some h =>
              if h <=? n0 then inr (ValueError "`first_step` must be positive.") else
              if h >? nabs A (tb - t0) then inr (ValueError "`first_step` exceeds bounds.")
              else inl (ncopysign A h dir, [])
            end);;
  let '(h, cl) := first in
  let wt := calculate_scale atol rtol y0 (vsub y0 (vscale h yp)) in
  let rnd := if Nat.eqb (length y0) 0 then n0 else sw_twou * norm (vdiv y0 wt) in
  let nt := if sw_p5eps <? lit 100 * rnd then [rounding_note] else [] in
  phi1 <- aset (e_phi j) 0 yp;;
  phi2 <- aset phi1 1 (map (fun _ => n0) y0);;
  sg <- aset (e_sig j) 0 n1;;
  g1 <- aset (e_g j) 0 n1;;
  g2 <- aset g1 1 (lit (1#2));;
  inl (mkSC fun_ tb dir (so_max o) rtol atol kmax,
       mkSS t0 y0 y0 h n0 wt 1 0 phi2 yp
            (mkCo (e_psi j) (e_alpha j) (e_beta j) sg (e_v j) (e_w j) g2 (e_gi j) (repeat 0%nat (kmax - 2)) 0 0 0 0)
            true 0 0 ([(t0, y0)] ++ cl) nt).

Definition sw_view : View A SSt :=
  {| v_t := s_t; v_set_t := fun s t => sw_set s t (s_y s) (s_yold s) (s_h s) (s_kold s) (s_kle4 s) (s_notes s);
     v_n := fun s => length (s_y s) |}.
Definition swag_impl (c : SCfg) (fuel : nat) : SSt -> impl_res SSt := swag_step fuel c.

End Swag.
Arguments Co : clear implicits.
Arguments SCfg : clear implicits.
Arguments SSt : clear implicits.
Arguments Junk : clear implicits.
Arguments SOpts : clear implicits.
Arguments strial : clear implicits.
Arguments Errs : clear implicits.
