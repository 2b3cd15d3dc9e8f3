(** Chebyshev polynomials of the first kind over the reals: recurrences of the
    values and of the first two derivatives, closed forms, and the bounds behind
    the stability interval of Runge-Kutta-Chebyshev methods. *)
From Coq Require Import Reals Lra Psatz Lia Arith.
From Coquelicot Require Import Coquelicot.
Open Scope R_scope.

(** T_n, T_n', T_n'' by the three term recurrences *)
Fixpoint cT (n : nat) (x : R) : R :=
  match n with O => 1 | S m => match m with O => x | S k => 2 * x * cT m x - cT k x end end.
Fixpoint dT (n : nat) (x : R) : R :=
  match n with O => 0 | S m => match m with O => 1 | S k => 2 * x * dT m x - dT k x + 2 * cT m x end end.
Fixpoint d2T (n : nat) (x : R) : R :=
  match n with O => 0 | S m => match m with O => 0 | S k => 2 * x * d2T m x - d2T k x + 4 * dT m x end end.

Lemma cT_SS n x : cT (S (S n)) x = 2 * x * cT (S n) x - cT n x. Proof. reflexivity. Qed.
Lemma dT_SS n x : dT (S (S n)) x = 2 * x * dT (S n) x - dT n x + 2 * cT (S n) x. Proof. reflexivity. Qed.
Lemma d2T_SS n x : d2T (S (S n)) x = 2 * x * d2T (S n) x - d2T n x + 4 * dT (S n) x. Proof. reflexivity. Qed.

Lemma two_step (P : nat -> Prop) : P 0%nat -> P 1%nat -> (forall n, P n -> P (S n) -> P (S (S n))) -> forall n, P n.
Proof. intros H0 H1 H n. enough (P n /\ P (S n)) by tauto. induction n as [|n [A B]]; split; auto. Qed.

(** they are the derivatives *)
Lemma cT_derive n x : is_derive (cT n) x (dT n x).
Proof.
  revert n. apply (two_step (fun n => is_derive (cT n) x (dT n x))).
  - change (is_derive (fun _ : R => 1) x 0). auto_derive; [exact I|reflexivity].
  - change (is_derive (fun x : R => x) x 1). auto_derive; [exact I|reflexivity].
  - intros n A B. rewrite dT_SS.
    apply (is_derive_ext (fun x => minus (mult (2 * x) (cT (S n) x)) (cT n x))); [reflexivity|].
    replace (2 * x * dT (S n) x - dT n x + 2 * cT (S n) x) with (minus (plus (mult 2 (cT (S n) x)) (mult (2 * x) (dT (S n) x))) (dT n x))
      by (unfold minus, plus, mult, opp; cbn -[cT dT]; ring).
    apply (is_derive_minus (V := R_NormedModule)); [|exact A]. apply (is_derive_mult (fun x => 2 * x) (cT (S n)) x 2 (dT (S n) x)); [auto_derive; [exact I|ring]|exact B|intros; apply Rmult_comm].
Qed.
Lemma dT_derive n x : is_derive (dT n) x (d2T n x).
Proof.
  revert n. apply (two_step (fun n => is_derive (dT n) x (d2T n x))).
  - change (is_derive (fun _ : R => 0) x 0). auto_derive; [exact I|reflexivity].
  - change (is_derive (fun _ : R => 1) x 0). auto_derive; [exact I|reflexivity].
  - intros n A B. rewrite d2T_SS.
    apply (is_derive_ext (fun x => plus (minus (mult (2 * x) (dT (S n) x)) (dT n x)) (scal 2 (cT (S n) x)))); [reflexivity|].
    replace (2 * x * d2T (S n) x - d2T n x + 4 * dT (S n) x) with (plus (minus (plus (mult 2 (dT (S n) x)) (mult (2 * x) (d2T (S n) x))) (d2T n x)) (scal 2 (dT (S n) x)))
      by (unfold minus, plus, mult, opp, scal; cbn -[cT dT d2T]; unfold mult; cbn -[cT dT d2T]; ring).
    apply (is_derive_plus (V := R_NormedModule)); [|apply (is_derive_scal (cT (S n)) x 2 (dT (S n) x)); apply cT_derive].
    apply (is_derive_minus (V := R_NormedModule)); [|exact A].
    apply (is_derive_mult (fun x => 2 * x) (dT (S n)) x 2 (d2T (S n) x)); [auto_derive; [exact I|ring]|exact B|intros; apply Rmult_comm].
Qed.

(** *** hyperbolic functions *)
Lemma cosh2_sinh2 a : cosh a * cosh a = 1 + sinh a * sinh a.
Proof.
  unfold cosh, sinh. assert (E : exp a * exp (- a) = 1) by (rewrite <- exp_plus; replace (a + - a) with 0 by ring; apply exp_0).
  replace ((exp a + exp (- a)) / 2 * ((exp a + exp (- a)) / 2)) with ((exp a * exp a + exp (-a) * exp (-a) + 2 * (exp a * exp (- a))) / 4) by field.
  replace ((exp a - exp (- a)) / 2 * ((exp a - exp (- a)) / 2)) with ((exp a * exp a + exp (-a) * exp (-a) - 2 * (exp a * exp (- a))) / 4) by field.
  rewrite E. field.
Qed.
Lemma cosh_plus a b : cosh (a + b) = cosh a * cosh b + sinh a * sinh b.
Proof. unfold cosh, sinh. rewrite Ropp_plus_distr, !exp_plus. field. Qed.
Lemma sinh_plus a b : sinh (a + b) = sinh a * cosh b + cosh a * sinh b.
Proof. unfold cosh, sinh. rewrite Ropp_plus_distr, !exp_plus. field. Qed.
Lemma cosh_opp a : cosh (- a) = cosh a. Proof. unfold cosh. rewrite Ropp_involutive. lra. Qed.
Lemma sinh_opp a : sinh (- a) = - sinh a. Proof. unfold sinh. rewrite Ropp_involutive. lra. Qed.
Lemma cosh_pos a : 0 < cosh a. Proof. unfold cosh. pose proof (exp_pos a). pose proof (exp_pos (- a)). lra. Qed.
Lemma cosh_ge1 a : 1 <= cosh a. Proof. pose proof (cosh2_sinh2 a). pose proof (cosh_pos a). pose proof (Rle_0_sqr (sinh a)). unfold Rsqr in *. nra. Qed.
Lemma sinh_nonneg a : 0 <= a -> 0 <= sinh a.
Proof. intros [H| <-]; [|rewrite sinh_0; lra]. unfold sinh. assert (exp (- a) < exp a) by (apply exp_increasing; lra). lra. Qed.
Lemma sinh_pos a : 0 < a -> 0 < sinh a.
Proof. intros H. unfold sinh. assert (exp (- a) < exp a) by (apply exp_increasing; lra). lra. Qed.
Lemma is_derive_cosh x : is_derive cosh x (sinh x).
Proof. unfold cosh, sinh. auto_derive; [exact I|]. lra. Qed.
Lemma is_derive_sinh x : is_derive sinh x (cosh x).
Proof. unfold cosh, sinh. auto_derive; [exact I|]. lra. Qed.

(** arcosh *)
Definition acosh (x : R) : R := ln (x + sqrt (x * x - 1)).
Lemma acosh_spec x : 1 <= x -> cosh (acosh x) = x /\ sinh (acosh x) = sqrt (x * x - 1) /\ 0 <= acosh x.
Proof.
  intros H. set (s := sqrt (x * x - 1)). assert (Hs : 0 <= s) by apply sqrt_pos.
  assert (Hs2 : s * s = x * x - 1) by (apply sqrt_sqrt; nra).
  assert (Hp : 0 < x + s) by lra. unfold acosh. fold s. unfold cosh, sinh. rewrite exp_Ropp, exp_ln by exact Hp.
  assert (E : / (x + s) = x - s) by (apply Rmult_eq_reg_l with (x + s); [|lra]; rewrite Rinv_r by lra; nra).
  rewrite E. split; [lra|]. split; [lra|]. rewrite <- ln_1. destruct (Req_dec (x + s) 1) as [->|Hn]; [lra|]. left. apply ln_increasing; lra.
Qed.

Lemma cT_cosh n a : cT n (cosh a) = cosh (INR n * a).
Proof.
  revert n. apply (two_step (fun n => cT n (cosh a) = cosh (INR n * a))).
  - simpl. rewrite Rmult_0_l, cosh_0. reflexivity.
  - simpl. rewrite Rmult_1_l. reflexivity.
  - intros n A B. rewrite cT_SS, A, B. rewrite !S_INR.
    replace ((INR n + 1 + 1) * a) with ((INR n + 1) * a + a) by ring. replace (INR n * a) with ((INR n + 1) * a + - a) at 1 by ring.
    rewrite !cosh_plus, cosh_opp, sinh_opp. ring.
Qed.
Lemma cT_cos n a : cT n (cos a) = cos (INR n * a).
Proof.
  revert n. apply (two_step (fun n => cT n (cos a) = cos (INR n * a))).
  - simpl. rewrite Rmult_0_l, cos_0. reflexivity.
  - simpl. rewrite Rmult_1_l. reflexivity.
  - intros n A B. rewrite cT_SS, A, B. rewrite !S_INR.
    replace ((INR n + 1 + 1) * a) with ((INR n + 1) * a + a) by ring. replace (INR n * a) with ((INR n + 1) * a - a) at 1 by ring.
    rewrite cos_plus, cos_minus. ring.
Qed.
Lemma dT_cosh n a : dT n (cosh a) * sinh a = INR n * sinh (INR n * a).
Proof.
  revert n. apply (two_step (fun n => dT n (cosh a) * sinh a = INR n * sinh (INR n * a))).
  - simpl. ring.
  - simpl. rewrite !Rmult_1_l. reflexivity.
  - intros n A B. rewrite dT_SS, cT_cosh. rewrite !S_INR in *.
    replace ((2 * cosh a * dT (S n) (cosh a) - dT n (cosh a) + 2 * cosh ((INR n + 1) * a)) * sinh a)
      with (2 * cosh a * (dT (S n) (cosh a) * sinh a) - dT n (cosh a) * sinh a + 2 * cosh ((INR n + 1) * a) * sinh a) by ring.
    rewrite A, B.
    replace ((INR n + 1 + 1) * a) with ((INR n + 1) * a + a) by ring. replace (INR n * a) with ((INR n + 1) * a + - a) at 1 by ring.
    rewrite !sinh_plus, cosh_opp, sinh_opp. ring.
Qed.
Lemma d2T_cosh n a : d2T n (cosh a) * (sinh a * sinh a) = INR n * INR n * cosh (INR n * a) - cosh a * dT n (cosh a).
Proof.
  revert n. apply (two_step (fun n => d2T n (cosh a) * (sinh a * sinh a) = INR n * INR n * cosh (INR n * a) - cosh a * dT n (cosh a))).
  - simpl. ring.
  - simpl. rewrite !Rmult_1_l. ring.
  - intros n A B. rewrite d2T_SS.
    replace ((2 * cosh a * d2T (S n) (cosh a) - d2T n (cosh a) + 4 * dT (S n) (cosh a)) * (sinh a * sinh a))
      with (2 * cosh a * (d2T (S n) (cosh a) * (sinh a * sinh a)) - d2T n (cosh a) * (sinh a * sinh a) + 4 * sinh a * (dT (S n) (cosh a) * sinh a)) by ring.
    rewrite A, B, dT_SS, cT_cosh, dT_cosh. rewrite !S_INR.
    replace ((INR n + 1 + 1) * a) with ((INR n + 1) * a + a) by ring. replace (INR n * a) with ((INR n + 1) * a + - a) at 1 by ring.
    rewrite !cosh_plus, cosh_opp, sinh_opp. ring.
Qed.

(** *** signs and monotonicity for x >= 1 *)
Lemma T_mono n x : 1 <= x -> 1 <= cT n x /\ cT n x <= cT (S n) x.
Proof.
  intros H. induction n as [|n [A B]]; [simpl; lra|]. split; [lra|]. rewrite cT_SS. nra.
Qed.
Lemma dT_mono n x : 1 <= x -> 0 <= dT n x /\ dT n x + 1 <= dT (S n) x.
Proof.
  intros H. induction n as [|n [A B]]; [simpl; lra|]. split; [lra|]. rewrite dT_SS. pose proof (T_mono (S n) x H). nra.
Qed.
Lemma d2T_mono n x : 1 <= x -> 0 <= d2T n x /\ d2T n x <= d2T (S n) x.
Proof.
  intros H. induction n as [|n [A B]]; [simpl; lra|]. split; [lra|]. rewrite d2T_SS. pose proof (dT_mono (S n) x H). nra.
Qed.
Lemma dT_pos n x : 1 <= x -> (1 <= n)%nat -> 0 < dT n x.
Proof. intros H Hn. destruct n; [lia|]. pose proof (dT_mono n x H). lra. Qed.
Lemma d2T_pos n x : 1 <= x -> (2 <= n)%nat -> 0 < d2T n x.
Proof.
  intros H Hn. destruct n as [|[|n]]; [lia|lia|]. rewrite d2T_SS. pose proof (d2T_mono n x H). pose proof (dT_pos (S n) x H ltac:(lia)). nra.
Qed.
(** T_n'(x) >= n^2 *)
Lemma dT_ge n x : 1 <= x -> INR n * INR n <= dT n x /\ dT n x + (2 * INR n + 1) <= dT (S n) x.
Proof.
  intros H. induction n as [|n [A B]]; [simpl; lra|]. rewrite !S_INR in *. split; [nra|].
  rewrite dT_SS. pose proof (T_mono (S n) x H). pose proof (pos_INR n). assert (0 <= dT (S n) x) by nra. nra.
Qed.

(** *** size of T_n *)
Lemma cT_abs_le1 n x : -1 <= x <= 1 -> -1 <= cT n x <= 1.
Proof. intros H. rewrite <- (cos_acos x H), cT_cos. apply COS_bound. Qed.
Lemma cT_incr n x y : 1 <= x -> x <= y -> cT n x <= cT n y.
Proof.
  intros H1 H2. destruct (Req_dec x y) as [->|Hn]; [lra|].
  destruct (MVT_gen (cT n) x y (dT n)) as (c & Hc & E).
  - intros z _. apply cT_derive.
  - intros z _. apply continuity_pt_filterlim. apply (ex_derive_continuous (cT n)). eexists. apply cT_derive.
  - rewrite Rmin_left, Rmax_right in Hc by lra. pose proof (dT_mono n c ltac:(lra)). nra.
Qed.
Lemma cT_range n x w : 1 <= w -> -1 <= x <= w -> -1 <= cT n x <= cT n w.
Proof.
  intros Hw Hx. pose proof (T_mono n w Hw). destruct (Rle_dec x 1).
  - pose proof (cT_abs_le1 n x ltac:(lra)). lra.
  - pose proof (T_mono n x ltac:(lra)). pose proof (cT_incr n x w ltac:(lra) ltac:(lra)). lra.
Qed.

(** *** b_n = T_n''/T_n'^2, and the stability polynomial *)
Definition bT (n : nat) (w : R) : R := d2T n w / (dT n w * dT n w).
Definition w1T (n : nat) (w : R) : R := dT n w / d2T n w.
(** the polynomial 1 - b T(w) + b T(w + w1 z) *)
Definition rkcP (n : nat) (w z : R) : R := 1 - bT n w * cT n w + bT n w * cT n (w + w1T n w * z).

(** Pell equation and differential equation at w > 1 *)
Lemma cheb_pell n w : 1 < w -> (w * w - 1) * (dT n w * dT n w) = INR n * INR n * (cT n w * cT n w - 1).
Proof.
  intros H. destruct (acosh_spec w ltac:(lra)) as (C & S & P). set (a := acosh w) in *. rewrite <- C.
  rewrite cT_cosh. rewrite (cosh2_sinh2 a). rewrite (cosh2_sinh2 (INR n * a)).
  replace ((1 + sinh a * sinh a - 1) * (dT n (cosh a) * dT n (cosh a))) with ((dT n (cosh a) * sinh a) * (dT n (cosh a) * sinh a)) by ring.
  rewrite dT_cosh. ring.
Qed.
Lemma cheb_ode n w : 1 < w -> (w * w - 1) * d2T n w = INR n * INR n * cT n w - w * dT n w.
Proof.
  intros H. destruct (acosh_spec w ltac:(lra)) as (C & S & P). set (a := acosh w) in *.
  pose proof (d2T_cosh n a) as D. rewrite <- cT_cosh, C in D. rewrite <- D. rewrite <- C. rewrite (cosh2_sinh2 a). ring.
Qed.
Lemma bT_bound n w : 1 < w -> (2 <= n)%nat -> 0 < bT n w /\ bT n w * (cT n w + 1) <= 1.
Proof.
  intros H Hn. pose proof (dT_pos n w ltac:(lra) ltac:(lia)) as D1. pose proof (d2T_pos n w ltac:(lra) Hn) as D2.
  assert (Q : 0 < dT n w * dT n w) by nra.
  split; [unfold bT; apply Rdiv_lt_0_compat; lra|]. unfold bT.
  replace (d2T n w / (dT n w * dT n w) * (cT n w + 1)) with (d2T n w * (cT n w + 1) / (dT n w * dT n w)) by (field; lra).
  apply Rmult_le_reg_r with (dT n w * dT n w); [exact Q|]. unfold Rdiv. rewrite Rmult_assoc, Rinv_l by lra. rewrite Rmult_1_l, Rmult_1_r.
  apply Rmult_le_reg_l with (w * w - 1); [nra|]. rewrite cheb_pell by exact H. rewrite <- Rmult_assoc, cheb_ode by exact H.
  pose proof (T_mono n w ltac:(lra)) as [T1 _]. pose proof (dT_ge n w ltac:(lra)) as [T2 _].
  assert (INR n * INR n <= w * dT n w) by nra.
  replace (INR n * INR n * (cT n w * cT n w - 1)) with ((INR n * INR n * (cT n w - 1)) * (cT n w + 1)) by ring.
  apply Rmult_le_compat_r; [lra|]. nra.
Qed.
Theorem rkcP_range n w z : 1 < w -> (2 <= n)%nat -> - ((w + 1) / w1T n w) <= z <= 0 -> 0 <= rkcP n w z <= 1.
Proof.
  intros H Hn Hz. destruct (bT_bound n w H Hn) as [B0 B1].
  assert (W : 0 < w1T n w) by (unfold w1T; apply Rdiv_lt_0_compat; [apply dT_pos; [lra|lia]|apply d2T_pos; [lra|exact Hn]]).
  assert (X : -1 <= w + w1T n w * z <= w).
  { split; [|nra]. assert (- (w + 1) <= w1T n w * z); [|lra]. destruct Hz as [Hz _].
    apply Rmult_le_compat_l with (r := w1T n w) in Hz; [|lra]. replace (w1T n w * - ((w + 1) / w1T n w)) with (- (w + 1)) in Hz by (field; lra). exact Hz. }
  pose proof (cT_range n _ w ltac:(lra) X). unfold rkcP. nra.
Qed.

(** *** the length of the stability interval *)
Lemma mono0 (g g' : R -> R) : g 0 = 0 -> (forall x, 0 <= x -> is_derive g x (g' x)) -> (forall x, 0 <= x -> 0 <= g' x) -> forall x, 0 <= x -> 0 <= g x.
Proof.
  intros H0 Hd Hp x Hx. destruct (Req_dec x 0) as [->|Hn]; [lra|].
  destruct (MVT_gen g 0 x g') as (c & Hc & E).
  - rewrite Rmin_left, Rmax_right by lra. intros z Hz. apply Hd. lra.
  - rewrite Rmin_left, Rmax_right by lra. intros z Hz. apply continuity_pt_filterlim. apply (ex_derive_continuous g). eexists. apply Hd. lra.
  - rewrite Rmin_left, Rmax_right in Hc by lra. specialize (Hp c ltac:(lra)). nra.
Qed.
Ltac dhyp := unfold cosh, sinh; auto_derive; [exact I|]; unfold cosh, sinh; field.
Lemma hyp1 x : 0 <= x -> 0 <= x * cosh x - sinh x.
Proof.
  revert x; apply (mono0 (fun x => x * cosh x - sinh x) (fun x => x * sinh x)); [rewrite sinh_0; ring| |]; intros; [dhyp|]. apply Rmult_le_pos; [lra|apply sinh_nonneg; lra].
Qed.
Lemma hyp2 x : 0 <= x -> 0 <= (3 + x * x) * sinh x - 3 * x * cosh x.
Proof.
  revert x; apply (mono0 (fun x => (3 + x * x) * sinh x - 3 * x * cosh x) (fun x => x * (x * cosh x - sinh x))); [rewrite sinh_0; ring| |]; intros; [dhyp|]. apply Rmult_le_pos; [lra|apply hyp1; lra].
Qed.
Lemma hyp3 x : 0 <= x -> 0 <= (15 * x + x * x * x) * cosh x - (15 + 6 * x * x) * sinh x.
Proof.
  revert x; apply (mono0 (fun x => (15 * x + x * x * x) * cosh x - (15 + 6 * x * x) * sinh x) (fun x => x * ((3 + x * x) * sinh x - 3 * x * cosh x))); [rewrite sinh_0; ring| |]; intros; [dhyp|]. apply Rmult_le_pos; [lra|apply hyp2; lra].
Qed.
Lemma hyp4 x : 0 <= x -> 0 <= cosh x - 1 - x * x / 2.
Proof.
  assert (P : forall x, 0 <= x -> 0 <= sinh x - x).
  { apply (mono0 (fun x => sinh x - x) (fun x => cosh x - 1)); [rewrite sinh_0; ring| |]; intros; [dhyp|]. pose proof (cosh_ge1 x0); lra. }
  revert x; apply (mono0 (fun x => cosh x - 1 - x * x / 2) (fun x => sinh x - x)); [rewrite cosh_0; field| |]; intros; [dhyp|]. apply P; lra.
Qed.

(** the argument of the code *)
Definition w0T (n : nat) : R := 1 + 2 / (13 * (INR n * INR n)).
Lemma w0T_gt n : (1 <= n)%nat -> 1 < w0T n.
Proof. intros H. unfold w0T. apply (le_INR 1) in H. simpl in H. assert (0 < 2 / (13 * (INR n * INR n))) by (apply Rdiv_lt_0_compat; nra). lra. Qed.

Lemma beta_red n (x : R) : 1 < x -> (2 <= n)%nat -> (x + 1) / w1T n x = (INR n * INR n * cT n x / dT n x - x) / (x - 1).
Proof.
  intros Hx Hn. pose proof (dT_pos n x ltac:(lra) ltac:(lia)). pose proof (d2T_pos n x ltac:(lra) Hn). unfold w1T.
  pose proof (cheb_ode n x Hx) as O. apply Rmult_eq_reg_r with ((x - 1) * dT n x); [|apply Rmult_integral_contrapositive_currified; lra].
  replace ((x + 1) / (dT n x / d2T n x) * ((x - 1) * dT n x)) with ((x * x - 1) * d2T n x) by (field; lra). rewrite O. field. lra.
Qed.

Lemma sq_lb e : 0 <= e <= 1 -> 1 + e / 4 - e * e / 32 <= sqrt (1 + e / 2).
Proof.
  intros H. rewrite <- (sqrt_square (1 + e / 4 - e * e / 32)) by nra. apply sqrt_le_1; [nra|lra|].
  assert (0 <= e * e) by nra. assert (0 <= e * e * e) by nra.
  replace ((1 + e / 4 - e * e / 32) * (1 + e / 4 - e * e / 32)) with (1 + e / 2 - e * e * e / 64 + e * e * (e * e) / 1024) by field. nra.
Qed.

Lemma beta_large n : (5 <= n)%nat -> (INR n * INR n - 1) / (154 / 100) <= (w0T n + 1) / w1T n (w0T n).
Proof.
  intros Hn. assert (HN : 5 <= INR n) by (apply (le_INR 5) in Hn; simpl in Hn; lra).
  set (N := INR n) in *. set (e := 2 / (13 * (N * N))). assert (Ex : w0T n = 1 + e) by reflexivity. assert (He : 0 < e) by (apply Rdiv_lt_0_compat; nra).
  assert (Ne : N * N * e = 2 / 13) by (unfold e; field; lra).
  assert (He2 : e <= 2 / 325) by (assert (25 <= N * N) by nra; assert (25 * e <= N * N * e) by (apply Rmult_le_compat_r; lra); lra).
  clearbody e.
  pose proof (w0T_gt n ltac:(lia)) as W. rewrite (beta_red n (w0T n) W) by lia.
  rewrite Ex in *. fold N.
  replace (1 + e - 1) with e by ring.
  set (a := acosh (1 + e)). destruct (acosh_spec (1 + e) ltac:(lra)) as (C & Sh & Pa). fold a in C, Sh, Pa.
  assert (Hs : 0 < sinh a) by (rewrite Sh; apply sqrt_lt_R0; nra).
  assert (Hc : cT n (1 + e) = cosh (N * a)) by (rewrite <- C at 1; apply cT_cosh).
  assert (Hd : dT n (1 + e) * sinh a = N * sinh (N * a)) by (rewrite <- C at 1; apply dT_cosh).
  pose proof (dT_pos n (1 + e) ltac:(lra) ltac:(lia)) as D1.
  assert (Hsn : 0 < sinh (N * a)) by (assert (0 < dT n (1 + e) * sinh a) by nra; nra).
  assert (Q : N * N * cT n (1 + e) / dT n (1 + e) = N * sinh a * (cosh (N * a) / sinh (N * a))).
  { rewrite Hc. replace (dT n (1 + e)) with (N * sinh (N * a) / sinh a) by (rewrite <- Hd; field; lra). field. repeat split; lra. }
  rewrite Q.
  set (S := sqrt (4 / 13)). assert (S2 : S * S = 4 / 13) by (apply sqrt_sqrt; lra). assert (SP : 0 < S) by (apply sqrt_lt_R0; lra).
  (* N sinh a = S sqrt(1 + e/2) *)
  assert (E1 : N * sinh a = S * sqrt (1 + e / 2)).
  { rewrite Sh. unfold S. rewrite <- sqrt_mult by lra. rewrite <- (sqrt_square N) at 1 by lra. rewrite <- sqrt_mult by nra. f_equal. nra. }
  (* N a <= S *)
  assert (E2 : N * a <= S).
  { pose proof (hyp4 a Pa) as H4. rewrite C in H4. assert (a * a <= 2 * e) by lra.
    apply Rsqr_incr_0_var; [|lra]. unfold Rsqr. nra. }
  assert (E3 : cosh S / sinh S <= cosh (N * a) / sinh (N * a)).
  { pose proof (sinh_pos S SP). apply Rmult_le_reg_r with (sinh S * sinh (N * a)); [nra|].
    replace (cosh S / sinh S * (sinh S * sinh (N * a))) with (cosh S * sinh (N * a)) by (field; lra).
    replace (cosh (N * a) / sinh (N * a) * (sinh S * sinh (N * a))) with (cosh (N * a) * sinh S) by (field; lra).
    pose proof (sinh_nonneg (S + - (N * a)) ltac:(lra)) as X. rewrite sinh_plus, cosh_opp, sinh_opp in X. lra. }
  assert (E4 : 219 / 199 <= S * (cosh S / sinh S)).
  { pose proof (hyp3 S ltac:(lra)) as H3. pose proof (sinh_pos S SP).
    replace (15 * S + S * S * S) with (S * (15 + S * S)) in H3 by ring. replace (15 + 6 * S * S) with (15 + 6 * (S * S)) in H3 by ring. rewrite S2 in H3.
    apply Rmult_le_reg_r with (sinh S); [lra|]. replace (S * (cosh S / sinh S) * sinh S) with (S * cosh S) by (field; lra). lra. }
  pose proof (sq_lb e ltac:(lra)) as E5.
  assert (E6 : 219 / 199 * (1 + e / 4 - e * e / 32) <= N * sinh a * (cosh (N * a) / sinh (N * a))).
  { rewrite E1. replace (S * sqrt (1 + e / 2) * (cosh (N * a) / sinh (N * a))) with ((S * (cosh (N * a) / sinh (N * a))) * sqrt (1 + e / 2)) by ring.
    apply Rmult_le_compat; [lra|nra| |exact E5]. eapply Rle_trans; [exact E4|]. apply Rmult_le_compat_l; lra. }
  apply Rmult_le_reg_r with e; [exact He|].
  set (Z := N * sinh a * (cosh (N * a) / sinh (N * a))) in *. replace ((Z - (1 + e)) / e * e) with (Z - (1 + e)) by (field; lra).
  replace ((N * N - 1) / (154 / 100) * e) with ((N * N * e - e) / (154 / 100)) by field. rewrite Ne. nra.
Qed.

Theorem beta_bound n : (2 <= n)%nat -> (INR n * INR n - 1) / (154 / 100) <= (w0T n + 1) / w1T n (w0T n).
Proof.
  intros Hn. destruct (le_lt_dec 5 n) as [H|H]; [apply beta_large; exact H|].
  assert (n = 2 \/ n = 3 \/ n = 4)%nat as [->|[->| ->]] by lia; unfold w0T, w1T; simpl; lra.
Qed.
