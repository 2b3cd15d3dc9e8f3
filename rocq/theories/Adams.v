(** Divided differences, Newton interpolation and the integrals of the variable
    step Adams formulas, over the reals. *)
From Coq Require Import Reals Lra Psatz Lia List Arith.
From Coquelicot Require Import Coquelicot.
From Verif Require Import Series.
Import ListNotations.
Open Scope R_scope.
Ltac eqR := lazymatch goal with |- @eq _ ?a ?b => change (@eq R a b) end.

(** polynomials: coefficient lists, lowest degree first *)
Fixpoint peval (p : list R) (x : R) : R := match p with [] => 0 | a :: p' => a + x * peval p' x end.
Fixpoint paux (n : nat) (p : list R) : list R := match p with [] => [] | a :: p' => INR n * a :: paux (S n) p' end.
Definition pderiv (p : list R) : list R := match p with [] => [] | _ :: p' => paux 1 p' end.
Lemma paux_length n p : length (paux n p) = length p. Proof. revert n. induction p; intros; cbn; auto. Qed.
Lemma pderiv_length p : length (pderiv p) = (length p - 1)%nat. Proof. destruct p; cbn; [reflexivity|]. rewrite paux_length. lia. Qed.
Lemma paux_eval n p x : peval (paux (S n) p) x = INR n * peval p x + peval (paux 1 p) x + x * 0.
Proof.
  revert n. induction p as [|a p IH]; intros n; cbn [paux peval]; [ring|]. rewrite (IH (S n)), (IH 1%nat). rewrite !S_INR. cbn [INR]. ring.
Qed.
Lemma peval_deriv p x : is_derive (peval p) x (peval (pderiv p) x).
Proof.
  induction p as [|a p IH]; [change (is_derive (fun _ : R => 0) x 0); auto_derive; [exact I|reflexivity]|]. cbn [pderiv].
  replace (peval (paux 1 p) x) with (0 + (1 * peval p x + x * peval (pderiv p) x)).
  - apply (is_derive_plus (fun _ => a) (fun x => x * peval p x)); [auto_derive; [exact I|reflexivity]|].
    apply (is_derive_mult (fun x => x) (peval p) x 1 (peval (pderiv p) x)); [auto_derive; [exact I|reflexivity]|exact IH|intros; apply Rmult_comm].
  - destruct p as [|b p]; cbn [pderiv paux peval]; [ring|]. rewrite (paux_eval 1 p x). cbn [INR]. ring.
Qed.
Lemma peval_cont p x : continuous (peval p) x.
Proof. apply (ex_derive_continuous (peval p)). eexists. apply peval_deriv. Qed.

(** divided differences: dd t f n a = f[t_a, ..., t_(a+n)] *)
Fixpoint dd (t f : nat -> R) (n a : nat) : R :=
  match n with O => f a | S m => (dd t f m a - dd t f m (S a)) / (t a - t (a + S m)%nat) end.
(** product of x - t_j, j < n *)
Fixpoint nprod (t : nat -> R) (n : nat) (x : R) : R := match n with O => 1 | S m => nprod t m x * (x - t m) end.
(** a new point in front *)
Definition cons (x : R) (t : nat -> R) (j : nat) : R := match j with O => x | S i => t i end.

Lemma dd_shift x y t f n a : dd (cons x t) (cons y f) n (S a) = dd t f n a.
Proof. revert a. induction n as [|n IH]; intros a; [reflexivity|]. cbn [dd]. rewrite !IH. reflexivity. Qed.
Lemma dd_ext t t' f f' n a : (forall j, (a <= j <= a + n)%nat -> t j = t' j /\ f j = f' j) -> dd t f n a = dd t' f' n a.
Proof.
  revert a. induction n as [|n IH]; intros a H; cbn [dd]; [apply H; lia|].
  rewrite (IH a), (IH (S a)) by (intros; apply H; lia). destruct (H a ltac:(lia)) as [-> _]. destruct (H (a + S n)%nat ltac:(lia)) as [-> _]. reflexivity.
Qed.
Definition distinct (t : nat -> R) (n : nat) : Prop := forall i j, (i < j)%nat -> (j < n)%nat -> t i <> t j.

(** Leibniz with x *)
Lemma dd_xmul t f n a : (forall i j, (a <= i < j)%nat -> (j <= a + S n)%nat -> t i <> t j) ->
  dd t (fun j => t j * f j) (S n) a = t a * dd t f (S n) a + dd t f n (S a).
Proof.
  revert a. induction n as [|n IH]; intros a H.
  - cbn [dd]. assert (t a - t (a + 1)%nat <> 0) by (intros X; apply (H a (a + 1)%nat); [lia|lia|lra]). replace (S a) with (a + 1)%nat by lia. field. assumption.
  - change (dd t (fun j => t j * f j) (S (S n)) a) with ((dd t (fun j => t j * f j) (S n) a - dd t (fun j => t j * f j) (S n) (S a)) / (t a - t (a + S (S n))%nat)).
    rewrite IH by (intros; apply H; lia). rewrite IH by (intros; apply H; lia).
    change (dd t f (S (S n)) a) with ((dd t f (S n) a - dd t f (S n) (S a)) / (t a - t (a + S (S n))%nat)).
    assert (D : t a - t (a + S (S n))%nat <> 0) by (intros X; apply (H a (a + S (S n))%nat); [lia|lia|lra]).
    assert (D2 : t (S a) - t (S a + S n)%nat <> 0) by (intros X; apply (H (S a) (S a + S n)%nat); [lia|lia|lra]).
    assert (E : dd t f n (S a) - dd t f n (S (S a)) = (t (S a) - t (S a + S n)%nat) * dd t f (S n) (S a)) by (cbn [dd]; field; exact D2).
    replace (a + S (S n))%nat with (S a + S n)%nat in * by lia.
    replace (dd t f n (S (S a))) with (dd t f n (S a) - (t (S a) - t (S a + S n)%nat) * dd t f (S n) (S a)) by lra. field. exact D.
Qed.
Lemma dd_const t c n a : (forall i j, (a <= i < j)%nat -> (j <= a + n)%nat -> t i <> t j) -> dd t (fun _ => c) n a = match n with O => c | _ => 0 end.
Proof.
  revert a. induction n as [|n IH]; intros a H; [reflexivity|]. cbn [dd]. rewrite !IH by (intros; apply H; lia).
  assert (t a - t (a + S n)%nat <> 0) by (intros X; apply (H a (a + S n)%nat); [lia|lia|lra]). destruct n; field; assumption.
Qed.
Lemma dd_plus t f g n a : (forall i j, (a <= i < j)%nat -> (j <= a + n)%nat -> t i <> t j) -> dd t (fun j => f j + g j) n a = dd t f n a + dd t g n a.
Proof.
  revert a. induction n as [|n IH]; intros a H; [reflexivity|]. cbn [dd]. rewrite !IH by (intros; apply H; lia).
  assert (t a - t (a + S n)%nat <> 0) by (intros X; apply (H a (a + S n)%nat); [lia|lia|lra]). field. assumption.
Qed.
(** n+1 points: polynomials with at most n+1 coefficients give their coefficient n *)
Lemma dd_poly t p n a : (forall i j, (a <= i < j)%nat -> (j <= a + n)%nat -> t i <> t j) -> (length p <= S n)%nat ->
  dd t (fun j => peval p (t j)) n a = nth n p 0.
Proof.
  revert n a. induction p as [|c p IH]; intros n a H L.
  - cbn [peval]. rewrite (dd_const t 0) by exact H. destruct n; reflexivity.
  - cbn [peval]. rewrite (dd_plus t (fun _ => c) (fun j => t j * peval p (t j))) by exact H. rewrite (dd_const t c) by exact H. destruct n as [|n].
    + destruct p; [cbn; ring|cbn in L; lia].
    + rewrite (dd_xmul t (fun j => peval p (t j))) by exact H. cbn [length] in L. rewrite (IH n (S a)) by (try (intros; apply H; lia); lia).
      assert (E : dd t (fun j => peval p (t j)) (S n) a = 0).
      { rewrite (IH (S n) a) by (try exact H; lia). apply nth_overflow. lia. }
      rewrite E. cbn [nth]. ring.
Qed.

(** Newton: remainder after m terms *)
Lemma newton_rem t f x y m : (forall j, (j < m)%nat -> x <> t j) ->
  dd (cons x t) (cons y f) m 0 * nprod t m x = y - rsum m (fun l => dd t f l 0 * nprod t l x).
Proof.
  induction m as [|m IH]; intros H; [cbn; ring|]. cbn [nprod rsum].
  change (dd (cons x t) (cons y f) (S m) 0) with ((dd (cons x t) (cons y f) m 0 - dd (cons x t) (cons y f) m 1) / (x - t m)).
  rewrite dd_shift. assert (x - t m <> 0) by (specialize (H m); intros X; apply H; [lia|lra]).
  transitivity (dd (cons x t) (cons y f) m 0 * nprod t m x - dd t f m 0 * nprod t m x); [field; assumption|]. rewrite IH by (intros; apply H; lia). ring.
Qed.
Lemma nprod_nz t n x : (forall j, (j < n)%nat -> x <> t j) -> nprod t n x <> 0.
Proof. induction n as [|n IH]; intros H; cbn [nprod]; [lra|]. apply Rmult_integral_contrapositive_currified; [apply IH; intros; apply H; lia|]. specialize (H n ltac:(lia)). lra. Qed.

(** *** the coefficients *)
(** c_l(u) = product of 1 - al_j u, j < l *)
Fixpoint cpoly (al : nat -> R) (l : nat) (u : R) : R := match l with O => 1 | S m => cpoly al m u * (1 - al m * u) end.
Fixpoint Wr (al : nat -> R) (l i : nat) : R :=
  match l with O => 1 / (INR (i + 1) * (INR (i + 1) + 1)) | S m => Wr al m i - al (S m) * Wr al m (i + 1) end.
Definition gr (al : nat -> R) (i : nat) : R := match i with O => 1 | S O => 1/2 | S l => Wr al l 0 end.

Lemma Wr_int al l i : al 0%nat = 1 -> is_RInt (fun u => u ^ i * cpoly al (S l) u) 0 1 (Wr al l i).
Proof.
  intros H0. revert i. induction l as [|l IH]; intros i.
  - cbn [cpoly Wr]. rewrite H0. pose proof (pos_INR i).
    replace (1 / (INR (i + 1) * (INR (i + 1) + 1))) with (minus ((fun u => u ^ (i + 1) / INR (i + 1) - u ^ (i + 2) / INR (i + 2)) 1) ((fun u => u ^ (i + 1) / INR (i + 1) - u ^ (i + 2) / INR (i + 2)) 0)).
    + apply (is_RInt_ext (fun u => u ^ i - u ^ (i + 1))); [intros; eqR; rewrite pow_add; cbn [pow]; ring|].
      apply (is_RInt_derive (fun u => u ^ (i + 1) / INR (i + 1) - u ^ (i + 2) / INR (i + 2)) (fun u => u ^ i - u ^ (i + 1))).
      * intros x _. auto_derive; [exact I|]. replace (Init.Nat.pred (i + 1)) with i by lia. replace (Init.Nat.pred (i + 2)) with (i + 1)%nat by lia. rewrite !plus_INR. cbn [INR]. field. lra.
      * intros x _. apply (ex_derive_continuous (fun u => u ^ i - u ^ (i + 1))). auto_derive. exact I.
    + unfold minus, plus, opp; cbn. rewrite !pow1. rewrite !pow_i by lia. rewrite !plus_INR. cbn [INR]. field. lra.
  - cbn [Wr]. apply (is_RInt_ext (fun u => minus (u ^ i * cpoly al (S l) u) (scal (al (S l)) (u ^ (i + 1) * cpoly al (S l) u)))).
    + intros u _. unfold minus, plus, opp, scal; cbn [cpoly AbelianGroup.plus]. cbn. unfold mult; cbn. rewrite pow_add. cbn [pow]. ring.
    + apply (is_RInt_minus (V := R_NormedModule)); [apply IH|]. apply (is_RInt_scal (V := R_NormedModule)). apply IH.
Qed.
Lemma gr_int al l : al 0%nat = 1 -> is_RInt (cpoly al l) 0 1 (gr al l).
Proof.
  intros H0. destruct l as [|l].
  - cbn [cpoly gr]. replace 1 with (scal (1 - 0) 1) at 2 by (unfold scal; cbn; unfold mult; cbn; ring). apply (is_RInt_const (V := R_NormedModule) 0 1 1).
  - apply (is_RInt_ext (fun u => u ^ 0 * cpoly al (S l) u)); [intros; eqR; cbn [pow]; ring|]. replace (gr al (S l)) with (Wr al l 0); [apply Wr_int; exact H0|]. destruct l; [cbn; field|reflexivity].
Qed.

(** alpha_j = h/(t1 - t_j) turns the node products into cpoly *)
Lemma cpoly_nprod t t1 h al l x : h <> 0 -> (forall j, (j < l)%nat -> t1 <> t j) -> (forall j, (j < l)%nat -> al j = h / (t1 - t j)) ->
  cpoly al l ((t1 - x) / h) = nprod t l x / nprod t l t1.
Proof.
  intros Hh. induction l as [|l IH]; intros H1 H2; cbn [cpoly nprod]; [field|].
  rewrite IH by (intros; first [apply H1|apply H2]; lia). rewrite H2 by lia. assert (t1 - t l <> 0) by (specialize (H1 l ltac:(lia)); lra).
  assert (nprod t l t1 <> 0) by (apply nprod_nz; intros; apply H1; lia). field. repeat split; assumption.
Qed.
Lemma nprod_int t t1 al l : t1 <> t 0%nat -> (forall j, (j < l)%nat -> t1 <> t j) -> al 0%nat = 1 -> (forall j, (j < l)%nat -> al j = (t1 - t 0%nat) / (t1 - t j)) ->
  is_RInt (nprod t l) (t 0%nat) t1 ((t1 - t 0%nat) * gr al l * nprod t l t1).
Proof.
  intros H0 H1 Ha0 H2. set (h := t1 - t 0%nat) in *. assert (Hh : h <> 0) by (unfold h; lra).
  pose proof (gr_int al l Ha0) as G. apply (is_RInt_swap (V := R_NormedModule)) in G.
  assert (G2 : is_RInt (cpoly al l) (- / h * t 0%nat + t1 / h) (- / h * t1 + t1 / h) (opp (gr al l))).
  { replace (- / h * t 0%nat + t1 / h) with 1 by (unfold h in *; field; exact Hh). replace (- / h * t1 + t1 / h) with 0 by (field; exact Hh). exact G. }
  apply (is_RInt_comp_lin (V := R_NormedModule)) in G2.
  apply (is_RInt_scal (V := R_NormedModule) _ _ _ (- (h * nprod t l t1))) in G2.
  replace (h * gr al l * nprod t l t1) with (scal (- (h * nprod t l t1)) (opp (gr al l))) by (unfold scal, opp; cbn; unfold mult; cbn; ring).
  eapply is_RInt_ext; [|exact G2]. intros x _. unfold scal; cbn; unfold mult; cbn.
  replace (- / h * x + t1 / h) with ((t1 - x) / h) by (field; exact Hh). rewrite (cpoly_nprod t t1 h al l x Hh H1 H2). field. split; [apply nprod_nz; exact H1|exact Hh].
Qed.

Lemma rsum_int (F : nat -> R -> R) (I : nat -> R) a b n : (forall l, (l < n)%nat -> is_RInt (F l) a b (I l)) -> is_RInt (fun x => rsum n (fun l => F l x)) a b (rsum n I).
Proof.
  induction n as [|n IH]; intros H; cbn [rsum].
  - pose proof (is_RInt_const (V := R_NormedModule) a b 0) as E. assert (Z : (b - a) * 0 = 0) by ring. change (is_RInt (fun _ : R => 0) a b ((b - a) * 0)) in E. rewrite Z in E. exact E.
  - apply (is_RInt_plus (V := R_NormedModule)); [apply IH; intros; apply H; lia|apply H; lia].
Qed.

Lemma poly_int S a b : is_RInt (peval (pderiv S)) a b (peval S b - peval S a).
Proof. apply (is_RInt_derive (peval S) (peval (pderiv S))); [intros; apply peval_deriv|intros; apply peval_cont]. Qed.

(** the points before t1: nodes t_0, ..., t_(k-1), none between t_0 and t1 *)
Definition outside (t : nat -> R) (t1 : R) (k : nat) : Prop := forall j x, (j < k)%nat -> Rmin (t 0%nat) t1 < x < Rmax (t 0%nat) t1 -> x <> t j.

(** Adams-Bashforth: exact if S' has the values f at the nodes *)
Theorem predictor_exact t t1 al f k S : (1 <= k)%nat -> distinct t k -> (forall j, (j < k)%nat -> t1 <> t j) -> outside t t1 k ->
  (forall j, (j < k)%nat -> al j = (t1 - t 0%nat) / (t1 - t j)) -> (length S <= k + 1)%nat -> (forall j, (j < k)%nat -> f j = peval (pderiv S) (t j)) ->
  peval S t1 - peval S (t 0%nat) = (t1 - t 0%nat) * rsum k (fun l => gr al l * (dd t f l 0 * nprod t l t1)).
Proof.
  intros Hk HD H1 HO Ha HL Hf.
  assert (A0 : al 0%nat = 1) by (rewrite Ha by lia; specialize (H1 0%nat ltac:(lia)); field; lra).
  assert (I1 : is_RInt (fun x => rsum k (fun l => dd t f l 0 * nprod t l x)) (t 0%nat) t1 (rsum k (fun l => dd t f l 0 * ((t1 - t 0%nat) * gr al l * nprod t l t1)))).
  { apply rsum_int. intros l Hl. apply (is_RInt_scal (V := R_NormedModule) (nprod t l)). apply nprod_int; [apply H1; lia|intros; apply H1; lia|exact A0|intros; apply Ha; lia]. }
  assert (I2 : is_RInt (fun x => rsum k (fun l => dd t f l 0 * nprod t l x)) (t 0%nat) t1 (peval S t1 - peval S (t 0%nat))).
  { eapply is_RInt_ext; [|apply poly_int]. intros x Hx. set (Q := pderiv S).
    assert (N : forall j, (j < k)%nat -> x <> t j) by (intros j Hj; apply (HO j x Hj Hx)).
    pose proof (newton_rem t f x (peval Q x) k N) as R.
    assert (Z : dd (cons x t) (cons (peval Q x) f) k 0 = 0).
    { rewrite (dd_ext _ (cons x t) _ (fun j => peval Q (cons x t j))).
      - rewrite dd_poly.
        + apply nth_overflow. unfold Q. rewrite pderiv_length. lia.
        + intros i j Hij Hj. destruct j as [|j]; [lia|]. destruct i as [|i]; cbn [cons]; [apply N; lia|apply HD; lia].
        + unfold Q. rewrite pderiv_length. lia.
      - intros j Hj. split; [reflexivity|]. destruct j as [|j]; [reflexivity|]. cbn [cons]. apply Hf. lia. }
    rewrite Z in R. lra. }
  rewrite <- (is_RInt_unique _ _ _ _ I2), (is_RInt_unique _ _ _ _ I1), <- rsum_scal. apply rsum_ext. intros l Hl. ring.
Qed.

(** Adams-Moulton: exact if S' has the values f at the nodes and fp at t1 *)
Theorem corrector_exact t t1 al f fp k S : (1 <= k)%nat -> distinct t k -> (forall j, (j < k)%nat -> t1 <> t j) -> outside t t1 k ->
  (forall j, (j < k)%nat -> al j = (t1 - t 0%nat) / (t1 - t j)) -> (length S <= k + 2)%nat -> (forall j, (j < k)%nat -> f j = peval (pderiv S) (t j)) -> fp = peval (pderiv S) t1 ->
  peval S t1 - peval S (t 0%nat) = (t1 - t 0%nat) * rsum k (fun l => gr al l * (dd t f l 0 * nprod t l t1))
     + (t1 - t 0%nat) * gr al k * (fp - rsum k (fun l => dd t f l 0 * nprod t l t1)).
Proof.
  intros Hk HD H1 HO Ha HL Hf Hfp. set (Q := pderiv S) in *. assert (LQ : (length Q <= k + 1)%nat) by (unfold Q; rewrite pderiv_length; lia).
  assert (A0 : al 0%nat = 1) by (rewrite Ha by lia; specialize (H1 0%nat ltac:(lia)); field; lra).
  assert (LC : forall x, (forall j, (j < k)%nat -> x <> t j) -> dd (cons x t) (cons (peval Q x) f) k 0 = nth k Q 0).
  { intros x N. rewrite (dd_ext _ (cons x t) _ (fun j => peval Q (cons x t j))).
    - apply dd_poly; [|lia]. intros i j Hij Hj. destruct j as [|j]; [lia|]. destruct i as [|i]; cbn [cons]; [apply N; lia|apply HD; lia].
    - intros j Hj. split; [reflexivity|]. destruct j as [|j]; [reflexivity|]. cbn [cons]. apply Hf. lia. }
  assert (I1 : is_RInt (fun x => rsum k (fun l => dd t f l 0 * nprod t l x) + nth k Q 0 * nprod t k x) (t 0%nat) t1
     (rsum k (fun l => dd t f l 0 * ((t1 - t 0%nat) * gr al l * nprod t l t1)) + nth k Q 0 * ((t1 - t 0%nat) * gr al k * nprod t k t1))).
  { apply (is_RInt_plus (V := R_NormedModule)).
    - apply rsum_int. intros l Hl. apply (is_RInt_scal (V := R_NormedModule) (nprod t l)). apply nprod_int; [apply H1; lia|intros; apply H1; lia|exact A0|intros; apply Ha; lia].
    - apply (is_RInt_scal (V := R_NormedModule) (nprod t k)). apply nprod_int; [apply H1; lia|exact H1|exact A0|exact Ha]. }
  assert (I2 : is_RInt (fun x => rsum k (fun l => dd t f l 0 * nprod t l x) + nth k Q 0 * nprod t k x) (t 0%nat) t1 (peval S t1 - peval S (t 0%nat))).
  { eapply is_RInt_ext; [|apply poly_int]. intros x Hx. fold Q.
    assert (N : forall j, (j < k)%nat -> x <> t j) by (intros j Hj; apply (HO j x Hj Hx)).
    pose proof (newton_rem t f x (peval Q x) k N) as R. rewrite (LC x N) in R. lra. }
  rewrite <- (is_RInt_unique _ _ _ _ I2), (is_RInt_unique _ _ _ _ I1).
  pose proof (newton_rem t f t1 fp k H1) as R. rewrite Hfp in R. rewrite (LC t1 H1) in R. rewrite <- Hfp in R.
  replace (nth k Q 0 * ((t1 - t 0%nat) * gr al k * nprod t k t1)) with ((t1 - t 0%nat) * gr al k * (nth k Q 0 * nprod t k t1)) by ring. rewrite R. f_equal.
  rewrite <- rsum_scal. apply rsum_ext. intros l Hl. ring.
Qed.

(** *** interpolating polynomials exist *)
Fixpoint padd (p q : list R) : list R := match p, q with [], _ => q | _, [] => p | a :: p', b :: q' => a + b :: padd p' q' end.
Definition pscal (c : R) (p : list R) : list R := map (Rmult c) p.
Definition pxm (c : R) (p : list R) : list R := padd (0 :: p) (pscal (- c) p).   (* (x - c) p *)
Lemma padd_eval p q x : peval (padd p q) x = peval p x + peval q x.
Proof. revert q. induction p as [|a p IH]; intros [|b q]; cbn [padd peval]; try ring. rewrite IH. ring. Qed.
Lemma pscal_eval c p x : peval (pscal c p) x = c * peval p x.
Proof. induction p as [|a p IH]; cbn [pscal map peval]; [ring|]. unfold pscal in IH. rewrite IH. ring. Qed.
Lemma pxm_eval c p x : peval (pxm c p) x = (x - c) * peval p x.
Proof. unfold pxm. rewrite padd_eval, pscal_eval. cbn [peval]. ring. Qed.
Lemma padd_len p q n : (length p <= n)%nat -> (length q <= n)%nat -> (length (padd p q) <= n)%nat.
Proof. revert q n. induction p as [|a p IH]; intros [|b q] [|n] H1 H2; cbn in *; try lia. specialize (IH q n). lia. Qed.
Fixpoint npoly (t : nat -> R) (n : nat) : list R := match n with O => [1] | S m => pxm (t m) (npoly t m) end.
Lemma npoly_eval t n x : peval (npoly t n) x = nprod t n x.
Proof. induction n as [|n IH]; cbn [npoly nprod]; [cbn; ring|]. rewrite pxm_eval, IH. ring. Qed.
Lemma npoly_len t n : (length (npoly t n) <= n + 1)%nat.
Proof. induction n as [|n IH]; cbn [npoly]; [cbn; lia|]. unfold pxm. apply padd_len; cbn [length]; [lia|]. unfold pscal. rewrite map_length. lia. Qed.
Lemma nprod_root t n j : (j < n)%nat -> nprod t n (t j) = 0.
Proof. induction n as [|n IH]; intros H; [lia|]. cbn [nprod]. destruct (Nat.eq_dec j n) as [->|Hn]; [ring|rewrite IH by lia; ring]. Qed.
Lemma interp_exists t f k : distinct t k -> exists p, (length p <= k)%nat /\ forall j, (j < k)%nat -> peval p (t j) = f j.
Proof.
  induction k as [|k IH]; intros H; [exists []; split; [cbn; lia|intros; lia]|].
  destruct IH as (p & L & E); [intros i j Hi Hj; apply H; lia|].
  exists (padd p (pscal ((f k - peval p (t k)) / nprod t k (t k)) (npoly t k))). split.
  - apply padd_len; [clear -L; lia|]. unfold pscal. rewrite map_length. pose proof (npoly_len t k). lia.
  - intros j Hj. rewrite padd_eval, pscal_eval, npoly_eval. destruct (Nat.eq_dec j k) as [->|Hn].
    + assert (nprod t k (t k) <> 0) by (apply nprod_nz; intros i Hi X; apply (H i k Hi ltac:(lia)); auto). field. assumption.
    + rewrite E by lia. rewrite (nprod_root t k j) by lia. ring.
Qed.
(** antiderivatives *)
Fixpoint pintaux (n : nat) (p : list R) : list R := match p with [] => [] | a :: p' => a / INR n :: pintaux (S n) p' end.
Definition pint (p : list R) : list R := 0 :: pintaux 1 p.
Lemma pint_aux n p : (1 <= n)%nat -> paux n (pintaux n p) = p.
Proof. revert n. induction p as [|a p IH]; intros n Hn; cbn [pintaux paux]; [reflexivity|]. rewrite IH by lia. f_equal. field. apply not_0_INR. lia. Qed.
Lemma pint_deriv p : pderiv (pint p) = p.
Proof. unfold pint. cbn [pderiv]. apply pint_aux. lia. Qed.
Lemma pint_len p : length (pint p) = S (length p).
Proof. unfold pint. cbn. f_equal. generalize 1%nat. induction p; intros; cbn; auto. Qed.
