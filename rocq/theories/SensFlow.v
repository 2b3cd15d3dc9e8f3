(** Exact solutions of the problems of sensitivity.py: the forward sensitivities are the derivatives
    of the flow, and the adjoint quadratures are the same numbers. *)
From Coquelicot Require Import Coquelicot.
From Coq Require Import String Reals Lra Psatz Lia List Arith.
From Verif Require Import Arith Common RX RKReal Series OrderThm OrderRK OrderModel ESDLin Sens SensGen Flow SensReal.
Import ListNotations.
Close Scope string_scope. Open Scope nat_scope. Open Scope R_scope.

(** u is a differentiable function solving the initial value problem pb between ta and tb *)
Definition solves_pb (pb : Ivp RX) (ta tb : R) (u : R -> list R) : Prop :=
  i_ta pb = Fin ta /\ i_tb pb = Fin tb /\ i_y0 pb = fin (u ta) /\ (forall t, length (u t) = length (i_y0 pb)) /\
  forall t, between ta tb t -> exists v, i_fun pb (Fin t) (fin (u t)) = fin v /\ forall q, (q < length (u t))%nat -> is_derive (fun s => nth q (u s) 0) t (nth q v 0).
(** y' = f(t, y, p) between ta and tb *)
Definition solves_ode (Ny : nat) (f : R -> list R -> list R -> list R) (p : list R) (ta tb : R) (y : R -> list R) : Prop :=
  (forall t, length (y t) = Ny) /\ forall t, between ta tb t -> forall i, (i < Ny)%nat -> is_derive (fun s => nth i (y s) 0) t (nth i (f t (y t) p) 0).

Definition dist1 (n : nat) (u v : list R) : R := rsum n (fun l => Rabs (nth l u 0 - nth l v 0)).
Definition close (n : nat) (r : R) (u v : list R) : Prop := forall l, (l < n)%nat -> Rabs (nth l u 0 - nth l v 0) <= r.
(** J = df/dy and P = df/dp along y, with a remainder quadratic in the increments (f twice
    differentiable with bounded second derivatives near the trajectory) *)
Definition derivatives_along (Ny Np : nat) (f : R -> list R -> list R -> list R) (J P : R -> list R -> list R -> list (list R)) (p : list R) (ta tb : R) (y : R -> list R) : Prop :=
  exists rho K B, 0 < rho /\ 0 <= K /\ 0 <= B /\ forall t, between ta tb t ->
    (forall i l, (i < Ny)%nat -> (l < Ny)%nat -> Rabs (ent (J t (y t) p) i l) <= B) /\ (forall i j, (i < Ny)%nat -> (j < Np)%nat -> Rabs (ent (P t (y t) p) i j) <= B) /\
    forall u p', length u = Ny -> length p' = Np -> close Ny rho u (y t) -> close Np rho p' p -> forall i, (i < Ny)%nat ->
      Rabs (nth i (f t u p') 0 - nth i (f t (y t) p) 0 - rsum Ny (fun l => ent (J t (y t) p) i l * (nth l u 0 - nth l (y t) 0)) - rsum Np (fun j => ent (P t (y t) p) i j * (nth j p' 0 - nth j p 0)))
        <= K * (dist1 Ny u (y t) ^ 2 + dist1 Np p' p ^ 2).
(** D = dy0/dp *)
Definition derivative_at (Ny Np : nat) (y0 : list R -> list R) (D : list (list R)) (p : list R) : Prop :=
  exists rho K, 0 < rho /\ 0 <= K /\ forall p', length p' = Np -> close Np rho p' p -> length (y0 p') = Ny /\ forall i, (i < Ny)%nat ->
    Rabs (nth i (y0 p') 0 - nth i (y0 p) 0 - rsum Np (fun j => ent D i j * (nth j p' 0 - nth j p 0))) <= K * dist1 Np p' p ^ 2.
(** the parameters with eps added to number j *)
Definition bump (j : nat) (eps : R) (p : list R) : list R := map (fun l => nth l p 0 + (if Nat.eqb l j then eps else 0)) (seq 0 (length p)).

Lemma bump_len j eps p : length (bump j eps p) = length p. Proof. unfold bump. rewrite map_length, seq_length. reflexivity. Qed.
Lemma bump_nth j eps p l : (l < length p)%nat -> nth l (bump j eps p) 0 = nth l p 0 + (if Nat.eqb l j then eps else 0).
Proof. intros H. apply (nth_seqmap (fun l => nth l p 0 + (if Nat.eqb l j then eps else 0)) (length p) l 0 H). Qed.
Lemma bump_0 j p : bump j 0 p = p.
Proof. apply (nth_ext _ _ 0 0); [apply bump_len|]. intros l Hl. rewrite bump_len in Hl. rewrite bump_nth by exact Hl. destruct (Nat.eqb l j); ring. Qed.
Lemma bump_close j eps p r : Rabs eps <= r -> close (length p) r (bump j eps p) p.
Proof.
  intros H l Hl. rewrite bump_nth by exact Hl. pose proof (Rabs_pos eps). destruct (Nat.eqb l j).
  - replace (nth l p 0 + eps - nth l p 0) with eps by ring. exact H.
  - replace (nth l p 0 + 0 - nth l p 0) with 0 by ring. rewrite Rabs_R0. lra.
Qed.
Lemma rsum_single n j (g : nat -> R) : (j < n)%nat -> rsum n (fun l => g l * (if Nat.eqb l j then 1 else 0)) = g j.
Proof.
  intros Hj. induction n as [|n IH]; [lia|]. cbn [rsum]. destruct (Nat.eq_dec j n) as [->|N].
  - rewrite Nat.eqb_refl. rewrite rsum_zero; [ring|]. intros l Hl. replace (Nat.eqb l n) with false by (symmetry; apply Nat.eqb_neq; lia). ring.
  - rewrite IH by lia. replace (Nat.eqb n j) with false by (symmetry; apply Nat.eqb_neq; lia). ring.
Qed.
Lemma bump_lin j eps p (g : nat -> R) : (j < length p)%nat -> rsum (length p) (fun l => g l * (nth l (bump j eps p) 0 - nth l p 0)) = eps * g j.
Proof.
  intros Hj. rewrite <- (rsum_single (length p) j g Hj), <- rsum_scal. apply rsum_ext. intros l Hl. rewrite bump_nth by exact Hl. destruct (Nat.eqb l j); ring.
Qed.
Lemma bump_dist j eps p : (j < length p)%nat -> dist1 (length p) (bump j eps p) p = Rabs eps.
Proof.
  intros Hj. unfold dist1. rewrite (rsum_ext _ _ (fun l => Rabs eps * (if Nat.eqb l j then 1 else 0))). { apply (rsum_single _ j (fun _ => Rabs eps) Hj). }
  intros l Hl. rewrite bump_nth by exact Hl. destruct (Nat.eqb l j).
  - rewrite Rmult_1_r. f_equal. ring.
  - replace (nth l p 0 + 0 - nth l p 0) with 0 by ring. rewrite Rabs_R0. ring.
Qed.
Lemma list_ext_R n (u v : list R) : length u = n -> length v = n -> (forall i, (i < n)%nat -> nth i u 0 = nth i v 0) -> u = v.
Proof. intros Lu Lv H. apply (nth_ext _ _ 0 0); [congruence|]. intros i Hi. apply H. congruence. Qed.

Lemma quad_derive (F : R -> R) d C del : 0 < del -> (forall eps, Rabs eps <= del -> Rabs (F eps - F 0 - eps * d) <= C * eps ^ 2) -> is_derive F 0 d.
Proof.
  intros Hd H. split; [apply (is_linear_scal_l (K := R_AbsRing) (V := R_NormedModule))|]. intros x Hx. apply (is_filter_lim_locally_unique (K := R_AbsRing) (V := R_NormedModule)) in Hx. subst x. intros e.
  assert (HC : 0 <= C). { specialize (H del). rewrite Rabs_right in H by lra. specialize (H (Rle_refl _)). pose proof (Rabs_pos (F del - F 0 - del * d)). assert (0 < del ^ 2) by nra. nra. }
  assert (Hdel : 0 < Rmin del (e / (C + 1))). { apply Rmin_glb_lt; [exact Hd|]. apply Rdiv_lt_0_compat; [apply cond_pos|lra]. }
  exists (mkposreal _ Hdel). intros y Hy. unfold ball in Hy. cbn in Hy. unfold AbsRing_ball in Hy. cbn in Hy.
  assert (Hy2 : Rabs y < Rmin del (e / (C + 1))). { replace y with (y - 0) by ring. exact Hy. } clear Hy.
  change (Rabs (F y - F 0 - (y - 0) * d) <= e * Rabs (y - 0)).
  rewrite (Rminus_0_r y). pose proof (Rmin_l del (e / (C + 1))) as M1. pose proof (Rmin_r del (e / (C + 1))) as M2. specialize (H y ltac:(lra)). eapply Rle_trans; [exact H|].
  rewrite <- (pow2_abs y). pose proof (Rabs_pos y) as A0. assert (Q : C * Rabs y <= e).
  { apply Rle_trans with ((C + 1) * (e / (C + 1))); [apply Rmult_le_compat; lra|right; field; lra]. } nra.
Qed.

Section F.
Variables (Ny Np : nat) (f : R -> list R -> list R -> list R) (J P : R -> list R -> list R -> list (list R)) (p : list R) (ta tb : R).
Hypothesis Hp : length p = Np.

Lemma self_close r u n : 0 <= r -> close n r u u.
Proof. intros H l _. rewrite Rminus_diag_eq by reflexivity. rewrite Rabs_R0. exact H. Qed.
Lemma dist1_self u n : dist1 n u u = 0.
Proof. unfold dist1. apply rsum_zero. intros l _. rewrite Rminus_diag_eq by reflexivity. apply Rabs_R0. Qed.

Lemma unique_solution y z : derivatives_along Ny Np f J P p ta tb y -> solves_ode Ny f p ta tb y -> solves_ode Ny f p ta tb z -> z ta = y ta -> forall t, between ta tb t -> z t = y t.
Proof.
  intros (rho & K & B & Hrho & HK & HB & HD) [Ly Sy] [Lz Sz] E0 t Ht.
  destruct (flow_derivative Ny ta tb (fun _ t u i => nth i (f t (tab Ny u) p) 0) (fun t i => nth i (y t) 0) (fun t i l => ent (J t (y t) p) i l) (fun _ _ => 0) (fun _ _ => 0) (fun _ => 0) (fun _ t i => nth i (z t) 0) rho K B Hrho HK HB) as (C & del & Hdel & Q).
  - intros s i l Hs Hi Hl. apply (proj1 (HD s Hs)); assumption.
  - intros. rewrite Rabs_R0. exact HB.
  - intros. rewrite Rabs_R0. exact HB.
  - intros eps s u i He Hs Hu Hi. destruct (HD s Hs) as (_ & _ & HR).
    assert (Eu : forall l, (l < Ny)%nat -> nth l (tab Ny u) 0 = u l) by (intros l Hl; apply tab_nth, Hl).
    assert (Ey : tab Ny (fun l => nth l (y s) 0) = y s) by (symmetry; apply tab_of, Ly).
    rewrite Ey. specialize (HR (tab Ny u) p (tab_len _ _) Hp). assert (Hc : close Ny rho (tab Ny u) (y s)) by (intros l Hl; rewrite Eu by exact Hl; apply Hu, Hl).
    specialize (HR Hc (self_close rho p Np ltac:(lra)) i Hi). rewrite dist1_self in HR. rewrite (rsum_zero Np) in HR by (intros; ring).
    assert (Ed : dist1 Ny (tab Ny u) (y s) = rsum Ny (fun l => Rabs (u l - nth l (y s) 0))) by (apply rsum_ext; intros l Hl; rewrite Eu by exact Hl; reflexivity).
    rewrite Ed in HR. rewrite (rsum_ext Ny _ (fun l => ent (J s (y s) p) i l * (u l - nth l (y s) 0))) in HR by (intros l Hl; rewrite Eu by exact Hl; reflexivity).
    rewrite Rmult_0_r. eapply Rle_trans; [exact HR|]. apply Rmult_le_compat_l; [exact HK|]. nra.
  - intros s i Hs Hi. rewrite <- (tab_of (y s) Ny 0 (Ly s)). apply Sy; assumption.
  - intros s i Hs Hi. replace (rsum Ny (fun l => ent (J s (y s) p) i l * 0) + 0) with 0 by (rewrite rsum_zero; [ring|intros; ring]). apply (is_derive_const (V := R_NormedModule)).
  - reflexivity.
  - intros eps s i He Hs Hi. rewrite <- (tab_of (z s) Ny 0 (Lz s)). apply Sz; assumption.
  - intros eps i He Hi. rewrite E0. replace (nth i (y ta) 0 - nth i (y ta) 0 - eps * 0) with 0 by ring. rewrite Rabs_R0. apply Rmult_le_pos; [exact HK|nra].
  - apply (list_ext_R Ny); [apply Lz|apply Ly|]. intros i Hi. specialize (Q 0 ltac:(rewrite Rabs_R0; lra) t Ht i Hi).
    replace (C * 0 ^ 2) with 0 in Q by ring. replace (nth i (z t) 0 - nth i (y t) 0 - 0 * 0) with (nth i (z t) 0 - nth i (y t) 0) in Q by ring. pose proof (Rabs_pos (nth i (z t) 0 - nth i (y t) 0)) as A0. assert (A1 : Rabs (nth i (z t) 0 - nth i (y t) 0) = 0) by lra. apply Rabs_eq_0 in A1. lra.
Qed.

(** derivative of the solution with respect to parameter j, uniformly on the interval *)
Lemma flow_bump (Y : list R -> R -> list R) (y0 : list R -> list R) D j (S : R -> nat -> R) :
  derivatives_along Ny Np f J P p ta tb (Y p) -> derivative_at Ny Np y0 D p ->
  (exists r, 0 < r /\ forall p', length p' = Np -> close Np r p' p -> solves_ode Ny f p' ta tb (Y p') /\ Y p' ta = y0 p') ->
  (j < Np)%nat ->
  (forall t i, between ta tb t -> (i < Ny)%nat -> is_derive (fun s => S s i) t (rsum Ny (fun l => ent (J t (Y p t) p) i l * S t l) + ent (P t (Y p t) p) i j)) ->
  (forall i, (i < Ny)%nat -> S ta i = ent D i j) ->
  exists C del, 0 < del /\ forall eps, Rabs eps <= del -> forall t, between ta tb t -> forall i, (i < Ny)%nat -> Rabs (nth i (Y (bump j eps p) t) 0 - nth i (Y p t) 0 - eps * S t i) <= C * eps ^ 2.
Proof.
  intros (rho1 & K1 & B1 & Hrho1 & HK1 & HB1 & HD) (rho2 & K2 & Hrho2 & HK2 & HY0) (rho3 & Hrho3 & HY) Hj HS HS0.
  set (rho := Rmin rho1 (Rmin rho2 rho3)). assert (R1 : rho <= rho1) by apply Rmin_l. assert (R2 : rho <= rho2) by (eapply Rle_trans; [apply Rmin_r|apply Rmin_l]). assert (R3 : rho <= rho3) by (eapply Rle_trans; [apply Rmin_r|apply Rmin_r]).
  assert (Hrho : 0 < rho) by (unfold rho; repeat apply Rmin_glb_lt; assumption). set (K := Rmax K1 K2). pose proof (Rmax_l K1 K2) as KK1. pose proof (Rmax_r K1 K2) as KK2. fold K in KK1, KK2.
  set (B := B1 + rsum Ny (fun i => Rabs (ent D i j))). assert (SB : 0 <= rsum Ny (fun i => Rabs (ent D i j))) by (apply rsum_nonneg; intros; apply Rabs_pos).
  assert (BC : forall eps, Rabs eps <= rho -> forall r, rho <= r -> close Np r (bump j eps p) p) by (intros eps He r Hr; rewrite <- Hp; apply bump_close; lra).
  assert (BL : forall eps, length (bump j eps p) = Np) by (intros eps; rewrite bump_len; exact Hp).
  assert (Hj' : (j < length p)%nat) by lia.
  assert (SO : forall eps, Rabs eps <= rho -> solves_ode Ny f (bump j eps p) ta tb (Y (bump j eps p)) /\ Y (bump j eps p) ta = y0 (bump j eps p)) by (intros eps He; apply HY; [apply BL|apply BC; assumption]).
  assert (SP : solves_ode Ny f p ta tb (Y p) /\ Y p ta = y0 p) by (rewrite <- (bump_0 j p); apply SO; rewrite Rabs_R0; lra).
  apply (flow_derivative Ny ta tb (fun eps t u i => nth i (f t (tab Ny u) (bump j eps p)) 0) (fun t i => nth i (Y p t) 0) (fun t i l => ent (J t (Y p t) p) i l) (fun t i => ent (P t (Y p t) p) i j) S (fun i => ent D i j) (fun eps t i => nth i (Y (bump j eps p) t) 0) rho K B Hrho).
  - lra.
  - unfold B. lra.
  - intros t i l Ht Hi Hl. eapply Rle_trans; [apply (proj1 (HD t Ht)); assumption|unfold B; lra].
  - intros t i Ht Hi. eapply Rle_trans; [apply (proj1 (proj2 (HD t Ht))); assumption|unfold B; lra].
  - intros i Hi. apply Rle_trans with (rsum Ny (fun i => Rabs (ent D i j))); [|unfold B; lra]. apply (rsum_member Ny (fun i => Rabs (ent D i j))); [intros; apply Rabs_pos|exact Hi].
  - intros eps t u i He Ht Hu Hi. destruct (HD t Ht) as (_ & _ & HR). rewrite bump_0.
    assert (Eu : forall l, (l < Ny)%nat -> nth l (tab Ny u) 0 = u l) by (intros l Hl; apply tab_nth, Hl).
    destruct SP as [[Ly _] _]. rewrite <- (tab_of (Y p t) Ny 0 (Ly t)).
    specialize (HR (tab Ny u) (bump j eps p) (tab_len _ _) (BL eps)). assert (Hc : close Ny rho1 (tab Ny u) (Y p t)) by (intros l Hl; rewrite Eu by exact Hl; eapply Rle_trans; [apply Hu, Hl|exact R1]).
    specialize (HR Hc (BC eps He _ R1) i Hi). assert (EP := bump_lin j eps p (fun j => ent (P t (Y p t) p) i j) Hj'). rewrite Hp in EP. rewrite EP in HR. clear EP.
    assert (ED := bump_dist j eps p Hj'). rewrite Hp in ED. rewrite ED, pow2_abs in HR. clear ED.
    assert (Ed : dist1 Ny (tab Ny u) (Y p t) = rsum Ny (fun l => Rabs (u l - nth l (Y p t) 0))) by (apply rsum_ext; intros l Hl; rewrite Eu by exact Hl; reflexivity).
    rewrite Ed in HR. rewrite (rsum_ext Ny _ (fun l => ent (J t (Y p t) p) i l * (u l - nth l (Y p t) 0))) in HR by (intros l Hl; rewrite Eu by exact Hl; reflexivity).
    eapply Rle_trans; [exact HR|]. apply Rmult_le_compat_r; [nra|exact KK1].
  - intros t i Ht Hi. rewrite bump_0. destruct SP as [[Ly Sy] _]. rewrite <- (tab_of (Y p t) Ny 0 (Ly t)). apply Sy; assumption.
  - intros t i Ht Hi. apply HS; assumption.
  - exact HS0.
  - intros eps t i He Ht Hi. destruct (SO eps He) as [[Ly Sy] _]. rewrite <- (tab_of (Y (bump j eps p) t) Ny 0 (Ly t)). apply Sy; assumption.
  - intros eps i He Hi. destruct (SO eps He) as [_ E1]. rewrite E1, (proj2 SP). destruct (HY0 _ (BL eps) (BC eps He _ R2)) as [_ Q]. specialize (Q i Hi).
    assert (EP := bump_lin j eps p (fun j => ent D i j) Hj'). rewrite Hp in EP. rewrite EP in Q. assert (ED := bump_dist j eps p Hj'). rewrite Hp in ED. rewrite ED, pow2_abs in Q.
    eapply Rle_trans; [exact Q|]. apply Rmult_le_compat_r; [nra|exact KK2].
Qed.
End F.

(** ** the adjoint identities *)
Lemma between_sym a b t : between a b t -> between b a t.
Proof. unfold between. rewrite (Rmin_comm a b), (Rmax_comm a b). auto. Qed.
Lemma bilinear_derive n (mu S : R -> nat -> R) dmu dS t : (forall i, (i < n)%nat -> is_derive (fun s => mu s i) t (dmu i)) -> (forall i, (i < n)%nat -> is_derive (fun s => S s i) t (dS i)) ->
  is_derive (fun s => rsum n (fun i => mu s i * S s i)) t (rsum n (fun i => dmu i * S t i + mu t i * dS i)).
Proof.
  intros H1 H2. apply (is_derive_rsum n (fun s i => mu s i * S s i)). intros i Hi.
  replace (dmu i * S t i + mu t i * dS i) with (plus (mult (dmu i) (S t i)) (mult (mu t i) (dS i))) by reflexivity.
  apply (is_derive_mult (fun s => mu s i) (fun s => S s i)); [apply H1, Hi|apply H2, Hi|]. intros x y. apply Rmult_comm.
Qed.
Lemma adjoint_cancel n (J : nat -> nat -> R) (mu S : nat -> R) : rsum n (fun i => (- rsum n (fun l => J l i * mu l)) * S i + mu i * rsum n (fun l => J i l * S l)) = 0.
Proof.
  rewrite rsum_plus. rewrite (rsum_ext n (fun i => - rsum n (fun l => J l i * mu l) * S i) (fun i => -1 * rsum n (fun l => J l i * mu l * S i))).
  2: { intros i _. rewrite (rsum_ext n (fun l => J l i * mu l * S i) (fun l => S i * (J l i * mu l))) by (intros; ring). rewrite rsum_scal. ring. }
  rewrite rsum_scal, rsum_swap.
  rewrite (rsum_ext n (fun i => mu i * rsum n (fun l => J i l * S l)) (fun i => rsum n (fun l => J i l * mu i * S l))).
  2: { intros i _. rewrite <- rsum_scal. apply rsum_ext. intros l _. ring. }
  ring.
Qed.

Section Adj.
Variables (n : nat) (t0 tf : R) (J : R -> nat -> nat -> R) (P : R -> nat -> R) (gy : R -> nat -> R) (gp : R -> R).
Variables (S mu : R -> nat -> R) (xi : R -> R).
Hypothesis HS : forall t i, between t0 tf t -> (i < n)%nat -> is_derive (fun s => S s i) t (rsum n (fun l => J t i l * S t l) + P t i).
Hypothesis Hmu : forall t i, between t0 tf t -> (i < n)%nat -> is_derive (fun s => mu s i) t (- (rsum n (fun l => J t l i * mu t l) + gy t i)).
Hypothesis Hxi : forall t, between t0 tf t -> is_derive xi t (rsum n (fun l => P t l * mu t l) + gp t).

Let W t := rsum n (fun i => mu t i * S t i) - xi t.
Lemma W_derive t : between t0 tf t -> is_derive W t (- (rsum n (fun i => gy t i * S t i) + gp t)).
Proof.
  intros Ht. pose proof (bilinear_derive n mu S _ _ t (fun i Hi => Hmu t i Ht Hi) (fun i Hi => HS t i Ht Hi)) as D1. pose proof (Hxi t Ht) as D2.
  pose proof (is_derive_minus (V := R_NormedModule) _ _ _ _ _ D1 D2) as D. cbv beta in D.
  match type of D with is_derive _ _ ?v => replace (- (rsum n (fun i => gy t i * S t i) + gp t)) with v; [exact D|] end.
  change minus with Rminus. cbn.
  rewrite (rsum_ext n _ (fun i => ((- rsum n (fun l => J t l i * mu t l)) * S t i + mu t i * rsum n (fun l => J t i l * S t l)) + (mu t i * P t i - gy t i * S t i))) by (intros; ring).
  rewrite rsum_plus, adjoint_cancel, rsum_sub. rewrite (rsum_ext n (fun l => P t l * mu t l) (fun i => mu t i * P t i)) by (intros; ring). unfold minus, plus, opp. cbn. ring.
Qed.
Lemma W_const : (forall t, between t0 tf t -> rsum n (fun i => gy t i * S t i) + gp t = 0) -> W t0 = W tf.
Proof.
  intros Z. destruct (mvt W (fun t => - (rsum n (fun i => gy t i * S t i) + gp t)) t0 tf (fun t Ht => W_derive t Ht)) as (c & Hc & E). rewrite (Z c Hc) in E. lra.
Qed.
Lemma W_int : (forall t i, between t0 tf t -> (i < n)%nat -> continuous (fun s => gy s i) t) -> (forall t, between t0 tf t -> continuous gp t) ->
  is_RInt (fun t => rsum n (fun i => gy t i * S t i) + gp t) t0 tf (W t0 - W tf).
Proof.
  intros C1 C2. replace (W t0 - W tf) with (minus ((fun t => - W t) tf) ((fun t => - W t) t0)) by (unfold minus, plus, opp; cbn; ring).
  apply (is_RInt_derive (V := R_CompleteNormedModule) (fun t => - W t) (fun t => rsum n (fun i => gy t i * S t i) + gp t)).
  - intros t Ht. replace (rsum n (fun i => gy t i * S t i) + gp t) with (opp (- (rsum n (fun i => gy t i * S t i) + gp t))) by (unfold opp; cbn; ring).
    apply (is_derive_opp (V := R_NormedModule)). apply W_derive. exact Ht.
  - intros t Ht. apply (continuous_plus (V := R_NormedModule) (fun t => rsum n (fun i => gy t i * S t i)) gp); [|apply C2; exact Ht].
    clear -C1 HS Ht. assert (H : forall m, (m <= n)%nat -> continuous (fun t => rsum m (fun i => gy t i * S t i)) t).
    { induction m as [|m IH]; intros Hm; cbn [rsum]; [apply continuous_const|]. apply (continuous_plus (V := R_NormedModule) (fun t => rsum m (fun i => gy t i * S t i)) (fun t => gy t m * S t m)); [apply IH; lia|].
      apply (continuous_mult (K := R_AbsRing) (fun t => gy t m) (fun t => S t m)); [apply C1; [exact Ht|lia]|]. apply (ex_derive_continuous (K := R_AbsRing) (V := R_NormedModule) (fun s => S s m)). eexists. apply HS; [exact Ht|lia]. }
    apply (H n (Nat.le_refl n)).
Qed.
End Adj.
