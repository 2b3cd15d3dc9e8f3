(** Differentiability of the flow with respect to a parameter (Gronwall). *)
From Coquelicot Require Import Coquelicot.
From Coq Require Import Reals Lra Psatz Lia List Arith.
From Verif Require Import Series OrderThm OrderRK.
Import ListNotations.
Open Scope nat_scope. Open Scope R_scope.

Definition between (a b t : R) : Prop := Rmin a b <= t <= Rmax a b.
Lemma between_l a b : between a b a. Proof. split; [apply Rmin_l|apply Rmax_l]. Qed.
Lemma between_r a b : between a b b. Proof. split; [apply Rmin_r|apply Rmax_r]. Qed.
Lemma between_trans a b c t : between a b c -> between a c t -> between a b t.
Proof. unfold between, Rmin, Rmax. repeat destruct (Rle_dec _ _); lra. Qed.
Lemma between_dist a b t : between a b t -> Rabs (t - a) <= Rabs (b - a).
Proof. unfold between, Rmin, Rmax, Rabs. repeat destruct (Rle_dec _ _); repeat destruct (Rcase_abs _); lra. Qed.

Lemma mvt (f df : R -> R) a b : (forall t, between a b t -> is_derive f t (df t)) -> exists c, between a b c /\ f b - f a = df c * (b - a).
Proof.
  intros H. destruct (MVT_gen f a b df) as (c & Hc & E).
  - intros x Hx. apply H. unfold between. lra.
  - intros x Hx. apply continuity_pt_filterlim, (ex_derive_continuous f x). exists (df x). apply H. exact Hx.
  - exists c. split; [exact Hc|exact E].
Qed.

Lemma gronwall a b (E e : R -> R) c k : 0 < c -> 0 <= k ->
  (forall t, between a b t -> is_derive E t (e t) /\ Rabs (e t) <= c * E t + k) -> E b <= (E a + k / c) * exp (c * Rabs (b - a)).
Proof.
  intros Hc Hk H. set (s := if Rle_dec a b then 1 else -1).
  assert (Hs : Rabs (b - a) = s * (b - a)). { unfold s. destruct (Rle_dec a b); [rewrite Rabs_right by lra|rewrite Rabs_left by lra]; ring. }
  set (H0 := fun t => (E t + k / c) * exp (- (c * s * (t - a)))).
  destruct (mvt H0 (fun t => (e t - s * (c * E t + k)) * exp (- (c * s * (t - a)))) a b) as (x & Hx & Em).
  { intros t Ht. destruct (H t Ht) as [D _]. unfold H0. auto_derive; [exists (e t); exact D|]. replace (Derive (fun x => E x) t) with (e t) by (symmetry; apply is_derive_unique; exact D). unfold Rminus. set (X := exp _). clearbody X s. field. lra. }
  destruct (H x Hx) as [_ B]. assert (L : H0 b <= H0 a).
  { assert (P : (e x - s * (c * E x + k)) * (b - a) <= 0).
    { assert (Bs := Rle_abs (e x)). assert (Bm := Rle_abs (- e x)). rewrite Rabs_Ropp in Bm. unfold s. destruct (Rle_dec a b); nra. }
    pose proof (exp_pos (- (c * s * (x - a)))). assert (Em' : H0 b - H0 a = ((e x - s * (c * E x + k)) * (b - a)) * exp (- (c * s * (x - a)))) by (rewrite Em; ring). nra. }
  unfold H0 in L. rewrite (Rminus_diag_eq a a eq_refl), Rmult_0_r, Ropp_0, exp_0, Rmult_1_r in L.
  assert (E1 : E b + k / c <= (E a + k / c) * exp (c * Rabs (b - a))).
  { rewrite Hs. replace (c * (s * (b - a))) with (c * s * (b - a)) by ring. apply Rmult_le_reg_r with (exp (- (c * s * (b - a)))); [apply exp_pos|]. rewrite (Rmult_assoc (E a + k / c)), <- exp_plus, Rplus_opp_r, exp_0, Rmult_1_r. exact L. }
  assert (0 <= k / c) by (apply Rmult_le_pos; [exact Hk|left; apply Rinv_0_lt_compat; exact Hc]). lra.
Qed.

Lemma cauchy_n n (f : nat -> R) : rsum n f * rsum n f <= INR n * rsum n (fun i => f i * f i).
Proof.
  induction n as [|n IH]; [cbn; lra|]. cbn [rsum]. rewrite S_INR. set (x := rsum n f) in *. set (q := rsum n (fun i => f i * f i)) in *. set (a := f n).
  pose proof (pos_INR n) as Hn. assert (Q : 2 * x * a <= q + INR n * (a * a)).
  { assert (0 <= q) by (apply rsum_nonneg; intros; nra). destruct (Req_dec (INR n) 0) as [N0|N0].
    - rewrite N0 in *. assert (x * x <= 0) by lra. assert (x = 0) by nra. nra.
    - assert (0 < INR n) by lra. apply Rmult_le_reg_l with (INR n); [assumption|]. assert (0 <= (x - INR n * a) * (x - INR n * a)) by apply Rle_0_sqr. nra. }
  nra.
Qed.
Lemma rsum_member n f i : (forall j, (j < n)%nat -> 0 <= f j) -> (i < n)%nat -> f i <= rsum n f.
Proof.
  intros H Hi. induction n as [|n IH]; [lia|]. cbn [rsum]. assert (0 <= f n) by (apply H; lia). destruct (Nat.eq_dec i n) as [->|Hn].
  - assert (0 <= rsum n f) by (apply rsum_nonneg; intros; apply H; lia). lra.
  - assert (f i <= rsum n f) by (apply IH; [intros; apply H; lia|lia]). lra.
Qed.
Lemma rsum_sub n f g : rsum n (fun k => f k - g k) = rsum n f - rsum n g.
Proof. induction n as [|n IH]; cbn [rsum]; [ring|]. rewrite IH. ring. Qed.
Lemma is_derive_rsum n (f : R -> nat -> R) (df : nat -> R) t : (forall i, (i < n)%nat -> is_derive (fun s => f s i) t (df i)) -> is_derive (fun s => rsum n (f s)) t (rsum n df).
Proof.
  induction n as [|n IH]; intros H; cbn [rsum]; [apply (is_derive_const (V := R_NormedModule))|]. apply (is_derive_plus (V := R_NormedModule) (fun s => rsum n (f s)) (fun s => f s n)); [apply IH; intros; apply H; lia|apply H; lia].
Qed.

Lemma is_derive_sq (g : R -> R) dg t : is_derive g t dg -> is_derive (fun s => g s * g s) t (2 * (g t * dg)).
Proof. intros H. auto_derive; [split; [exists dg; exact H|split; [exists dg; exact H|exact I]]|]. replace (Derive (fun x => g x) t) with dg by (symmetry; apply is_derive_unique; exact H). ring. Qed.
Lemma is_derive_aff (g : R -> R) dg a b x : is_derive g (a + x * b) dg -> is_derive (fun s => g (a + s * b)) x (b * dg).
Proof.
  intros H. apply (is_derive_comp (K := R_AbsRing) (V := R_NormedModule) g (fun s => a + s * b)); [exact H|]. auto_derive; [exact I|ring].
Qed.

Lemma vec_gronwall n L T : 0 <= L -> exists C, 0 <= C /\ forall a b (D dD : R -> nat -> R) K, Rabs (b - a) <= T -> 0 <= K ->
  (forall i, (i < n)%nat -> Rabs (D a i) <= K) ->
  (forall t, between a b t -> forall i, (i < n)%nat -> is_derive (fun s => D s i) t (dD t i) /\ Rabs (dD t i) <= L * rsum n (fun j => Rabs (D t j)) + K) ->
  forall i, (i < n)%nat -> Rabs (D b i) <= C * K.
Proof.
  intros HL. set (N := INR n). assert (HN : 0 <= N) by apply pos_INR. set (c := 2 * L * N + 1). assert (Hc : 0 < c) by (unfold c; nra).
  set (C2 := (N + N / c) * exp (c * Rabs T)). assert (HC2 : 0 <= C2). { unfold C2. apply Rmult_le_pos; [|left; apply exp_pos]. assert (0 <= N / c) by (apply Rmult_le_pos; [exact HN|left; apply Rinv_0_lt_compat; exact Hc]). lra. }
  exists (sqrt C2). split; [apply sqrt_pos|]. intros a b D dD K HT HK H0 HD i Hi.
  set (E := fun t => rsum n (fun j => D t j * D t j)).
  assert (G : E b <= (E a + N * (K * K) / c) * exp (c * Rabs (b - a))).
  { apply (gronwall a b E (fun t => rsum n (fun j => 2 * (D t j * dD t j)))); [exact Hc|nra|]. intros t Ht. split.
    - apply (is_derive_rsum n (fun s j => D s j * D s j) (fun j => 2 * (D t j * dD t j))). intros j Hj. destruct (HD t Ht j Hj) as [P _]. apply (is_derive_sq (fun s => D s j)). exact P.
    - set (M := rsum n (fun j => Rabs (D t j))). assert (HM : 0 <= M) by (apply rsum_nonneg; intros; apply Rabs_pos).
      assert (B : Rabs (rsum n (fun j => 2 * (D t j * dD t j))) <= 2 * M * (L * M + K)).
      { eapply Rle_trans; [apply (rsum_abs_le' n _ (fun j => (2 * (L * M + K)) * Rabs (D t j)))|].
        - intros j Hj. destruct (HD t Ht j Hj) as [_ P]. rewrite !Rabs_mult, (Rabs_right 2) by lra. fold M in P. pose proof (Rabs_pos (D t j)). nra.
        - rewrite rsum_scal. fold M. right. ring. }
      assert (CS : M * M <= N * E t).
      { unfold M, E, N. eapply Rle_trans; [apply cauchy_n|]. right. f_equal. apply rsum_ext. intros j _. rewrite <- Rabs_mult. apply Rabs_right. nra. }
      assert (E0 : 0 <= E t) by (apply rsum_nonneg; intros; nra).
      assert (Q : 2 * M * K <= E t + N * (K * K)).
      { destruct (Req_dec N 0) as [N0|N0]; [assert (M * M <= 0) by (rewrite N0 in CS; lra); assert (M = 0) by nra; rewrite H1; nra|].
        assert (0 < N) by lra. apply Rmult_le_reg_l with N; [assumption|]. assert (0 <= (M - N * K) * (M - N * K)) by apply Rle_0_sqr. nra. }
      eapply Rle_trans; [exact B|]. unfold c. replace (2 * M * (L * M + K)) with (2 * L * (M * M) + 2 * M * K) by ring. assert (2 * L * (M * M) <= 2 * L * (N * E t)) by (apply Rmult_le_compat_l; lra). lra. }
  assert (Ea : E a <= N * (K * K)).
  { unfold E, N. rewrite <- rsum_const. apply rsum_le. intros j Hj. specialize (H0 j Hj). assert (Z := Rsqr_le_abs_1 (D a j) K). unfold Rsqr in Z. apply Z. rewrite (Rabs_right K) by lra. exact H0. }
  assert (Eb : E b <= C2 * (K * K)).
  { eapply Rle_trans; [exact G|]. unfold C2. assert (X : exp (c * Rabs (b - a)) <= exp (c * Rabs T)).
    { assert (HH : c * Rabs (b - a) <= c * Rabs T) by (apply Rmult_le_compat_l; [lra|]; pose proof (Rle_abs T); lra). destruct HH as [HH|HH]; [left; apply exp_increasing; exact HH|rewrite HH; right; reflexivity]. }
    assert (0 <= N * (K * K) / c) by (apply Rmult_le_pos; [nra|left; apply Rinv_0_lt_compat; exact Hc]).
    assert (0 <= E a) by (apply rsum_nonneg; intros; nra). pose proof (exp_pos (c * Rabs (b - a))). pose proof (exp_pos (c * Rabs T)).
    replace ((N + N / c) * exp (c * Rabs T) * (K * K)) with ((N * (K * K) + N * (K * K) / c) * exp (c * Rabs T)) by (field; lra). apply Rmult_le_compat; lra. }
  assert (Di : D b i * D b i <= C2 * (K * K)). { eapply Rle_trans; [|exact Eb]. apply (rsum_member n (fun j => D b j * D b j)); [intros; nra|exact Hi]. }
  replace (sqrt C2 * K) with (sqrt (C2 * (K * K))). 2: { rewrite sqrt_mult by nra. rewrite sqrt_square by exact HK. reflexivity. }
  rewrite <- sqrt_Rsqr_abs. apply sqrt_le_1; unfold Rsqr; nra.
Qed.

Lemma stay (m : R -> R) r : 0 < r -> (forall x, 0 <= x <= 1 -> continuity_pt m x) -> m 0 <= r ->
  (forall x, 0 <= x <= 1 -> (forall s, 0 <= s <= x -> m s <= r) -> m x <= r / 4) -> forall x, 0 <= x <= 1 -> m x <= r.
Proof.
  intros Hr HC H0 HS. set (P := fun x => 0 <= x <= 1 /\ forall s, 0 <= s <= x -> m s <= r).
  assert (P0 : P 0). { split; [lra|]. intros s Hs. replace s with 0 by lra. exact H0. }
  destruct (completeness P) as [tau [Hub Hlub]]; [exists 1; intros x [Hx _]; lra|exists 0; exact P0|].
  assert (T1 : 0 <= tau <= 1). { split; [apply Hub; exact P0|apply Hlub; intros x [Hx _]; lra]. }
  assert (B : forall s, 0 <= s < tau -> m s <= r).
  { intros s Hs. destruct (Rle_dec (m s) r) as [|N]; [assumption|exfalso]. assert (tau <= s); [|lra]. apply Hlub. intros x [Hx Hm]. destruct (Rle_dec x s); [assumption|exfalso; apply N, Hm; lra]. }
  assert (Pt : P tau).
  { split; [exact T1|]. intros s Hs. destruct (Req_dec s tau) as [->|Hn]; [|apply B; lra]. destruct (Rle_dec (m tau) r) as [|N]; [assumption|exfalso].
    destruct (Req_dec tau 0) as [Z|Z]; [rewrite Z in N; lra|].
    destruct (HC tau T1 (m tau - r)) as (al & Hal & Hc); [lra|]. set (x := Rmax 0 (tau - al / 2)). assert (Hx : 0 <= x < tau) by (unfold x, Rmax; destruct (Rle_dec _ _); lra).
    specialize (Hc x). assert (R_dist (m x) (m tau) < m tau - r). { apply Hc. split; [split; [exact I|lra]|]. cbn. unfold R_dist. rewrite Rabs_left by lra. unfold x, Rmax. destruct (Rle_dec _ _); lra. }
    pose proof (B x Hx). unfold R_dist in *. rewrite Rabs_left in * by lra. lra. }
  assert (Mt : m tau <= r / 4) by (apply HS; apply Pt).
  assert (E1 : tau = 1).
  { destruct (Req_dec tau 1) as [|N]; [assumption|exfalso]. destruct (HC tau T1 (r / 2)) as (al & Hal & Hc); [lra|]. set (x := Rmin 1 (tau + al / 2)).
    assert (Hx : tau < x <= 1) by (unfold x, Rmin; destruct (Rle_dec _ _); lra). assert (P x); [|assert (x <= tau) by (apply Hub; assumption); lra].
    split; [lra|]. intros s Hs. destruct (Rle_dec s tau) as [|Hg]; [apply Pt; lra|]. specialize (Hc s). assert (R_dist (m s) (m tau) < r / 2).
    { apply Hc. split; [split; [exact I|lra]|]. cbn. unfold R_dist. rewrite Rabs_right by lra. unfold x, Rmin in Hs. destruct (Rle_dec _ _) in Hs; lra. }
    unfold R_dist in *. apply Rabs_def2 in H. lra. }
  intros x Hx. apply Pt. lra.
Qed.

(** ** the flow *)
Section Flow.
Variables (n : nat) (a b : R).
(** nominal solution y, Jacobian J, parameter derivative P, sensitivity S, perturbed fields f *)
Variables (f : R -> R -> (nat -> R) -> nat -> R) (y : R -> nat -> R) (J : R -> nat -> nat -> R) (P : R -> nat -> R) (S : R -> nat -> R) (s0 : nat -> R).
Variables (Y : R -> R -> nat -> R).
Variables (rho Kq B : R).
Hypothesis Hrho : 0 < rho.
Hypothesis HK : 0 <= Kq.
Hypothesis HB : 0 <= B.
Hypothesis HJ : forall t i l, between a b t -> (i < n)%nat -> (l < n)%nat -> Rabs (J t i l) <= B.
Hypothesis HP : forall t i, between a b t -> (i < n)%nat -> Rabs (P t i) <= B.
Hypothesis Hs0 : forall i, (i < n)%nat -> Rabs (s0 i) <= B.
(** f(t, u; eps) = f(t, y(t); 0) + J (u - y) + eps P + O(2) along the nominal solution *)
Hypothesis Hf : forall eps t u i, Rabs eps <= rho -> between a b t -> (forall l, (l < n)%nat -> Rabs (u l - y t l) <= rho) -> (i < n)%nat ->
  Rabs (f eps t u i - f 0 t (y t) i - rsum n (fun l => J t i l * (u l - y t l)) - eps * P t i) <= Kq * ((rsum n (fun l => Rabs (u l - y t l))) ^ 2 + eps ^ 2).
Hypothesis Hy : forall t i, between a b t -> (i < n)%nat -> is_derive (fun s => y s i) t (f 0 t (y t) i).
Hypothesis HS : forall t i, between a b t -> (i < n)%nat -> is_derive (fun s => S s i) t (rsum n (fun l => J t i l * S t l) + P t i).
Hypothesis HS0 : forall i, (i < n)%nat -> S a i = s0 i.
Hypothesis HY : forall eps t i, Rabs eps <= rho -> between a b t -> (i < n)%nat -> is_derive (fun s => Y eps s i) t (f eps t (Y eps t) i).
Hypothesis HY0 : forall eps i, Rabs eps <= rho -> (i < n)%nat -> Rabs (Y eps a i - y a i - eps * s0 i) <= Kq * eps ^ 2.

Let r1 := Rmin rho 1.
Lemma r1_pos : 0 < r1. Proof. unfold r1, Rmin. destruct (Rle_dec _ _); lra. Qed.
Lemma r1_rho : r1 <= rho. Proof. apply Rmin_l. Qed.
Lemma r1_1 : r1 <= 1. Proof. apply Rmin_r. Qed.

Lemma flow_lip : exists C, 0 <= C /\ forall eps c, Rabs eps <= r1 -> between a b c ->
  (forall t, between a c t -> forall l, (l < n)%nat -> Rabs (Y eps t l - y t l) <= r1) -> forall i, (i < n)%nat -> Rabs (Y eps c i - y c i) <= C * Rabs eps.
Proof.
  destruct (vec_gronwall n (B + Kq * INR n) (Rabs (b - a))) as (C & HC & G); [pose proof (pos_INR n); nra|].
  exists (C * (B + Kq)). split; [nra|]. intros eps c He Hc Hn i Hi. pose proof r1_pos. pose proof r1_rho. pose proof r1_1. pose proof (Rabs_pos eps) as E0.
  rewrite Rmult_assoc. assert (E2 : eps ^ 2 <= Rabs eps) by (rewrite <- (pow2_abs eps); nra).
  apply (G a c (fun t l => Y eps t l - y t l) (fun t l => f eps t (Y eps t) l - f 0 t (y t) l) ((B + Kq) * Rabs eps)).
  - apply between_dist, Hc.
  - nra.
  - intros l Hl. pose proof (HY0 eps l ltac:(lra) Hl) as Q. pose proof (Hs0 l Hl) as Q2. replace (Y eps a l - y a l) with ((Y eps a l - y a l - eps * s0 l) + eps * s0 l) by ring.
    eapply Rle_trans; [apply Rabs_triang|]. rewrite Rabs_mult. nra.
  - intros t Ht l Hl. pose proof (between_trans _ _ _ _ Hc Ht) as Hbt. split; [apply (is_derive_minus (V := R_NormedModule) (fun s => Y eps s l) (fun s => y s l)); [apply HY; [lra|exact Hbt|exact Hl]|apply Hy; assumption]|].
    assert (Hnear : forall l, (l < n)%nat -> Rabs (Y eps t l - y t l) <= rho) by (intros l0 Hl0; eapply Rle_trans; [apply Hn; assumption|lra]).
    pose proof (Hf eps t (Y eps t) l ltac:(lra) Hbt Hnear Hl) as Q. set (M := rsum n (fun j => Rabs (Y eps t j - y t j))) in *.
    assert (M0 : 0 <= M) by (apply rsum_nonneg; intros; apply Rabs_pos).
    assert (M1 : M <= INR n). { unfold M. rewrite <- (Rmult_1_r (INR n)), <- rsum_const. apply rsum_le. intros j Hj. eapply Rle_trans; [apply Hn; assumption|lra]. }
    assert (QJ : Rabs (rsum n (fun j => J t l j * (Y eps t j - y t j))) <= B * M).
    { unfold M. rewrite <- rsum_scal. apply rsum_abs_le'. intros j Hj. rewrite Rabs_mult. apply Rmult_le_compat_r; [apply Rabs_pos|apply HJ; assumption]. }
    pose proof (HP t l Hbt Hl) as QP. assert (QP' : Rabs (eps * P t l) <= B * Rabs eps) by (rewrite Rabs_mult; nra).
    set (F := f eps t (Y eps t) l - f 0 t (y t) l) in *. set (JJ := rsum n (fun j => J t l j * (Y eps t j - y t j))) in *. set (PP := eps * P t l) in *.
    replace F with ((F - JJ - PP) + (JJ + PP)) by ring. eapply Rle_trans; [apply Rabs_triang|]. pose proof (Rabs_triang JJ PP) as TT.
    assert (Kq * (M ^ 2 + eps ^ 2) <= Kq * (INR n * M + Rabs eps)) by (apply Rmult_le_compat_l; [exact HK|]; nra). lra.
  - exact Hi.
Qed.

Lemma param x t : 0 <= x <= 1 -> between a (a + x * (b - a)) t -> exists s, 0 <= s <= x /\ t = a + s * (b - a).
Proof.
  intros Hx Ht. destruct (Req_dec b a) as [E|E].
  - exists 0. split; [lra|]. subst b. replace (a + x * (a - a)) with a in Ht by ring. unfold between, Rmin, Rmax in Ht. destruct (Rle_dec a a) in Ht; lra.
  - exists ((t - a) / (b - a)). split; [|field; lra]. unfold between, Rmin, Rmax in Ht. destruct (Rle_dec a (a + x * (b - a))) as [C|C] in Ht.
    + destruct (Rlt_dec a b) as [L|L]; [|assert (b - a < 0) by lra; assert (x * (b - a) = 0) by nra; assert (t = a) by lra; subst t; replace ((a - a) / (b - a)) with 0 by (field; lra); lra].
      split; [apply Rmult_le_pos; [lra|left; apply Rinv_0_lt_compat; lra]|]. apply Rmult_le_reg_r with (b - a); [lra|]. unfold Rdiv. rewrite Rmult_assoc, Rinv_l by lra. lra.
    + assert (b - a < 0) by nra. replace ((t - a) / (b - a)) with ((a - t) / (a - b)) by (field; lra).
      split; [apply Rmult_le_pos; [lra|left; apply Rinv_0_lt_compat; lra]|]. apply Rmult_le_reg_r with (a - b); [lra|]. unfold Rdiv. rewrite Rmult_assoc, Rinv_l by lra. lra.
Qed.
Lemma flow_near : exists del, 0 < del <= r1 /\ forall eps, Rabs eps <= del -> forall t, between a b t -> forall l, (l < n)%nat -> Rabs (Y eps t l - y t l) <= r1.
Proof.
  destruct flow_lip as (C0 & HC0 & HL0). pose proof r1_pos as R0. pose proof r1_rho. pose proof r1_1. pose proof (pos_INR n) as Hn.
  set (C := C0 + (B + Kq)). assert (HC : 0 <= C) by (unfold C; lra).
  assert (HL : forall eps c, Rabs eps <= r1 -> between a b c -> (forall t, between a c t -> forall l, (l < n)%nat -> Rabs (Y eps t l - y t l) <= r1) -> forall i, (i < n)%nat -> Rabs (Y eps c i - y c i) <= C * Rabs eps).
  { intros eps c H1 H2 H3 i Hi. eapply Rle_trans; [apply (HL0 eps c); assumption|]. apply Rmult_le_compat_r; [apply Rabs_pos|unfold C; lra]. }
  set (Z := 1 + 2 * (C + 1) * (INR n + 1)). assert (HZ : 1 <= Z) by (unfold Z; nra).
  assert (D0 : 0 < r1 / Z) by (apply Rdiv_lt_0_compat; lra). assert (D1 : r1 / Z <= r1). { apply Rmult_le_reg_r with Z; [lra|]. unfold Rdiv. rewrite Rmult_assoc, Rinv_l by lra. nra. }
  exists (r1 / Z). split; [lra|]. intros eps He.
  assert (He2 : Rabs eps * Z <= r1). { apply Rmult_le_compat_r with (r := Z) in He; [|lra]. unfold Rdiv in He. rewrite Rmult_assoc, Rinv_l, Rmult_1_r in He by lra. exact He. }
  pose proof (Rabs_pos eps) as E0.
  set (m := fun x => rsum n (fun l => (Y eps (a + x * (b - a)) l - y (a + x * (b - a)) l) * (Y eps (a + x * (b - a)) l - y (a + x * (b - a)) l))).
  assert (HX : forall x, 0 <= x <= 1 -> between a b (a + x * (b - a))). { intros x Hx. unfold between, Rmin, Rmax. destruct (Rle_dec a b); nra. }
  assert (HQ : forall c, (forall l, (l < n)%nat -> Rabs (Y eps c l - y c l) <= C * Rabs eps) -> rsum n (fun l => (Y eps c l - y c l) * (Y eps c l - y c l)) <= r1 * r1 / 4).
  { intros c H1. assert (Q1 : rsum n (fun l => (Y eps c l - y c l) * (Y eps c l - y c l)) <= INR n * ((C * Rabs eps) * (C * Rabs eps))).
    { rewrite <- rsum_const. apply rsum_le. intros l Hl. specialize (H1 l Hl). set (v := Y eps c l - y c l) in *. pose proof (Rabs_pos v). rewrite <- (Rabs_right (v * v)) by nra. rewrite Rabs_mult. apply Rmult_le_compat; lra. }
    eapply Rle_trans; [exact Q1|]. set (x := Rabs eps) in *. assert (U : 2 * (C + 1) * (INR n + 1) * x <= r1) by (unfold Z in He2; nra). set (N := INR n) in *.
    assert (V1 : 0 <= 2 * (C * x) * (N + 1)) by (apply Rmult_le_pos; [|lra]; nra). assert (V2 : 2 * (C * x) * (N + 1) <= r1) by nra.
    assert (V3 : (2 * (C * x) * (N + 1)) * (2 * (C * x) * (N + 1)) <= r1 * r1) by (apply Rmult_le_compat; lra).
    assert (N <= (N + 1) * (N + 1)) by nra. set (q := (C * x) * (C * x)) in *. assert (0 <= q) by (unfold q; nra).
    assert (V4 : 4 * q * ((N + 1) * (N + 1)) <= r1 * r1) by (unfold q; lra). nra. }
  assert (HM1 : forall z, m z <= r1 * r1 -> forall l, (l < n)%nat -> Rabs (Y eps (a + z * (b - a)) l - y (a + z * (b - a)) l) <= r1).
  { intros z Hm l Hl. set (v := Y eps (a + z * (b - a)) l - y (a + z * (b - a)) l). assert (v * v <= r1 * r1).
    { eapply Rle_trans; [|exact Hm]. unfold v, m. apply (rsum_member n (fun l => (Y eps (a + z * (b - a)) l - y (a + z * (b - a)) l) * (Y eps (a + z * (b - a)) l - y (a + z * (b - a)) l))); [intros; apply Rle_0_sqr|exact Hl]. }
    apply Rabs_le. nra. }
  assert (HM : forall x, 0 <= x <= 1 -> m x <= r1 * r1).
  { apply (stay m (r1 * r1)); [nra| | |].
    - intros x Hx. apply continuity_pt_filterlim, (ex_derive_continuous m x). eexists. unfold m.
      apply (is_derive_rsum n (fun x l => (Y eps (a + x * (b - a)) l - y (a + x * (b - a)) l) * (Y eps (a + x * (b - a)) l - y (a + x * (b - a)) l))
        (fun l => 2 * (b - a) * ((f eps (a + x * (b - a)) (Y eps (a + x * (b - a))) l - f 0 (a + x * (b - a)) (y (a + x * (b - a))) l) * (Y eps (a + x * (b - a)) l - y (a + x * (b - a)) l)))).
      intros l Hl. pose proof (HY eps _ l ltac:(lra) (HX x Hx) Hl) as Q1. pose proof (Hy _ l (HX x Hx) Hl) as Q2.
      replace (2 * (b - a) * ((f eps (a + x * (b - a)) (Y eps (a + x * (b - a))) l - f 0 (a + x * (b - a)) (y (a + x * (b - a))) l) * (Y eps (a + x * (b - a)) l - y (a + x * (b - a)) l)))
        with (2 * ((Y eps (a + x * (b - a)) l - y (a + x * (b - a)) l) * ((b - a) * (f eps (a + x * (b - a)) (Y eps (a + x * (b - a))) l - f 0 (a + x * (b - a)) (y (a + x * (b - a))) l)))) by ring.
      apply (is_derive_sq (fun s => Y eps (a + s * (b - a)) l - y (a + s * (b - a)) l)).
      apply (is_derive_aff (fun s => Y eps s l - y s l)). apply (is_derive_minus (V := R_NormedModule) (fun s => Y eps s l) (fun s => y s l)); assumption.
    - eapply Rle_trans; [|apply Rle_trans with (r1 * r1 / 4); [apply (HQ a)|nra]].
      + unfold m. right. apply rsum_ext. intros l _. rewrite Rmult_0_l, Rplus_0_r. reflexivity.
      + intros l Hl. pose proof (HY0 eps l ltac:(lra) Hl) as Q. pose proof (Hs0 l Hl) as Q2. replace (Y eps a l - y a l) with ((Y eps a l - y a l - eps * s0 l) + eps * s0 l) by ring.
        eapply Rle_trans; [apply Rabs_triang|]. rewrite Rabs_mult. assert (E2 : eps ^ 2 <= Rabs eps) by (rewrite <- (pow2_abs eps); nra).
        assert (Kq * eps ^ 2 <= Kq * Rabs eps) by (apply Rmult_le_compat_l; assumption). assert (Rabs eps * Rabs (s0 l) <= Rabs eps * B) by (apply Rmult_le_compat_l; assumption). assert (0 <= C0 * Rabs eps) by (apply Rmult_le_pos; assumption). unfold C. lra.
    - intros x Hx Hs. unfold m. apply HQ. intros l Hl. apply (HL eps (a + x * (b - a))); [lra|apply HX; exact Hx| |exact Hl].
      intros t Ht l0 Hl0. destruct (param x t Hx Ht) as (z & Hz & ->). apply HM1; [apply Hs; lra|exact Hl0]. }
  intros t Ht l Hl. destruct (param 1 t ltac:(lra)) as (z & Hz & ->). { replace (a + 1 * (b - a)) with b by ring. exact Ht. } apply HM1; [apply HM; lra|exact Hl].
Qed.

Theorem flow_derivative : exists C del, 0 < del /\ forall eps, Rabs eps <= del -> forall t, between a b t -> forall i, (i < n)%nat -> Rabs (Y eps t i - y t i - eps * S t i) <= C * eps ^ 2.
Proof.
  destruct flow_lip as (C & HC & HL). destruct flow_near as (del & Hdel & HN). pose proof r1_rho. pose proof r1_1. pose proof (pos_INR n) as Hn.
  destruct (vec_gronwall n B (Rabs (b - a)) HB) as (C2 & HC2 & G). exists (C2 * (Kq * (INR n * C * (INR n * C) + 1))), del. split; [lra|]. intros eps He t Ht i Hi.
  assert (E2 : 0 <= eps ^ 2) by nra. assert (HL' : forall s, between a b s -> forall l, (l < n)%nat -> Rabs (Y eps s l - y s l) <= C * Rabs eps).
  { intros s Hs l Hl. apply (HL eps s); [lra|exact Hs| |exact Hl]. intros u Hu. apply HN; [exact He|exact (between_trans _ _ _ _ Hs Hu)]. }
  assert (W : 0 <= INR n * C * (INR n * C)) by nra.
  rewrite Rmult_assoc. apply (G a t (fun s l => Y eps s l - y s l - eps * S s l) (fun s l => f eps s (Y eps s) l - f 0 s (y s) l - eps * (rsum n (fun j => J s l j * S s j) + P s l)) (Kq * (INR n * C * (INR n * C) + 1) * eps ^ 2)).
  - apply between_dist, Ht.
  - apply Rmult_le_pos; [|exact E2]. apply Rmult_le_pos; lra.
  - intros l Hl. rewrite HS0 by exact Hl. eapply Rle_trans; [apply HY0; [lra|exact Hl]|]. apply Rmult_le_compat_r; [exact E2|]. nra.
  - intros s Hs l Hl. pose proof (between_trans _ _ _ _ Ht Hs) as Hbs. split.
    + apply (is_derive_minus (V := R_NormedModule) (fun s => Y eps s l - y s l) (fun s => eps * S s l)).
      * apply (is_derive_minus (V := R_NormedModule) (fun s => Y eps s l) (fun s => y s l)); [apply HY; [lra|exact Hbs|exact Hl]|apply Hy; assumption].
      * apply is_derive_scal. apply HS; assumption.
    + assert (Hnear : forall l, (l < n)%nat -> Rabs (Y eps s l - y s l) <= rho) by (intros l0 Hl0; eapply Rle_trans; [apply HN; assumption|lra]).
      pose proof (Hf eps s (Y eps s) l ltac:(lra) Hbs Hnear Hl) as Q. set (M := rsum n (fun j => Rabs (Y eps s j - y s j))) in *.
      assert (M0 : 0 <= M) by (apply rsum_nonneg; intros; apply Rabs_pos).
      assert (M1 : M <= INR n * C * Rabs eps). { unfold M. rewrite Rmult_assoc, <- rsum_const. apply rsum_le. intros j Hj. apply HL'; assumption. }
      assert (M2 : M ^ 2 <= INR n * C * (INR n * C) * eps ^ 2). { rewrite <- (pow2_abs eps). replace (INR n * C * (INR n * C) * Rabs eps ^ 2) with ((INR n * C * Rabs eps) ^ 2) by ring. apply pow_incr. lra. }
      set (RR := rsum n (fun j => Rabs (Y eps s j - y s j - eps * S s j))).
      assert (QJ : Rabs (rsum n (fun j => J s l j * (Y eps s j - y s j - eps * S s j))) <= B * RR).
      { unfold RR. rewrite <- rsum_scal. apply rsum_abs_le'. intros j Hj. rewrite Rabs_mult. apply Rmult_le_compat_r; [apply Rabs_pos|apply HJ; assumption]. }
      assert (EJ : rsum n (fun j => J s l j * (Y eps s j - y s j - eps * S s j)) = rsum n (fun j => J s l j * (Y eps s j - y s j)) - eps * rsum n (fun j => J s l j * S s j)).
      { rewrite <- rsum_scal, <- rsum_sub. apply rsum_ext. intros j _. ring. }
      set (F := f eps s (Y eps s) l - f 0 s (y s) l) in *. set (JJ := rsum n (fun j => J s l j * (Y eps s j - y s j))) in *. set (JR := rsum n (fun j => J s l j * (Y eps s j - y s j - eps * S s j))) in *.
      replace (F - eps * (rsum n (fun j => J s l j * S s j) + P s l)) with (JR + (F - JJ - eps * P s l)) by (rewrite EJ; ring). eapply Rle_trans; [apply Rabs_triang|].
      assert (Kq * (M ^ 2 + eps ^ 2) <= Kq * (INR n * C * (INR n * C) + 1) * eps ^ 2) by (rewrite Rmult_assoc; apply Rmult_le_compat_l; [exact HK|]; lra). lra.
  - exact Hi.
Qed.
End Flow.
