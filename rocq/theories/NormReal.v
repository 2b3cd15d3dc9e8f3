(** Facts about the model's norm and tolerances over the reals (common.py 30-66). *)
From Coq Require Import Reals Lra Psatz QArith Qreals Lia List Bool.
From Verif Require Import Arith Common RX RKReal.
Import ListNotations.
Open Scope nat_scope.
Open Scope R_scope.

Fixpoint rdot (x y : list R) : R :=
  match x, y with a :: x', b :: y' => a * b + rdot x' y' | _, _ => 0 end.
Definition sumsq (x : list R) : R := rdot x x.
Definition rms (x : list R) : R := sqrt (sumsq x / INR (length x)).
Fixpoint maxabs (x : list R) : R := match x with [] => 0 | a :: x' => Rmax (Rabs a) (maxabs x') end.
Definition radd (x y : list R) : list R := map2 Rplus x y.

Lemma fold_add_fin : forall (l : list R) a, fold_left xadd (map Fin l) (Fin a) = Fin (a + fold_right Rplus 0 l).
Proof.
  induction l; intros; simpl; [f_equal; lra|]. rewrite IHl. f_equal. lra.
Qed.
Lemma rdot_fold x : forall y, fold_right Rplus 0 (map2 Rmult x y) = rdot x y.
Proof. induction x; destruct y; simpl; auto. rewrite IHx. reflexivity. Qed.
Lemma map2_mul_fin : forall x y : list R, @map2 xr xr xr xmul (map Fin x) (map Fin y) = map Fin (map2 Rmult x y).
Proof. induction x; destruct y; simpl; auto. rewrite IHx. reflexivity. Qed.
Lemma ndot_fin (x y : list R) : @ndot RX (map Fin x) (map Fin y) = Fin (rdot x y).
Proof.
  unfold ndot, nsum. change (@n0 RX) with (Fin (Q2R 0)). cbn [nadd nmul RX].
  rewrite map2_mul_fin, fold_add_fin, rdot_fold. f_equal. q2r. lra.
Qed.
Lemma nofnat_RX k : @nofnat RX k = Fin (INR k).
Proof. unfold nofnat. rewrite lit_RX. f_equal. unfold Q2R, inject_Z. cbn [Qnum Qden]. rewrite INR_IZR_INZ. lra. Qed.
Lemma sumsq_nonneg x : 0 <= sumsq x.
Proof. unfold sumsq. induction x; simpl; [lra|]. nra. Qed.

Lemma norm_fin (x : list R) : x <> [] -> @norm RX (map Fin x) = Fin (rms x).
Proof.
  intros H. unfold norm. rewrite ndot_fin, map_length, nofnat_RX. cbn [ndiv nsqrt RX xdiv].
  assert (0 < INR (length x)). { apply lt_0_INR. destruct x; simpl; [congruence|lia]. }
  destruct (Req_EM_T (INR (length x)) 0); [lra|]. cbn [xsqrt].
  destruct (Rlt_dec (rdot x x / INR (length x)) 0) as [l|]; [|reflexivity].
  exfalso. assert (0 <= rdot x x / INR (length x)). { apply Rmult_le_pos; [apply sumsq_nonneg|left; apply Rinv_0_lt_compat; auto]. } lra.
Qed.

Lemma rms_nonneg x : 0 <= rms x.
Proof. apply sqrt_pos. Qed.
Lemma INR_len (x : list R) : x <> [] -> 0 < INR (length x).
Proof. intros. apply lt_0_INR. destruct x; simpl; [congruence|lia]. Qed.

Lemma rms_sq x : x <> [] -> rms x * rms x * INR (length x) = sumsq x.
Proof.
  intros H. unfold rms. rewrite sqrt_sqrt. { field. pose proof (INR_len x H). lra. }
  apply Rmult_le_pos; [apply sumsq_nonneg|]. left. apply Rinv_0_lt_compat, INR_len; auto.
Qed.

Lemma sumsq_zero x : sumsq x = 0 <-> Forall (fun a => a = 0) x.
Proof.
  induction x as [|a x IH]; unfold sumsq in *; simpl; split; intros; auto.
  - pose proof (sumsq_nonneg x). unfold sumsq in *. assert (a * a = 0) by nra. assert (rdot x x = 0) by nra.
    constructor; [nra|]. apply IH; auto.
  - inversion H; subst. apply IH in H3. rewrite H3. lra.
Qed.
Lemma rms_zero x : x <> [] -> (rms x = 0 <-> Forall (fun a => a = 0) x).
Proof.
  intros H. rewrite <- sumsq_zero. rewrite <- (rms_sq x H). split; intros E; [rewrite E; ring|].
  pose proof (INR_len x H). pose proof (rms_nonneg x).
  apply Rmult_integral in E. destruct E; [|lra]. apply Rmult_integral in H2. tauto.
Qed.

Lemma rdot_scale_l c x : forall y, rdot (map (Rmult c) x) y = c * rdot x y.
Proof. induction x; destruct y; simpl; try lra. rewrite IHx. lra. Qed.
Lemma rdot_sym x : forall y, rdot x y = rdot y x.
Proof. induction x; destruct y; simpl; auto. rewrite IHx. lra. Qed.
Lemma rms_scale c x : rms (map (Rmult c) x) = Rabs c * rms x.
Proof.
  unfold rms, sumsq. rewrite map_length, rdot_scale_l, rdot_sym, rdot_scale_l.
  replace (c * (c * rdot x x) / INR (length x)) with ((c * c) * (rdot x x / INR (length x))) by (unfold Rdiv; ring).
  destruct x as [|a x].
  - simpl. replace (0 / 0) with 0 by (unfold Rdiv; ring). rewrite Rmult_0_r, sqrt_0. ring.
  - rewrite sqrt_mult_alt by (apply Rle_0_sqr). f_equal. change (c * c) with (Rsqr c). apply sqrt_Rsqr_abs.
Qed.

Lemma cauchy x : forall y, length x = length y -> rdot x y * rdot x y <= sumsq x * sumsq y.
Proof.
  unfold sumsq. induction x as [|a x IH]; destruct y as [|b y]; intros H; try discriminate; simpl; [lra|].
  simpl in H. injection H as H. specialize (IH y H).
  pose proof (sumsq_nonneg x) as HA. pose proof (sumsq_nonneg y) as HB. unfold sumsq in *.
  set (S := rdot x y) in *. set (P := rdot x x) in *. set (Q := rdot y y) in *.
  assert (K : 2 * (a * b) * S <= a * a * Q + b * b * P).
  { destruct (Rle_dec (2 * (a*b) * S) 0) as [|N]; [assert (0 <= a*a*Q + b*b*P) by nra; lra|].
    apply Rnot_le_lt in N. apply Rsqr_incr_0_var; [|nra]. unfold Rsqr.
    assert (2*(a*b)*S * (2*(a*b)*S) <= 4 * (a*a) * (b*b) * (P * Q)).
    { replace (2*(a*b)*S * (2*(a*b)*S)) with (4 * (a*a) * (b*b) * (S * S)) by ring.
      apply Rmult_le_compat_l; [nra|auto]. }
    pose proof (Rle_0_sqr (a*a*Q - b*b*P)) as W. unfold Rsqr in W.
    replace ((a*a*Q + b*b*P) * (a*a*Q + b*b*P)) with ((a*a*Q - b*b*P) * (a*a*Q - b*b*P) + 4 * (a*a) * (b*b) * (P * Q)) by ring. lra. }
  nra.
Qed.

Lemma sumsq_add x : forall y, length x = length y -> sumsq (radd x y) = sumsq x + 2 * rdot x y + sumsq y.
Proof.
  unfold sumsq, radd. induction x as [|a x IH]; destruct y as [|b y]; intros H; try discriminate; simpl; [lra|].
  simpl in H. injection H as H. rewrite IH by auto. ring.
Qed.
Lemma radd_length x : forall y, length x = length y -> length (radd x y) = length x.
Proof. unfold radd. induction x; destruct y; intros H; try discriminate; simpl; auto. Qed.

Lemma rms_triangle x y : x <> [] -> length x = length y -> rms (radd x y) <= rms x + rms y.
Proof.
  intros Hx HL. assert (Hy : y <> []) by (destruct y; [destruct x; [congruence|discriminate]|congruence]).
  assert (Hxy : radd x y <> []). { destruct x; [congruence|]. destruct y; [congruence|]. discriminate. }
  pose proof (rms_nonneg x). pose proof (rms_nonneg y).
  apply Rsqr_incr_0_var; [|lra]. unfold Rsqr.
  pose proof (rms_sq _ Hxy) as E. rewrite sumsq_add, radd_length in E by auto.
  pose proof (rms_sq _ Hx) as Ex. pose proof (rms_sq _ Hy) as Ey. rewrite <- HL in Ey.
  pose proof (cauchy x y HL) as CS. rewrite <- Ex, <- Ey in CS.
  pose proof (INR_len x Hx) as Hn. set (n := INR (length x)) in *.
  assert (D : rdot x y <= rms x * rms y * n).
  { apply Rsqr_incr_0_var; [unfold Rsqr; nra|]. assert (0 <= rms x * rms y) by nra. nra. }
  apply Rmult_le_reg_r with n; auto. rewrite E, <- Ex, <- Ey. nra.
Qed.

Lemma maxabs_nonneg x : 0 <= maxabs x.
Proof. induction x; simpl; [lra|]. eapply Rle_trans; [|apply Rmax_r]. auto. Qed.
Lemma maxabs_In x a : In a x -> Rabs a <= maxabs x.
Proof. induction x; simpl; intros []; [subst; apply Rmax_l|]. eapply Rle_trans; [|apply Rmax_r]. auto. Qed.
Lemma maxabs_attained x : x <> [] -> exists a, In a x /\ maxabs x = Rabs a.
Proof.
  induction x as [|a x IH]; [congruence|]. intros _. simpl. destruct x as [|b x].
  - exists a. split; auto. simpl. rewrite Rmax_left; auto. apply Rabs_pos.
  - destruct IH as (c & H1 & H2); [congruence|]. destruct (Rle_dec (Rabs a) (maxabs (b :: x))).
    + exists c. split; [right; auto|]. rewrite Rmax_right; auto.
    + exists a. split; [left; auto|]. rewrite Rmax_left; auto. lra.
Qed.
Lemma sumsq_In x a : In a x -> a * a <= sumsq x.
Proof.
  unfold sumsq. induction x as [|b x IH]; simpl; intros []; [subst|].
  - pose proof (sumsq_nonneg x). unfold sumsq in *. lra.
  - specialize (IH H). nra.
Qed.
Lemma sumsq_le_max x : sumsq x <= INR (length x) * (maxabs x * maxabs x).
Proof.
  cut (forall m, 0 <= m -> maxabs x <= m -> sumsq x <= INR (length x) * (m * m)).
  { intros K. apply K; [apply maxabs_nonneg|lra]. }
  unfold sumsq. induction x as [|a x IH]; intros m Hm Hx; [simpl; lra|].
  cbn [length]. rewrite S_INR. simpl in Hx.
  assert (Rabs a <= m) by (eapply Rle_trans; [apply Rmax_l|exact Hx]).
  assert (maxabs x <= m) by (eapply Rle_trans; [apply Rmax_r|exact Hx]).
  specialize (IH m Hm H0). assert (a * a <= m * m).
  { rewrite <- (Rabs_pos_eq (a*a)) by nra. rewrite Rabs_mult. pose proof (Rabs_pos a). nra. }
  cbn [rdot]. nra.
Qed.
Lemma rms_le_max x : x <> [] -> rms x <= maxabs x.
Proof.
  intros H. pose proof (maxabs_nonneg x). pose proof (rms_nonneg x). apply Rsqr_incr_0_var; [|auto]. unfold Rsqr.
  pose proof (rms_sq x H). pose proof (sumsq_le_max x). pose proof (INR_len x H). nra.
Qed.
Lemma comp_le_rms x a : In a x -> Rabs a <= sqrt (INR (length x)) * rms x.
Proof.
  intros HI. assert (H : x <> []) by (destruct x; [destruct HI|congruence]).
  pose proof (INR_len x H). pose proof (rms_nonneg x). pose proof (sqrt_pos (INR (length x))).
  apply Rsqr_incr_0_var; [|nra]. rewrite <- Rsqr_abs. unfold Rsqr.
  pose proof (sumsq_In x a HI). rewrite <- (rms_sq x H) in H3.
  pose proof (sqrt_sqrt (INR (length x)) ltac:(lra)). nra.
Qed.
Lemma max_le_rms x : x <> [] -> maxabs x / sqrt (INR (length x)) <= rms x.
Proof.
  intros H. destruct (maxabs_attained x H) as (a & HI & ->). pose proof (comp_le_rms x a HI).
  assert (0 < sqrt (INR (length x))) by (apply sqrt_lt_R0, INR_len; auto).
  apply Rmult_le_reg_r with (sqrt (INR (length x))); auto. unfold Rdiv. rewrite Rmult_assoc, Rinv_l by lra. lra.
Qed.

Lemma vadd_fin_r (x y : list R) : @vadd RX (map Fin x) (map Fin y) = map Fin (radd x y).
Proof. unfold vadd, radd. revert y. induction x; destruct y; simpl; auto. f_equal. apply IHx. Qed.
Lemma vscale_fin_r c (x : list R) : @vscale RX (Fin c) (map Fin x) = map Fin (map (Rmult c) x).
Proof. unfold vscale. rewrite !map_map. reflexivity. Qed.

(** ** Tolerances *)
Lemma epsneg_RX : n_epsneg RX = Fin (/ 2 ^ 53). Proof. reflexivity. Qed.
Lemma tiny_RX : nsqrt RX (n_tiny RX) = Fin (sqrt (/ 2 ^ 1022)).
Proof.
  cbn [nsqrt n_tiny RX xsqrt]. destruct (Rlt_dec _ 0) as [l|]; auto. exfalso.
  assert (0 < / 2 ^ 1022) by (apply Rinv_0_lt_compat, pow_lt; lra). lra.
Qed.
Lemma sqrt_tiny_pos : 0 < sqrt (/ 2 ^ 1022).
Proof. apply sqrt_lt_R0, Rinv_0_lt_compat, pow_lt. lra. Qed.
