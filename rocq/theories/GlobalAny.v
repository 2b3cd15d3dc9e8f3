(** Global errors of one-step schemes in general: the step may be a different method every time.
    [Step t y h y'] is "the solver went from (t, y) to (t + h, y')". *)
From Coq Require Import Reals Lra Psatz Lia List.
From Verif Require Import Series Trees OrderThm OrderRK GOrder UOrder UOrder2 GlobalRK.
Import ListNotations.
Open Scope nat_scope. Open Scope R_scope.

Section Any.
Variables (d p : nat) (lo hi : R) (Y : R -> list R).
Hypothesis HYl : forall t, lo <= t <= hi -> length (Y t) = d.
Variable Step : R -> list R -> R -> list R -> Prop.
(** the steps from the initial point of the trajectory, in one direction, inside [lo, hi] *)
Inductive spath (H : R) (ta : R) : R -> list R -> Prop :=
| spath0 : spath H ta ta (Y ta)
| spathS t y h y' : spath H ta t y -> lo <= t + h <= hi -> 0 <= h * (t - ta) -> Rabs h <= H -> Step t y h y' -> spath H ta (t + h) y'.

(** one step adds at most C1 (eps |h| + |h|^(p+1)) and multiplies the error by at most 1 + Lam |h| *)
Definition one_step (Lam C1 eps e0 del : R) : Prop :=
  forall t y h y' e, lo <= t <= hi -> lo <= t + h <= hi -> length y = d -> Rabs h < del -> 0 <= e <= e0 -> close d y (Y t) e -> Step t y h y' ->
    length y' = d /\ close d y' (Y (t + h)) ((1 + Rabs h * Lam) * e + C1 * (eps * Rabs h + Rabs h ^ S p)).

Definition growth (Lam : R) : R := Rabs (hi - lo) * exp (Lam * Rabs (hi - lo)).

Lemma global_any Lam C1 eps e0 del : 0 <= Lam -> 0 <= C1 -> 0 <= eps -> 0 < e0 -> one_step Lam C1 eps e0 del ->
  forall H ta t y, 0 <= H < del -> C1 * growth Lam * (eps + H ^ p) <= e0 -> lo <= ta <= hi -> spath H ta t y ->
  length y = d /\ lo <= t <= hi /\ close d y (Y t) (C1 * growth Lam * (eps + H ^ p)).
Proof.
  intros HLam HC1 Hme He00 HStep H ta t y (H0 & HH) He0 Hta HP.
  set (Xx := Rabs (hi - lo)) in *. assert (HX : 0 <= Xx) by apply Rabs_pos.
  set (G := growth Lam) in *. assert (HG : 0 <= G) by (unfold G, growth; apply Rmult_le_pos; [auto|left; apply exp_pos]).
  set (eta := C1 * (eps + H ^ p)).
  assert (HHp : 0 <= H ^ p) by (apply pow_le; auto).
  assert (Heta : 0 <= eta) by (unfold eta; apply Rmult_le_pos; lra).
  assert (HetaG : eta * G <= e0) by (replace (eta * G) with (C1 * G * (eps + H ^ p)) by (unfold eta; ring); exact He0).
  assert (HXm : forall u, lo <= u <= hi -> Rabs (u - ta) * exp (Lam * Rabs (u - ta)) <= G).
  { intros u Hu. assert (HA : Rabs (u - ta) <= Xx).
    { unfold Xx. rewrite (Rabs_pos_eq (hi - lo)) by lra. apply Rabs_le. lra. }
    unfold G, growth. apply Rmult_le_compat; [apply Rabs_pos|left; apply exp_pos|auto|].
    destruct (Rmult_le_compat_l Lam _ _ HLam HA) as [E|E]; [left; apply exp_increasing; auto|rewrite E; right; auto]. }
  assert (Q : length y = d /\ lo <= t <= hi /\ close d y (Y t) (eta * (Rabs (t - ta) * exp (Lam * Rabs (t - ta))))).
  2:{ destruct Q as (Q1 & Q2 & Q3). split; [auto|]. split; [auto|]. eapply close_le; [exact Q3|].
      replace (C1 * G * (eps + H ^ p)) with (eta * G) by (unfold eta; ring). apply Rmult_le_compat_l; [lra|]. apply HXm; auto. }
  induction HP as [|t y h y' HP IH Ht' Hsg Hst' HS].
  - split; [apply HYl; auto|]. split; [auto|]. apply close_refl.
    apply Rmult_le_pos; [lra|]. apply Rmult_le_pos; [apply Rabs_pos|left; apply exp_pos].
  - destruct IH as (IH1 & IH2 & IH3).
    set (x := Rabs (t - ta)) in *.
    assert (Hx : 0 <= x) by apply Rabs_pos. assert (Hh : 0 <= Rabs h) by apply Rabs_pos.
    set (e := eta * (x * exp (Lam * x))) in *.
    assert (He : 0 <= e <= e0).
    { unfold e. split; [apply Rmult_le_pos; [lra|]; apply Rmult_le_pos; [auto|left; apply exp_pos]|].
      eapply Rle_trans; [apply Rmult_le_compat_l; [lra|apply (HXm t IH2)]|auto]. }
    destruct (HStep t y h y' e IH2 Ht' IH1 ltac:(lra) He IH3 HS) as (S0 & S1).
    split; [exact S0|]. split; [auto|].
    eapply close_le; [exact S1|].
    assert (Hx' : Rabs (t + h - ta) = x + Rabs h).
    { unfold x. replace (t + h - ta) with ((t - ta) + h) by ring.
      destruct (Rle_dec 0 (t - ta)) as [P|P].
      - destruct (Rle_lt_or_eq_dec _ _ P) as [P'|P'].
        + assert (0 <= h) by (destruct (Rle_dec 0 h); auto; exfalso; nra). rewrite !Rabs_pos_eq; lra.
        + rewrite <- P', Rplus_0_l, Rabs_R0. lra.
      - assert (h <= 0) by (destruct (Rle_dec h 0); auto; exfalso; nra). rewrite !Rabs_left1; lra. }
    rewrite Hx'. set (a := Rabs h) in *.
    assert (L1 : C1 * (eps * a + a ^ S p) <= eta * a).
    { unfold eta. rewrite Rmult_assoc. apply Rmult_le_compat_l; [auto|]. simpl.
      assert (a ^ p <= H ^ p) by (apply pow_incr; auto). nra. }
    assert (E1 : 1 + a * Lam <= exp (Lam * a)) by (rewrite (Rmult_comm a); apply exp_ineq1_le).
    assert (E2 : exp (Lam * (x + a)) = exp (Lam * x) * exp (Lam * a)) by (rewrite <- exp_plus; f_equal; ring).
    assert (E3 : 1 <= exp (Lam * (x + a))).
    { eapply Rle_trans; [|apply exp_ineq1_le]. assert (0 <= Lam * (x + a)) by (apply Rmult_le_pos; lra). lra. }
    apply Rle_trans with (exp (Lam * a) * e + eta * a); [apply Rplus_le_compat; [apply Rmult_le_compat_r; lra|auto]|].
    replace (eta * ((x + a) * exp (Lam * (x + a)))) with (exp (Lam * a) * e + eta * (a * exp (Lam * (x + a)))).
    2:{ unfold e. rewrite E2. ring. }
    apply Rplus_le_compat_l. apply Rmult_le_compat_l; [lra|]. nra.
Qed.
(** the same with a bound for the steps in place of the condition on the error *)
Lemma global_any_del Lam C1 eps e0 del : 0 <= Lam -> 0 <= C1 -> 0 <= eps -> 0 < e0 -> 0 < del -> (0 < p)%nat -> C1 * growth Lam * eps <= e0 / 2 -> one_step Lam C1 eps e0 del ->
  exists del', 0 < del' /\ forall H ta t y, 0 <= H < del' -> lo <= ta <= hi -> spath H ta t y ->
  length y = d /\ lo <= t <= hi /\ close d y (Y t) (C1 * growth Lam * (eps + H ^ p)).
Proof.
  intros HLam HC1 Hme He00 Hdel Hp Heps HStep. set (C := C1 * growth Lam) in *.
  assert (HC : 0 <= C) by (unfold C, growth; repeat apply Rmult_le_pos; auto; [apply Rabs_pos|left; apply exp_pos]).
  set (z := e0 / 2 / (C + 1)). assert (Hz : 0 < z) by (apply Rdiv_lt_0_compat; lra).
  assert (HCz : C * z <= e0 / 2). { apply Rle_trans with ((C + 1) * z); [nra|]. unfold z. right. field. lra. }
  exists (Rmin del (Rmin 1 z)). split; [repeat apply Rmin_case; lra|].
  intros H ta t y (H0 & HH) Hta HP.
  assert (D1 : H < del) by (eapply Rlt_le_trans; [exact HH|apply Rmin_l]).
  assert (D2 : H <= 1) by (apply Rlt_le; eapply Rlt_le_trans; [exact HH|eapply Rle_trans; [apply Rmin_r|apply Rmin_l]]).
  assert (D3 : H <= z) by (apply Rlt_le; eapply Rlt_le_trans; [exact HH|eapply Rle_trans; [apply Rmin_r|apply Rmin_r]]).
  assert (HHp : H ^ p <= H). { clear - Hp H0 D2. revert Hp. generalize p as n. intros [|p'] Hp; [lia|]. simpl. apply Rle_trans with (H * 1); [|lra]. apply Rmult_le_compat_l; [auto|]. replace 1 with (1 ^ p') by apply pow1. apply pow_incr. lra. }
  assert (HK : C * (eps + H ^ p) <= e0) by (rewrite Rmult_plus_distr_l; assert (C * H ^ p <= C * z) by (apply Rmult_le_compat_l; lra); lra).
  exact (global_any Lam C1 eps e0 del HLam HC1 Hme He00 HStep H ta t y (conj H0 D1) HK Hta HP).
Qed.
End Any.
