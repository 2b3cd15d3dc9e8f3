(** C16, C17: tolerance validation and the error norm (common.py 30-66), in exact
    arithmetic with inf and nan ([RX]). *)
From Coq Require Import String Reals Lra Psatz QArith Qreals Lia List Bool.
From Verif Require Import Arith Common RX RKReal NormReal RK.
Import ListNotations.
Close Scope string_scope.
Open Scope nat_scope.
Open Scope R_scope.

(** ** C16 *)
Lemma inl_inv {X Y : Type} (a b : X) : @inl X Y a = inl b -> a = b.
Proof. intros H. inversion H. reflexivity. Qed.
Definition tol_values (a : tol_arg RX) : list xr := match a with Scalar x => [x] | Array l => l end.
Definition same_form (a b : tol_arg RX) (n : nat) : Prop :=
  match a, b with Scalar _, Scalar _ => True | Array l, Array l' => length l = n /\ length l' = n | _, _ => False end.
Definition no_nan (l : list xr) : Prop := Forall (fun x => x <> NaN) l.
(** at least r: a finite number >= r, or +inf *)
Definition atleast (r : R) (x : xr) : Prop := match x with Fin a => r <= a | PInf => True | _ => False end.
Definition floor_rtol : R := 10 / 2 ^ 53.
Definition floor_atol : R := sqrt (/ 2 ^ 1022).
Definition good_tol (rtol : xr) (atol : tol_arg RX) : Prop :=
  (exists r, rtol = Fin r /\ floor_rtol <= r <= 1 / 10) /\ Forall (atleast floor_atol) (tol_values atol).

Lemma floor_rtol_lt : floor_rtol < 1/10.
Proof.
  unfold floor_rtol. replace (2 ^ 53) with 9007199254740992 by (compute; lra). lra.
Qed.
Lemma lb_RX : nmul RX (lit 10) (n_epsneg RX) = Fin floor_rtol.
Proof. rewrite epsneg_RX, lit_RX. cbn [nmul RX xmul]. f_equal. unfold floor_rtol, Rdiv, Q2R. cbn [Qnum Qden]. lra. Qed.
Lemma tenth_RX : @lit RX (1#10) = Fin (1/10).
Proof. reflexivity. Qed.

Lemma rtol_clip r : r <> NaN -> exists q, npmin (npmax r (nmul RX (lit 10) (n_epsneg RX))) (lit (1#10)) = Fin q /\
  floor_rtol <= q <= 1/10 /\ (forall a, r = Fin a -> floor_rtol <= a <= 1/10 -> q = a).
Proof.
  intros HN. rewrite lb_RX, tenth_RX. pose proof floor_rtol_lt. unfold npmin, npmax.
  destruct r as [a| | |]; cbn; try congruence.
  - destruct (Rleb_spec floor_rtol a); cbn; match goal with |- context [Rleb ?u ?w] => destruct (Rleb_spec u w) end; eexists; (split; [reflexivity|]); split; try lra;
      intros ? E; injection E as <-; lra.
  - eexists; split; [reflexivity|]. split; [lra|]. intros; discriminate.
  - destruct (Rleb_spec floor_rtol (1/10)); [|lra]. eexists; split; [reflexivity|]. split; [lra|]. intros; discriminate.
Qed.
Lemma atol_clip x : x <> NaN -> nltb RX x n0 = false -> atleast floor_atol (npmax x (nsqrt RX (n_tiny RX))) /\
  (atleast floor_atol x -> npmax x (nsqrt RX (n_tiny RX)) = x).
Proof.
  intros HN HP. rewrite tiny_RX. fold floor_atol. unfold npmax. destruct x as [a| | |]; cbn in *; try congruence.
  - destruct (Rleb_spec floor_atol a); cbn; split; try lra; auto; intros; exfalso; lra.
  - auto.
Qed.

(** A call that returns gives usable tolerances, of the same shape as the arguments;
    admissible arguments are returned unchanged. *)
Theorem C16_validated isf rtol atol y rtol' atol' : rtol <> NaN -> no_nan (tol_values atol) ->
  validate_tol isf rtol atol y = inl (rtol', atol') ->
  good_tol rtol' atol' /\ same_form atol atol' (length y) /\
  (good_tol rtol atol -> rtol' = rtol /\ atol' = atol).
Proof.
  intros HN HA. unfold validate_tol.
  destruct atol as [a|l]; cbn [negb tol_values] in *.
  - inversion HA as [|? ? Ha _]; subst. destruct (nltb RX a n0) eqn:E1; [discriminate|].
    destruct isf; [|discriminate]. cbn [negb]. destruct (nltb RX rtol n0) eqn:E2; [discriminate|].
    intros E. apply inl_inv, pair_equal_spec in E. destruct E as [<- <-]. destruct (rtol_clip rtol HN) as (q & Eq & Hq & Hu).
    destruct (atol_clip a Ha E1) as (K1 & K2).
    split; [split; [exists q; split; auto|constructor; auto]|]. split; [exact I|].
    intros [(r & Er & Hr) HF]. split; [rewrite Eq, Er; f_equal; apply Hu; auto|]. f_equal. apply K2. inversion HF; auto.
  - destruct (Nat.eqb (length l) (length y)) eqn:EL; [|discriminate]. apply Nat.eqb_eq in EL. cbn [negb].
    destruct (existsb _ l) eqn:E1; [discriminate|]. destruct isf; [|discriminate]. cbn [negb].
    destruct (nltb RX rtol n0) eqn:E2; [discriminate|].
    intros E. apply inl_inv, pair_equal_spec in E. destruct E as [<- <-]. destruct (rtol_clip rtol HN) as (q & Eq & Hq & Hu).
    assert (Hl : Forall (fun x => atleast floor_atol (npmax x (nsqrt RX (n_tiny RX))) /\
       (atleast floor_atol x -> npmax x (nsqrt RX (n_tiny RX)) = x)) l).
    { apply Forall_forall. intros x Hx. apply atol_clip; [exact (proj1 (Forall_forall _ _) HA x Hx)|].
      destruct (nltb RX x n0) eqn:Ex; auto. exfalso. rewrite <- not_true_iff_false in E1. apply E1. apply existsb_exists. exists x; auto. }
    split; [split; [exists q; split; auto|]|split].
    + cbn [tol_values]. apply Forall_forall. intros x Hx. apply in_map_iff in Hx. destruct Hx as (z & <- & Hz).
      rewrite Forall_forall in Hl. exact (proj1 (Hl z Hz)).
    + split; auto. rewrite map_length; auto.
    + intros [(r & Er & Hr) HF]. split; [rewrite Eq, Er; f_equal; apply Hu; auto|]. f_equal. cbn [tol_values] in HF.
      clear - Hl HF. induction l as [|x l IH]; simpl; auto. inversion Hl; subst. inversion HF; subst. f_equal; [apply H1; auto|]. apply IH; auto.
Qed.

(** Which arguments are refused. *)
Theorem C16_refused isf rtol atol y : rtol <> NaN -> no_nan (tol_values atol) ->
  (exists e, validate_tol isf rtol atol y = inr e) <->
  (match atol with Array l => length l <> length y | _ => False end \/
   Exists (fun x => xltb x (Fin 0) = true) (tol_values atol) \/ isf = false \/ xltb rtol (Fin 0) = true).
Proof.
  intros HN HA. unfold validate_tol. rewrite n0_RX. destruct atol as [a|l]; cbn [negb tol_values].
  - cbn [nltb RX]. destruct (xltb a (Fin 0)) eqn:E1.
    { split; [intros _; right; left; constructor; auto|eexists; reflexivity]. }
    destruct isf; cbn [negb]; [|split; [auto|eexists; reflexivity]].
    destruct (xltb rtol (Fin 0)) eqn:E2; [split; [auto|eexists; reflexivity]|].
    split; [intros (e & E); discriminate|]. intros [[]|[H|[H|H]]]; try discriminate. inversion H; subst; [congruence|]. inversion H1.
  - destruct (Nat.eqb_spec (length l) (length y)) as [EL|EL]; cbn [negb]; [|split; [auto|eexists; reflexivity]].
    cbn [nltb RX]. destruct (existsb (fun x : num RX => xltb x (Fin 0)) l) eqn:E1.
    { split; [intros _; right; left|eexists; reflexivity]. apply existsb_exists in E1. destruct E1 as (x & Hx & E). apply Exists_exists. exists x; auto. }
    destruct isf; cbn [negb]; [|split; [auto|eexists; reflexivity]].
    destruct (xltb rtol (Fin 0)) eqn:E2; [split; [auto|eexists; reflexivity]|].
    split; [intros (e & E); discriminate|]. intros [H|[H|[H|H]]]; try discriminate; [contradiction|].
    apply Exists_exists in H. destruct H as (x & Hx & E). rewrite <- not_true_iff_false in E1. exfalso; apply E1. apply existsb_exists. exists x; auto.
Qed.

(** Validating twice changes nothing. *)
Theorem C16_idempotent isf rtol atol y rtol' atol' : rtol <> NaN -> no_nan (tol_values atol) ->
  validate_tol isf rtol atol y = inl (rtol', atol') -> validate_tol isf rtol' atol' y = inl (rtol', atol').
Proof.
  intros HN HA H. pose proof H as H0. apply C16_validated in H0; auto. destruct H0 as (G & SF & _).
  assert (HN' : rtol' <> NaN) by (destruct G as [(r & -> & _) _]; discriminate).
  assert (HA' : no_nan (tol_values atol')).
  { destruct G as [_ G]. unfold no_nan. eapply Forall_impl; [|exact G]. intros [| | |]; simpl; try tauto; discriminate. }
  destruct (validate_tol isf rtol' atol' y) as [[r2 a2]|e] eqn:E.
  - apply C16_validated in E; auto. destruct E as (_ & _ & E). destruct (E G) as [-> ->]. reflexivity.
  - exfalso. assert (X : exists e, validate_tol isf rtol' atol' y = inr e) by eauto. apply C16_refused in X; auto.
    assert (Y : ~ exists e, validate_tol isf rtol atol y = inr e) by (intros (e2 & E2); congruence). rewrite C16_refused in Y by auto.
    pose proof sqrt_tiny_pos as TP. fold floor_atol in TP.
    destruct X as [X|[X|[X|X]]].
    + destruct atol, atol'; simpl in SF, X; try tauto; destruct SF; congruence.
    + destruct G as [_ G]. apply Exists_exists in X. destruct X as (x & Hx & EX). rewrite Forall_forall in G. specialize (G x Hx).
      destruct x; simpl in *; try tauto; try discriminate. apply Rltb_true in EX. lra.
    + apply Y. auto.
    + destruct G as [(r & -> & Hr) _]. simpl in X. apply Rltb_true in X. assert (0 < floor_rtol) by (unfold floor_rtol; apply Rmult_lt_0_compat; [lra|apply Rinv_0_lt_compat, pow_lt; lra]). lra.
Qed.

(** With validated finite tolerances the error scale is positive everywhere, so the scaled
    error of a finite solution is finite: no division by zero. *)
Lemma npmax_abs a b : npmax (nabs RX (Fin a)) (nabs RX (Fin b)) = Fin (Rmax (Rabs a) (Rabs b)).
Proof.
  unfold npmax. cbn. destruct (Rleb_spec (Rabs b) (Rabs a)); [rewrite Rmax_left; auto|rewrite Rmax_right; auto; lra].
Qed.
Lemma scale_nth r al y : forall y', length y = length y' -> length al = length y ->
  vadd (map Fin al) (map (fun m => nmul RX (Fin r) m) (map2 npmax (map (nabs RX) (map Fin y)) (map (nabs RX) (map Fin y')))) =
  map Fin (map2 Rplus al (map (Rmult r) (map2 (fun a b => Rmax (Rabs a) (Rabs b)) y y'))).
Proof.
  revert al. induction y as [|a y IH]; intros [|x al] [|b y'] H1 H2; try discriminate; auto.
  cbn [map map2]. rewrite npmax_abs. simpl in H1, H2. specialize (IH al y' ltac:(lia) ltac:(lia)).
  unfold vadd in *. cbn [map map2 nmul RX xmul nadd xadd] in *. f_equal. exact IH.
Qed.
Lemma bcast_fin (atol : tol_arg RX) (n : nat) : (forall x, In x (tol_values atol) -> exists a, x = Fin a /\ floor_atol <= a) ->
  match atol with Array l => length l = n | _ => True end ->
  exists al, bcast atol n = map Fin al /\ length al = n /\ Forall (fun a => floor_atol <= a) al.
Proof.
  intros HA HF. destruct atol as [a|l]; cbn [bcast tol_values] in *.
  - destruct (HA a ltac:(left; auto)) as (x & -> & Hx). exists (repeat x n). split; [|split].
    + clear. induction n; simpl; f_equal; auto.
    + apply repeat_length.
    + apply Forall_forall. intros z Hz. apply repeat_spec in Hz. subst; auto.
  - clear -HA HF. subst n. induction l as [|x l IH]; [exists []; auto|]. destruct (HA x ltac:(left; auto)) as (z & -> & Hz).
    destruct IH as (al & E & EL & H); [intros; apply HA; right; auto|]. exists (z :: al). split; [|split; [|constructor; auto]].
    + cbn [map]. f_equal. exact E.
    + cbn [length]. f_equal. exact EL.
Qed.
Theorem C16_scale_positive isf rtol atol (y0 : list (num RX)) rtol' atol' (y y' err : list R) :
  rtol <> NaN -> no_nan (tol_values atol) -> Forall (fun x => x <> PInf) (tol_values atol) ->
  validate_tol isf rtol atol y0 = inl (rtol', atol') -> length y = length y0 -> length y' = length y0 -> length err = length y0 ->
  y0 <> [] ->
  exists sc e, calculate_scale atol' rtol' (map Fin y) (map Fin y') = map Fin sc /\ length sc = length y0 /\
    Forall (fun s => floor_atol <= s /\ 0 < s) sc /\
    vdiv (map Fin err) (map Fin sc) = map Fin (map2 Rdiv err sc) /\
    norm (vdiv (map Fin err) (calculate_scale atol' rtol' (map Fin y) (map Fin y'))) = Fin e /\ 0 <= e.
Proof.
  intros HN HA HI HV E1 E2 E3 Hne. pose proof (C16_validated _ _ _ _ _ _ HN HA HV) as (G & SF & _).
  destruct G as [(r & -> & Hr) G].
  assert (Hrp : 0 < r). { assert (0 < floor_rtol) by (unfold floor_rtol; apply Rmult_lt_0_compat; [lra|apply Rinv_0_lt_compat, pow_lt; lra]). lra. }
  assert (HA' : forall x, In x (tol_values atol') -> exists a, x = Fin a /\ floor_atol <= a).
  { intros x Hx. rewrite Forall_forall in G. specialize (G x Hx). destruct x as [a| | |]; simpl in G; try tauto; [exists a; auto|]. exfalso.
    unfold validate_tol in HV. destruct atol as [a|l]; cbn [negb tol_values] in *.
    - destruct (nltb RX a n0); [discriminate|]. destruct isf; [|discriminate]. cbn [negb] in HV. destruct (nltb RX rtol n0); [discriminate|].
      apply inl_inv, pair_equal_spec in HV. destruct HV as [_ <-]. cbn [tol_values] in Hx. destruct Hx as [Hx|[]]. unfold npmax in Hx. rewrite tiny_RX in Hx. inversion HI; subst. inversion HA; subst.
      destruct a as [b| | |]; cbn in Hx; try congruence. destruct (Rleb _ b); congruence.
    - destruct (Nat.eqb _ _); [|discriminate]. cbn [negb] in HV. destruct (existsb _ l); [discriminate|]. destruct isf; [|discriminate]. cbn [negb] in HV. destruct (nltb RX rtol n0); [discriminate|].
      apply inl_inv, pair_equal_spec in HV. destruct HV as [_ <-]. cbn [tol_values] in Hx. apply in_map_iff in Hx. destruct Hx as (a & Hx & Ha). unfold npmax in Hx. rewrite tiny_RX in Hx.
      rewrite Forall_forall in HI. unfold no_nan in HA. rewrite Forall_forall in HA. specialize (HI a Ha). specialize (HA a Ha).
      destruct a as [b| | |]; cbn in Hx; try congruence. destruct (Rleb _ b); congruence. }
  destruct (bcast_fin atol' (length y0) HA') as (al & EA & LA & FA).
  { destruct atol, atol'; simpl in SF; try tauto. }
  set (mx := map2 (fun a b => Rmax (Rabs a) (Rabs b)) y y').
  exists (map2 Rplus al (map (Rmult r) mx)), (rms (map2 Rdiv err (map2 Rplus al (map (Rmult r) mx)))).
  assert (Lm : length mx = length y0).
  { unfold mx. rewrite <- E1 in E2. rewrite <- E1. clear -E2. revert y' E2. induction y; destruct y'; simpl; intros; try discriminate; auto. }
  assert (EC : calculate_scale atol' (Fin r) (map Fin y) (map Fin y') = map Fin (map2 Rplus al (map (Rmult r) mx))).
  { assert (EA' : bcast atol' (@length (num RX) (map Fin y)) = map Fin al) by (rewrite (map_length (Fin : R -> num RX)), E1; exact EA).
    unfold calculate_scale. rewrite EA'. apply scale_nth; congruence. }
  assert (HF : Forall (fun s => floor_atol <= s /\ 0 < s) (map2 Rplus al (map (Rmult r) mx))).
  { assert (Hm : Forall (fun m => 0 <= m) mx). { unfold mx. clear. revert y'. induction y; destruct y'; simpl; constructor; auto. eapply Rle_trans; [apply Rabs_pos|apply Rmax_l]. }
    pose proof sqrt_tiny_pos. fold floor_atol in H. clearbody mx. clear -FA Hm Hrp H. revert mx Hm. induction al as [|a al IH]; intros [|m mx] Hm; simpl; auto. inversion FA; inversion Hm; subst; constructor; [nra|apply IH; auto]. }
  assert (LS : length (map2 Rplus al (map (Rmult r) mx)) = length y0).
  { rewrite <- LA. rewrite <- LA in Lm. clearbody mx. clear -Lm. revert mx Lm. induction al; destruct mx; simpl; intros; try discriminate; auto. }
  assert (ED : @vdiv RX (map Fin err) (map Fin (map2 Rplus al (map (Rmult r) mx))) = map Fin (map2 Rdiv err (map2 Rplus al (map (Rmult r) mx)))).
  { set (sc := map2 Rplus al _) in *. clearbody sc. clear -HF. unfold vdiv. revert sc HF. induction err; intros [|s sc] HF; cbn [map map2]; auto. inversion HF; subst. f_equal; [|apply IHerr; auto].
    cbn. destruct (Req_EM_T s 0); [lra|reflexivity]. }
  split; [exact EC|]. split; [exact LS|]. split; [exact HF|]. split; [exact ED|]. rewrite EC, ED. split; [|apply rms_nonneg].
  apply norm_fin. set (sc := map2 Rplus al _) in *. assert (length sc <> 0)%nat by (destruct y0; [congruence|rewrite LS; discriminate]).
  assert (length err <> 0)%nat by (destruct y0; [congruence|rewrite E3; discriminate]). destruct err, sc; simpl in *; try lia; discriminate.
Qed.
Example C16_case : exists r a, validate_tol true (Fin 0) (Array [Fin 0; Fin 1]) [Fin 3; Fin 4] = inl (r, a) /\ r = Fin floor_rtol /\ a = Array [Fin floor_atol; Fin 1].
Proof.
  eexists. eexists. pose proof floor_rtol_lt. unfold validate_tol. cbn [length Nat.eqb negb existsb]. rewrite n0_RX. cbn [nltb RX xltb].
  rewrite !(proj2 (Rltb_false _ _)) by lra. cbn [orb negb].
  assert (floor_atol <= 1). { unfold floor_atol. rewrite <- sqrt_1. apply sqrt_le_1_alt. rewrite <- Rinv_1. apply Rinv_le_contravar; [lra|]. apply pow_R1_Rle. lra. }
  assert (0 < floor_atol) by apply sqrt_tiny_pos. assert (0 < floor_rtol) by (unfold floor_rtol; apply Rmult_lt_0_compat; [lra|apply Rinv_0_lt_compat, pow_lt; lra]).
  split; [reflexivity|]. rewrite lb_RX, tenth_RX. split.
  - unfold npmin, npmax. cbn. rewrite (proj2 (Rleb_false _ _)) by lra. cbn. rewrite (proj2 (Rleb_true _ _)) by lra. reflexivity.
  - cbn [map]. rewrite tiny_RX. fold floor_atol. unfold npmax. cbn. rewrite (proj2 (Rleb_false _ _)) by lra. rewrite (proj2 (Rleb_true _ _)) by lra. reflexivity.
Qed.
(** nan is not refused: the comparison [< 0] is false for nan, np.maximum propagates it *)
Theorem C16_nan_accepted_refuted isf (y : list (num RX)) : validate_tol true NaN (Scalar NaN) y = inl (NaN, Scalar NaN) /\
  (forall rtol, xltb rtol (Fin 0) = false -> isf = true -> exists r, validate_tol isf rtol (Scalar NaN) y = inl (r, Scalar NaN)).
Proof.
  split; [reflexivity|]. intros rtol H ->. unfold validate_tol. cbn [negb]. rewrite n0_RX. cbn [nltb RX xltb] in *. rewrite H. eexists. reflexivity.
Qed.

(** ** C17 *)
(** the specification: root mean square, largest absolute value *)
Theorem C17_rms (x : list R) : x <> [] -> norm (map Fin x) = Fin (sqrt (fold_right (fun a s => a * a + s) 0 x / INR (length x))).
Proof.
  intros H. rewrite norm_fin by auto. unfold rms. do 2 f_equal. f_equal. unfold sumsq. clear. induction x; simpl; congruence.
Qed.
Theorem C17_norm (x y : list R) c nx ny nxy nc : x <> [] -> length x = length y ->
  norm (map Fin x) = Fin nx -> norm (map Fin y) = Fin ny -> norm (vadd (map Fin x) (map Fin y)) = Fin nxy ->
  norm (vscale (Fin c) (map Fin x)) = Fin nc ->
  0 <= nx /\ (nx = 0 <-> Forall (fun a => a = 0) x) /\ nc = Rabs c * nx /\ nxy <= nx + ny.
Proof.
  intros Hx HL E1 E2 E3 E4. assert (Hy : y <> []) by (destruct y; [destruct x; [congruence|discriminate]|congruence]).
  rewrite norm_fin in E1, E2 by auto. rewrite vadd_fin_r, norm_fin in E3.
  2: { destruct x, y; try congruence; discriminate. }
  rewrite vscale_fin_r, norm_fin in E4. 2: { destruct x; [congruence|discriminate]. }
  injection E1 as <-. injection E2 as <-. injection E3 as <-. injection E4 as <-.
  split; [apply rms_nonneg|]. split; [apply rms_zero; auto|]. split; [apply rms_scale|]. apply rms_triangle; auto.
Qed.
Theorem C17_max_norm (x : list R) nx : x <> [] -> norm (map Fin x) = Fin nx ->
  (forall b, (forall a, In a x -> Rabs a <= b) -> nx <= b) /\
  (forall a, In a x -> Rabs a / sqrt (INR (length x)) <= nx).
Proof.
  intros H E. rewrite norm_fin in E by auto. injection E as <-. split.
  - intros b Hb. eapply Rle_trans; [apply rms_le_max; auto|]. destruct (maxabs_attained x H) as (a & Ha & ->). auto.
  - intros a Ha. pose proof (comp_le_rms x a Ha). assert (0 < sqrt (INR (length x))) by (apply sqrt_lt_R0, INR_len; auto).
    apply Rmult_le_reg_r with (sqrt (INR (length x))); auto. unfold Rdiv. rewrite Rmult_assoc, Rinv_l by lra. lra.
Qed.
(** 'error norm below one' bounds each component only up to sqrt n, and that is attained *)
Theorem C17_componentwise_refuted (n : nat) : (2 <= n)%nat ->
  exists x : list R, length x = n /\ norm (map Fin x) = Fin (9/10) /\ exists a, In a x /\ Rabs a > 6/5.
Proof.
  intros Hn. assert (HI : 2 <= INR n) by (change 2 with (INR 2); apply le_INR; auto).
  exists (9/10 * sqrt (INR n) :: repeat 0 (n - 1)). split; [simpl; rewrite repeat_length; lia|]. split.
  - rewrite norm_fin by discriminate. f_equal. unfold rms.
    assert (E : sumsq (9/10 * sqrt (INR n) :: repeat 0 (n - 1)) = 81/100 * INR n).
    { unfold sumsq. cbn [rdot]. replace (rdot (repeat 0 (n-1)) (repeat 0 (n-1))) with 0 by (induction (n-1)%nat; simpl; lra).
      pose proof (sqrt_sqrt (INR n) ltac:(lra)). nra. }
    rewrite E. replace (length (9/10 * sqrt (INR n) :: repeat 0 (n - 1))) with n by (simpl; rewrite repeat_length; lia).
    replace (81/100 * INR n / INR n) with ((9/10) * (9/10)) by (field; lra). apply sqrt_square; lra.
  - exists (9/10 * sqrt (INR n)). split; [left; auto|]. rewrite Rabs_pos_eq by (pose proof (sqrt_pos (INR n)); lra).
    assert (sqrt 2 <= sqrt (INR n)) by (apply sqrt_le_1_alt; lra).
    assert (7/5 < sqrt 2). { apply Rsqr_incrst_0; [|lra|apply sqrt_pos]. unfold Rsqr. rewrite sqrt_sqrt by lra. lra. } lra.
Qed.
