(** Binary64: every accepted step moves t strictly, and the solver state reached by
    any history of step() calls satisfies the hypotheses of the landing theorems. *)
From Flocq Require Import Core BinarySingleNaN Plus_error Sterbenz Mult_error Relative.
From Coq Require Import String ZArith Reals Lra Psatz QArith Bool Lia List.
From Verif Require Import Arith Common Stiff RK RKGen RKHist HStart RKInit F64.
Import ListNotations.
Close Scope string_scope. Open Scope nat_scope. Open Scope R_scope.

Lemma inl_pair_eq {X Y E : Type} (a b : X) (c d : Y) : @inl (X * Y) E (a, c) = inl (b, d) -> a = b /\ c = d.
Proof. intros H. inversion H. auto. Qed.

Lemma StepOk_eq {A} (a b : Solver A) : StepOk a = StepOk b -> a = b.
Proof. congruence. Qed.

Section Adv.
Context (pw : b64 -> b64 -> b64) (lg : b64 -> b64).
Notation FA := (F64 pw lg).
Implicit Types (m : Meth FA) (c : Cfg FA) (v : Solver FA) (s : St FA).

(** ** the constructor *)
Lemma sign_minus (a b : b64) : is_finite a = true -> is_finite b = true ->
  let X := Bminus mode_NE a b in
  (is_finite X = true /\ B2R X = rnd64 (B2R a - B2R b)) \/
  (X = B754_infinity false /\ 0 < B2R a - B2R b) \/ (X = B754_infinity true /\ B2R a - B2R b < 0).
Proof.
  intros Ha Hb X. pose proof (Bminus_correct 53 1024 _ _ mode_NE a b Ha Hb) as H. cbn [round_mode] in H.
  destruct (Rlt_bool_spec (Rabs (rnd64 (B2R a - B2R b))) (bpow radix2 1024)) as [L|L]; [left; tauto|right].
  destruct H as [H Hs]. fold X in H.
  assert (NZ : B2R a - B2R b <> 0).
  { intros E. rewrite E, round_0, Rabs_R0 in L by apply valid_rnd_N. pose proof (bpow_gt_0 radix2 1024). lra. }
  assert (S : (Bsign a = false -> 0 <= B2R a /\ B2R b <= 0) /\ (Bsign a = true -> B2R a <= 0 /\ 0 <= B2R b)).
  { assert (Q : forall x : b64, is_finite x = true -> (Bsign x = false -> 0 <= B2R x) /\ (Bsign x = true -> B2R x <= 0)).
    { intros [sx|sx| |sx mx ex Hx] F; cbn; split; intros E; try discriminate; try lra; subst sx; cbn.
      - apply F2R_ge_0. cbn. lia.
      - apply F2R_le_0. cbn. lia. }
    destruct (Q a Ha) as [Q1 Q2]. destruct (Q b Hb) as [Q3 Q4].
    split; intros E; rewrite E in Hs; destruct (Bsign b); cbn in Hs; try discriminate; auto. }
  destruct (Bsign a); cbn in H.
  - right. split; [|destruct S as [_ S]; specialize (S eq_refl); lra].
    destruct X as [|s0| |]; cbn in H; try discriminate. injection H as ->. reflexivity.
  - left. split; [|destruct S as [S _]; specialize (S eq_refl); lra].
    destruct X as [|s0| |]; cbn in H; try discriminate. injection H as ->. reflexivity.
Qed.

Lemma rnd_sign (a b : b64) : (0 < rnd64 (B2R a - B2R b) -> B2R b < B2R a) /\ (rnd64 (B2R a - B2R b) < 0 -> B2R a < B2R b)
  /\ (rnd64 (B2R a - B2R b) = 0 -> B2R a = B2R b).
Proof.
  destruct (rnd_minus_sign a b) as [S1 S2].
  destruct (Rtotal_order (B2R a) (B2R b)) as [L|[L|L]].
  - specialize (S2 ltac:(lra)). repeat split; intros; lra.
  - rewrite L, Rminus_diag_eq, round_0 by (auto; apply valid_rnd_N). repeat split; intros; lra.
  - specialize (S1 ltac:(lra)). repeat split; intros; lra.
Qed.

Lemma direction_64 (t0 tb : b64) : is_finite t0 = true -> is_finite tb = true ->
  let d := @direction0 FA t0 tb in
  (d = @n1 FA \/ d = @lit FA (-1)) /\ (B2R t0 <> B2R tb -> 0 < B2R (d : b64) * (B2R tb - B2R t0)).
Proof.
  intros F0 Fb d. subst d. unfold direction0.
  destruct (n0_64 pw lg) as [Fz Ez]. destruct (n1_64 pw lg) as [F1 E1]. destruct (nm1_64 pw lg) as [Fm Em].
  change (nltb FA) with (@Bltb 53 1024). change (nsub FA) with (@Bminus 53 1024 _ _ mode_NE).
  destruct (sign_minus tb t0 Fb F0) as [[FX EX]|[[EX HX]|[EX HX]]].
  - destruct (rnd_sign tb t0) as (R1 & R2 & R3). rewrite <- EX in R1, R2, R3.
    destruct (Bltb (@n0 FA) (Bminus mode_NE tb t0)) eqn:C1.
    + apply ltb_64 in C1; auto. rewrite Ez in C1. specialize (R1 C1). split; [left; reflexivity|]. intros _. rewrite E1. lra.
    + destruct (Bltb (Bminus mode_NE tb t0) (@n0 FA)) eqn:C2.
      * apply ltb_64 in C2; auto. rewrite Ez in C2. specialize (R2 C2). split; [right; reflexivity|]. intros _. rewrite Em. lra.
      * split; [left; reflexivity|]. intros N. exfalso. apply N. symmetry. apply R3.
        assert (~ 0 < B2R (Bminus mode_NE tb t0)) by (intros L; rewrite <- Ez in L; apply (ltb_64 _ _ Fz FX) in L; congruence).
        assert (~ B2R (Bminus mode_NE tb t0) < 0) by (intros L; rewrite <- Ez in L; apply (ltb_64 _ _ FX Fz) in L; congruence).
        lra.
  - rewrite EX, (ltb_inf _ Fz). split; [left; reflexivity|]. intros _. rewrite E1. lra.
  - rewrite EX. assert (X1 : Bltb (@n0 FA) (B754_infinity true : b64) = false) by (vm_compute; reflexivity).
    assert (X2 : Bltb (B754_infinity true : b64) (@n0 FA) = true) by (vm_compute; reflexivity).
    rewrite X1, X2. split; [right; reflexivity|]. intros _. rewrite Em. lra.
Qed.

(** ** minimum step *)
Lemma cdiff_64 (C : list b64) : let d := @cdiff FA C in is_finite d = true /\ 1 / 2 ^ 11 <= B2R d <= 1.
Proof.
  cbv zeta. unfold cdiff.
  assert (G : forall (cs1 : list b64) (acc : b64), is_finite acc = true -> 0 < B2R acc <= 1 ->
    let r := fold_left (fun acc c1 : b64 => fold_left (fun acc c2 : b64 =>
               let diff := nabs FA (nsub FA c1 c2) in if neqb FA diff (@n0 FA) then acc else @pymin FA acc diff) C acc) cs1 acc in
    is_finite (r : b64) = true /\ 0 < B2R (r : b64) <= 1).
  { assert (G1 : forall (c1 : b64) (cs : list b64) (acc : b64), is_finite acc = true -> 0 < B2R acc <= 1 ->
      let r := fold_left (fun acc c2 : b64 =>
               let diff := nabs FA (nsub FA c1 c2) in if neqb FA diff (@n0 FA) then acc else @pymin FA acc diff) cs acc in
      is_finite (r : b64) = true /\ 0 < B2R (r : b64) <= 1).
    { intros c1. induction cs as [|c2 cs IH]; intros acc Fa Ha; [cbn; auto|].
      cbn [fold_left]. cbv zeta. apply IH.
      - change (neqb FA) with (@Beqb 53 1024). change (nabs FA) with (@Babs 53 1024). unfold pymin. change (nltb FA) with (@Bltb 53 1024).
        destruct (Beqb _ _) eqn:E0; [exact Fa|]. destruct (Bltb _ acc) eqn:E1; [|exact Fa].
        destruct (nsub FA c1 c2) as [sx|sx| |sx mx ex Hx]; try reflexivity.
        + destruct acc as [sa|sa| |sa ma ea Hma]; try discriminate.
        + destruct acc; discriminate.
      - change (neqb FA) with (@Beqb 53 1024). change (nabs FA) with (@Babs 53 1024). unfold pymin. change (nltb FA) with (@Bltb 53 1024).
        destruct (Beqb _ _) eqn:E0; [exact Ha|]. destruct (Bltb _ acc) eqn:E1; [|exact Ha].
        assert (Fd : is_finite (Babs (nsub FA c1 c2 : b64)) = true).
        { destruct (nsub FA c1 c2) as [sx|sx| |sx mx ex Hx]; try reflexivity;
            destruct acc as [sa|sa| |sa ma ea Hma]; discriminate. }
        pose proof E1 as E1'. apply ltb_64 in E1'; auto. destruct (n0_64 pw lg) as [Fz Ez].
        assert (B2R (Babs (nsub FA c1 c2 : b64)) <> 0).
        { intros E. assert (X : Beqb (Babs (nsub FA c1 c2 : b64)) (@n0 FA) = true) by (apply eqb_64; auto; rewrite Ez; exact E).
          congruence. }
        rewrite B2R_Babs in *. pose proof (Rabs_pos (B2R (nsub FA c1 c2 : b64))). lra. }
    induction cs1 as [|c1 cs1 IH]; intros acc Fa Ha; [cbn; auto|]. cbn [fold_left]. cbv zeta.
    destruct (G1 c1 C acc Fa Ha) as [Fa' Ha']. exact (IH _ Fa' Ha'). }
  destruct (n1_64 pw lg) as [F1 E1].
  destruct (G C (@n1 FA) F1 ltac:(rewrite E1; lra)) as [Fr Hr].
  match type of Fr with is_finite ?x = true => set (r := x) in * end.
  assert (L : is_finite (@lit FA (1#1000) : b64) = true /\ 1 / 2 ^ 11 <= B2R (@lit FA (1#1000) : b64) <= 1).
  { assert (Z : is_finite (@lit FA (1#1000) : b64) = true /\ B2R (@lit FA (1#1000) : b64) = 4611686018427388 / 2 ^ 62).
    { by_sf. }
    destruct Z as [Z1 Z2]. split; [exact Z1|]. rewrite Z2. simpl. lra. }
  destruct L as [Fl Hl].
  change (is_finite (if Bltb r (@lit FA (1#1000)) then @lit FA (1#1000) : b64 else r) = true /\
          1 / 2 ^ 11 <= B2R (if Bltb r (@lit FA (1#1000)) then @lit FA (1#1000) : b64 else r) <= 1).
  destruct (Bltb r (@lit FA (1#1000))) eqn:E; [auto|]. split; [exact Fr|]. split; [|lra].
  assert (~ B2R r < B2R (@lit FA (1#1000) : b64)) by (intros X; apply (ltb_64 _ _ Fr Fl) in X; congruence). lra.
Qed.

Lemma h_min_a_64 (C : list b64) : let a := @h_min_a0 FA C in is_finite (a : b64) = true /\ bpow radix2 (-50) <= B2R (a : b64).
Proof.
  cbv zeta. unfold h_min_a0. destruct (cdiff_64 C) as [Fd Hd].
  set (d := @cdiff FA C : b64) in *.
  assert (X : is_finite (nmul FA (@lit FA 10) (n_epsneg FA) : b64) = true /\ B2R (nmul FA (@lit FA 10) (n_epsneg FA) : b64) = 10 / 2 ^ 53) by by_sf.
  set (x := nmul FA (@lit FA 10) (n_epsneg FA) : b64) in *. destruct X as [Fx Ex].
  assert (P11 : 0 < 1 / 2 ^ 11) by (simpl; lra).
  change (is_finite (Bdiv mode_NE x d) = true /\ bpow radix2 (-50) <= B2R (Bdiv mode_NE x d)).
  pose proof (Bdiv_correct 53 1024 _ _ mode_NE x d ltac:(lra)) as H. cbn [round_mode] in H. rewrite Ex in H.
  assert (V : Valid_exp fexp64) by (apply FLT_exp_valid; reflexivity).
  assert (Q : bpow radix2 (-50) <= 10 / 2 ^ 53 / B2R d <= bpow radix2 10).
  { split.
    - apply Rmult_le_reg_r with (B2R d); [lra|]. unfold Rdiv. rewrite Rmult_assoc, Rinv_l by lra.
      apply Rle_trans with (bpow radix2 (-50)); [rewrite <- (Rmult_1_r (bpow radix2 (-50))) at 2; apply Rmult_le_compat_l; [apply bpow_ge_0|lra]|].
      cbn [bpow]. change (Z.pow_pos radix2 50) with (2 ^ 50)%Z. simpl. lra.
    - apply Rmult_le_reg_r with (B2R d); [lra|]. unfold Rdiv. rewrite Rmult_assoc, Rinv_l by lra.
      apply Rle_trans with (bpow radix2 10 * (1 / 2 ^ 11)); [|apply Rmult_le_compat_l; [apply bpow_ge_0|lra]].
      cbn [bpow]. change (Z.pow_pos radix2 10) with 1024%Z. simpl. lra. }
  assert (G1 : bpow radix2 (-50) <= rnd64 (10 / 2 ^ 53 / B2R d)).
  { apply round_ge_generic; first [exact V|apply valid_rnd_N|apply generic_format_bpow; cbv; discriminate|lra]. }
  assert (G2 : rnd64 (10 / 2 ^ 53 / B2R d) <= bpow radix2 10).
  { apply round_le_generic; first [exact V|apply valid_rnd_N|apply generic_format_bpow; cbv; discriminate|lra]. }
  rewrite Rlt_bool_true in H.
  - destruct H as (H1 & H2 & _). split; [rewrite H2; exact Fx|]. rewrite H1. exact G1.
  - pose proof (bpow_gt_0 radix2 (-50)). rewrite Rabs_pos_eq by lra. eapply Rle_lt_trans; [exact G2|]. apply bpow_lt. lia.
Qed.

Lemma h_min_b_64 : is_finite (@h_min_b0 FA : b64) = true /\ B2R (@h_min_b0 FA : b64) = bpow radix2 (-511).
Proof.
  by_sf.
Qed.

Lemma sign_pos (x : b64) : is_finite x = true -> 0 < B2R x -> Bsign x = false.
Proof.
  destruct x as [sx|sx| |sx mx ex Hx]; cbn; intros F H; try discriminate; try lra.
  destruct sx; [|reflexivity]. exfalso.
  assert (Q : F2R (Float radix2 (Z.neg mx) ex) < 0) by (apply F2R_lt_0; cbn; lia).
  cbn in H. unfold F2R in *. cbn in *. lra.
Qed.

Lemma nonneg_cases (x : b64) : Bleb (@n0 FA) x = true -> x = B754_infinity false \/ (is_finite x = true /\ 0 <= B2R x).
Proof.
  intros H. destruct (n0_64 pw lg) as [Fz Ez]. destruct x as [sx|sx| |sx mx ex Hx].
  - right. cbn. split; [reflexivity|lra].
  - destruct sx; [|left; reflexivity]. exfalso. rewrite leb_ninf in H by exact Fz. discriminate.
  - exfalso. revert H. vm_compute. discriminate.
  - right. split; [reflexivity|]. rewrite <- Ez. apply (leb_64 _ (B754_finite sx mx ex Hx : b64)); auto.
Qed.

(** |t| + h *)
Lemma sum_64 (a h : b64) : is_finite a = true -> Bleb (@n0 FA) h = true ->
  let S := Bplus mode_NE (Babs a) h in
  S = B754_infinity false \/ (is_finite S = true /\ Rabs (B2R a) <= B2R S).
Proof.
  intros Fa Hh S. assert (V : Valid_exp fexp64) by (apply FLT_exp_valid; reflexivity).
  destruct (nonneg_cases h Hh) as [E|[Fh Ph]].
  - left. subst S. rewrite E. destruct a; try discriminate; reflexivity.
  - assert (FA' : is_finite (Babs a) = true) by (rewrite is_finite_Babs; exact Fa).
    pose proof (Bplus_correct 53 1024 _ _ mode_NE (Babs a) h FA' Fh) as H. cbn [round_mode] in H. rewrite B2R_Babs in H.
    fold S in H.
    assert (G : Rabs (B2R a) <= rnd64 (Rabs (B2R a) + B2R h)).
    { apply round_ge_generic; first [exact V|apply valid_rnd_N|apply generic_format_abs, b64_format|lra]. }
    destruct (Rlt_bool_spec (Rabs (rnd64 (Rabs (B2R a) + B2R h))) (bpow radix2 1024)).
    + destruct H as (H1 & H2 & _). right. rewrite H1. auto.
    + left. destruct H as [H _]. rewrite Bsign_Babs in H by (destruct a; try discriminate; reflexivity).
      destruct S as [|s0| |]; cbn in H; try discriminate. injection H as ->. reflexivity.
Qed.

Lemma prod_64 (a S : b64) : is_finite a = true -> bpow radix2 (-50) <= B2R a ->
  S = B754_infinity false \/ (is_finite S = true /\ 0 <= B2R S) ->
  let P := Bmult mode_NE a S in
  P = B754_infinity false \/ (is_finite S = true /\ is_finite P = true /\ B2R P = rnd64 (B2R a * B2R S)).
Proof.
  intros Fa Ha HS P. pose proof (bpow_gt_0 radix2 (-50)) as P50.
  assert (Sa : Bsign a = false) by (apply sign_pos; auto; lra).
  destruct HS as [E|[FS PS]].
  - left. subst P. rewrite E. destruct a as [sa|sa| |sa ma ea Hma]; try discriminate.
    + cbn in Ha. lra.
    + cbn in Sa. subst sa. reflexivity.
  - pose proof (Bmult_correct 53 1024 _ _ mode_NE a S) as H. cbn [round_mode] in H. fold P in H.
    destruct (Rlt_bool_spec (Rabs (rnd64 (B2R a * B2R S))) (bpow radix2 1024)) as [L|L].
    + destruct H as (H1 & H2 & _). rewrite Fa, FS in H2. right. auto.
    + left. assert (0 < B2R S).
      { destruct PS as [PS|PS]; [exact PS|]. exfalso. rewrite <- PS, Rmult_0_r, round_0, Rabs_R0 in L by apply valid_rnd_N.
        pose proof (bpow_gt_0 radix2 1024). lra. }
      rewrite Sa, (sign_pos S FS) in H by auto. cbn in H.
      destruct P as [|s0| |]; cbn in H; try discriminate. injection H as ->. reflexivity.
Qed.

(** a step at least as long as the minimum step is at least one ulp of t *)
Lemma min_step_ulp (a ha ha' hma hmb : b64) : is_finite a = true -> Bleb (@n0 FA) ha = true ->
  is_finite hma = true -> bpow radix2 (-50) <= B2R hma -> is_finite hmb = true -> B2R hmb = bpow radix2 (-511) ->
  is_finite ha' = true ->
  Bltb ha' (@pymax FA (Bmult mode_NE hma (Bplus mode_NE (Babs a) ha)) hmb) = false ->
  ulp radix2 fexp64 (B2R a) <= B2R ha'.
Proof.
  intros Fa Hha Fm Hm Fb Hb Fh' Hlt. assert (V : Valid_exp fexp64) by (apply FLT_exp_valid; reflexivity).
  set (S := Bplus mode_NE (Babs a) ha) in *. set (P := Bmult mode_NE hma S) in *.
  assert (HS : S = B754_infinity false \/ (is_finite S = true /\ Rabs (B2R a) <= B2R S)) by (apply sum_64; auto).
  assert (HP : P = B754_infinity false \/ (is_finite S = true /\ is_finite P = true /\ B2R P = rnd64 (B2R hma * B2R S))).
  { apply prod_64; auto. destruct HS as [HS|[HS1 HS2]]; [left; exact HS|right]. split; [exact HS1|].
    pose proof (Rabs_pos (B2R a)). lra. }
  unfold pymax in Hlt. change (nltb FA) with (@Bltb 53 1024) in Hlt.
  destruct HP as [EP|(FS & FP & EP)].
  { exfalso. rewrite EP in Hlt. assert (X : Bltb (B754_infinity false : b64) hmb = false) by (destruct hmb; try discriminate; reflexivity).
    rewrite X in Hlt. rewrite ltb_inf in Hlt by exact Fh'. discriminate. }
  assert (B : B2R P <= B2R ha' /\ B2R hmb <= B2R ha').
  { destruct (Bltb P hmb) eqn:C.
    - apply ltb_64 in C; auto. assert (~ B2R ha' < B2R hmb) by (intros X; apply (ltb_64 _ _ Fh' Fb) in X; congruence). lra.
    - assert (~ B2R ha' < B2R P) by (intros X; apply (ltb_64 _ _ Fh' FP) in X; congruence).
      assert (~ B2R P < B2R hmb) by (intros X; apply (ltb_64 _ _ FP Fb) in X; congruence). lra. }
  destruct B as [B1 B2]. rewrite Hb in B2. rewrite EP in B1.
  destruct HS as [E|[_ HS]]; [rewrite E in FS; discriminate|].
  destruct (Rle_or_lt (bpow radix2 (-900)) (Rabs (B2R a))) as [L|L].
  - assert (G : bpow radix2 (-50) * Rabs (B2R a) <= rnd64 (B2R hma * B2R S)).
    { apply round_ge_generic; [exact V|apply valid_rnd_N| |apply Rmult_le_compat; try apply bpow_ge_0; try apply Rabs_pos; auto].
      rewrite Rmult_comm. apply (mult_bpow_exact_FLT radix2 (-1074) 53); [apply generic_format_abs, b64_format|].
      assert (-899 <= mag radix2 (Rabs (B2R a)))%Z; [|lia].
      apply mag_ge_bpow. rewrite Rabs_Rabsolu. exact L. }
    assert (U : ulp radix2 fexp64 (B2R a) <= Rabs (B2R a) * bpow radix2 (1 - 53)).
    { apply (ulp_FLT_le radix2 (-1074) 53). eapply Rle_trans; [|exact L]. apply bpow_le. lia. }
    eapply Rle_trans; [exact U|]. eapply Rle_trans; [|exact B1]. eapply Rle_trans; [|exact G].
    rewrite Rmult_comm. apply Rmult_le_compat_r; [apply Rabs_pos|]. apply bpow_le. lia.
  - eapply Rle_trans; [|exact B2].
    eapply Rle_trans; [apply (ulp_le radix2 fexp64 (B2R a) (bpow radix2 (-900)))|].
    + rewrite (Rabs_pos_eq (bpow radix2 (-900))) by apply bpow_ge_0. lra.
    + rewrite ulp_bpow. apply bpow_le. vm_compute. discriminate.
Qed.

(** adding at least one ulp moves a float *)
Lemma plus_moves (a h : b64) : is_finite a = true -> is_finite h = true -> is_finite (Bplus mode_NE a h) = true ->
  (ulp radix2 fexp64 (B2R a) <= B2R h -> B2R a < B2R (Bplus mode_NE a h)) /\
  (B2R h <= - ulp radix2 fexp64 (B2R a) -> B2R (Bplus mode_NE a h) < B2R a).
Proof.
  intros Fa Fh FS. assert (V : Valid_exp fexp64) by (apply FLT_exp_valid; reflexivity).
  rewrite (Bplus_fin pw lg a h Fa Fh FS).
  assert (UP : forall x, generic_format radix2 fexp64 x -> 0 < ulp radix2 fexp64 x).
  { intros x Fx. eapply Rle_lt_trans; [|apply (ulp_FLT_gt radix2 (-1074) 53)].
    apply Rmult_le_pos; [apply Rabs_pos|apply bpow_ge_0]. }
  specialize (UP (B2R a) (b64_format a)).
  assert (Q : forall x y, generic_format radix2 fexp64 x -> ulp radix2 fexp64 x <= y -> 0 < ulp radix2 fexp64 x -> x < rnd64 (x + y)).
  { intros x y Fx Hy P. apply Rlt_le_trans with (succ radix2 fexp64 x); [|].
    - destruct (Req_dec x 0) as [->|N]; [|apply succ_gt_id, N]. rewrite succ_eq_pos by lra. lra.
    - apply round_ge_generic; [exact V|apply valid_rnd_N|apply generic_format_succ; [exact V|exact Fx]|].
      eapply Rle_trans; [apply succ_le_plus_ulp; apply FLT_exp_monotone|lra]. }
  split; intros H.
  - apply Q; auto. apply b64_format.
  - assert (X : - B2R a < rnd64 (- B2R a + - B2R h)).
    { apply Q; [apply generic_format_opp, b64_format|rewrite ulp_opp; lra|rewrite ulp_opp; lra]. }
    replace (- B2R a + - B2R h) with (- (B2R a + B2R h)) in X by ring. rewrite round_NE_opp in X. lra.
Qed.

(** ** histories *)
Definition built64 (o : Opts FA) fun_ (t0 tb : b64) y0 c s : Prop :=
  (exists k, rk_init k o fun_ t0 y0 tb = inl (c, s)) \/ (exists k vi, rkn_init k vi o fun_ t0 y0 tb = inl (c, s)).
Definition after64 m (o : Opts FA) fun_ (t0 tb : b64) y0 c (n : nat) v : Prop :=
  exists s, built64 o fun_ t0 tb y0 c s /\ history m c (new_solver s) n v.

Lemma rk_consts64 k (o : Opts FA) fun_ (t0 : b64) y0 (tb : b64) c s : rk_init k o fun_ t0 y0 tb = inl (c, s) ->
  t_bound c = tb /\ direction c = @direction0 FA t0 tb /\ t s = t0 /\ (exists C, h_min_a c = @h_min_a0 FA C) /\ h_min_b c = @h_min_b0 FA.
Proof.
  unfold rk_init. intros H.
  destruct (nleb FA (o_max_step o) n0); [discriminate|].
  destruct (validate_tol (o_rtol_is_float o) (o_rtol o) (o_atol o) y0) as [[rt at_]|]; [|discriminate].
  destruct (init_stiff (k_stab k) (o_stiff o)) as [nsd|]; [|discriminate].
  destruct (sc_coefs (sc_or (o_sc o) (k_sc k))) as [[[[kb1 kb2] al] gg]|]; [|discriminate].
  cbv zeta in H.
  match type of H with match ?x with inl _ => _ | inr _ => _ end = _ => destruct x as [[hh cl]|]; [|discriminate] end.
  apply inl_pair_eq in H. destruct H as [<- <-]. cbn [t_bound direction t h_min_a h_min_b].
  split; [reflexivity|]. split; [reflexivity|]. split; [reflexivity|]. split; [|reflexivity]. exists (k_C k). reflexivity.
Qed.

Lemma consts64 o fun_ t0 tb y0 c s : built64 o fun_ t0 tb y0 c s ->
  t_bound c = tb /\ direction c = @direction0 FA t0 tb /\ t s = t0 /\ (exists C, h_min_a c = @h_min_a0 FA C) /\ h_min_b c = @h_min_b0 FA.
Proof.
  intros [(k & H)|(k & vi & H)]; [exact (rk_consts64 _ _ _ _ _ _ _ _ H)|].
  unfold rkn_init in H.
  match type of H with match ?x with inl _ => _ | inr _ => _ end = _ => destruct x as [[c1 s1]|] eqn:E; [|discriminate] end.
  apply rk_consts64 in E. destruct (init_stiff (k_stab k) (o_stiff o)) as [nsd|]; [|discriminate]. cbv zeta in H.
  repeat match type of H with (if ?b then _ else _) = _ => destruct b; [discriminate|] end.
  apply inl_pair_eq in H. destruct H as [<- <-]. exact E.
Qed.

Lemma zero_test (x d : b64) : is_finite d = true -> (B2R d = 1 \/ B2R d = -1) -> is_nan x = false ->
  Bleb (@n0 FA) (Bmult mode_NE d x) = false ->
  (x = B754_infinity false /\ B2R d = -1) \/ (x = B754_infinity true /\ B2R d = 1) \/
  (is_finite x = true /\ B2R d * B2R x < 0).
Proof.
  intros Fd Hd Nx H. destruct (n0_64 pw lg) as [Fz Ez].
  assert (Sd : B2R d = 1 /\ Bsign d = false \/ B2R d = -1 /\ Bsign d = true).
  { destruct Hd as [E|E]; [left|right]; (split; [exact E|]).
    - apply sign_pos; auto. lra.
    - assert (Bsign (Bopp d) = false) by (apply sign_pos; [rewrite is_finite_Bopp; auto|rewrite B2R_Bopp; lra]).
      destruct d as [[]|[]| |[]]; cbn in *; try discriminate; try reflexivity; lra. }
  destruct x as [sx|sx| |sx mx ex Hx]; try discriminate.
  - exfalso. destruct d as [sd|sd| |sd md ed Hmd]; try discriminate; destruct sd, sx; cbn in H; discriminate.
  - destruct Sd as [[E S]|[E S]]; destruct d as [sd|sd| |sd md ed Hmd]; try discriminate; try (cbn in E; lra); cbn in S; subst sd; destruct sx; auto;
      exfalso; revert H; vm_compute; discriminate.
  - right; right. set (x := B754_finite sx mx ex Hx : b64) in *. split; [reflexivity|].
    assert (X : is_b64 (B2R d * B2R x)).
    { destruct Hd as [-> | ->]; [exists x; split; [reflexivity|lra]|]. exists (Bopp x). rewrite is_finite_Bopp, B2R_Bopp. split; [reflexivity|lra]. }
    destruct (mult_exact d x Fd eq_refl X) as [F E]. rewrite <- E. apply Rnot_le_lt. intros L.
    rewrite <- Ez in L. apply (leb_64 _ _ Fz F) in L. congruence.
Qed.

Lemma minus_notnan (a b : b64) : is_finite a = true -> is_finite b = true -> is_nan (Bminus mode_NE a b) = false.
Proof.
  intros Fa Fb. destruct (sign_minus a b Fa Fb) as [[F _]|[[-> _]|[-> _]]]; try reflexivity.
  destruct (Bminus mode_NE a b); try discriminate; reflexivity.
Qed.

(** while the solver is running, t lies strictly before t_bound (unless the interval was empty) *)
Lemma running_before m o fun_ t0 tb y0 c n v : after64 m o fun_ t0 tb y0 c n v ->
  is_finite t0 = true -> is_finite tb = true -> is_finite (t (st v) : b64) = true -> stat v = Running ->
  B2R (t (st v) : b64) <> B2R tb ->
  unit_dir pw lg c /\ before_bound pw lg c (st v).
Proof.
  intros (s & HB & HH) F0 Fb Ft HR N. destruct (consts64 _ _ _ _ _ _ _ HB) as (E1 & E2 & E3 & _ & _).
  destruct (direction_64 t0 tb F0 Fb) as [D1 D2]. rewrite <- E2 in D1, D2.
  split; [exact D1|]. unfold before_bound. rewrite E1.
  assert (HC : v = new_solver s \/ exists k v1, ode_step k m c v1 = StepOk v) by (clear - HH; inversion HH; subst; eauto).
  destruct HC as [->|(k & v1 & HS)].
  - cbn [st new_solver] in *. rewrite E3 in *. apply D2. intros X. apply N. exact X.
  - unfold ode_step in HS. destruct (stat v1); try discriminate.
    destruct (_ || _).
    { inversion HS; subst v. discriminate. }
    destruct (step_impl k m c (st v1)) as [s'|s' msg|e|]; try discriminate.
    2:{ inversion HS; subst v. discriminate. }
    apply StepOk_eq in HS. subst v. cbn [st stat] in *.
    destruct (nleb FA n0 (nmul FA (direction c) (nsub FA (t s') (t_bound c)))) eqn:EF; [discriminate|].
    assert (Hd : is_finite (direction c : b64) = true /\ (B2R (direction c : b64) = 1 \/ B2R (direction c : b64) = -1)) by (apply dir_64; exact D1).
    destruct Hd as [Fd Hd].
    change (Bleb (@n0 FA) (Bmult mode_NE (direction c) (Bminus mode_NE (t s') (t_bound c))) = false) in EF.
    apply zero_test in EF; auto; [|apply minus_notnan; auto; rewrite E1; exact Fb].
    rewrite E1 in EF.
    destruct (sign_minus (t s') tb Ft Fb) as [[FX EX]|[[EX HX]|[EX HX]]].
    + destruct EF as [[EF _]|[[EF _]|[_ EF]]]; [rewrite EF in FX; discriminate|rewrite EF in FX; discriminate|].
      destruct (rnd_sign (t s') tb) as (R1 & R2 & R3). rewrite <- EX in R1, R2, R3.
      destruct Hd as [Hd|Hd]; rewrite Hd in *; [specialize (R2 ltac:(lra)); lra|specialize (R1 ltac:(lra)); lra].
    + rewrite EX in EF. destruct EF as [[_ EF]|[[EF _]|[EF _]]]; try discriminate. rewrite EF. lra.
    + rewrite EX in EF. destruct EF as [[EF _]|[[_ EF]|[EF _]]]; try discriminate. rewrite EF. lra.
Qed.

Lemma neqb_64 (a b : b64) : is_finite a = true -> is_finite b = true -> neqb FA a b = false -> B2R a <> B2R b.
Proof. intros Fa Fb H E. apply (eqb_64 _ _ Fa Fb) in E. change (neqb FA) with (@Beqb 53 1024) in H. congruence. Qed.

Theorem lands_64 m o fun_ t0 tb y0 c n v k v' : min_stages m -> after64 m o fun_ t0 tb y0 c n v ->
  is_finite t0 = true -> is_finite tb = true -> is_finite (t (st v) : b64) = true ->
  is_b64 (B2R tb - B2R (t (st v) : b64)) ->
  Bleb (min_step_64 pw lg c (st v)) (h_abs (st v)) = true -> Bleb (h_abs (st v)) (max_step c) = true ->
  Bleb (Babs (Bminus mode_NE tb (t (st v)))) (h_abs (st v)) = true ->
  ode_step k m c v = StepOk v' -> (forall msg, stat v' <> Failed msg) -> nfs (st v') = nfs (st v) ->
  is_finite (t (st v') : b64) = true /\ B2R (t (st v') : b64) = B2R tb /\ stat v' = Finished.
Proof.
  intros Hmin HA F0 Fb Ft HX H1 H2 H3 HS Hnf Hn.
  pose proof HA as (s & HB & HH). destruct (consts64 _ _ _ _ _ _ _ HB) as (E1 & E2 & E3 & _ & _).
  destruct (ode_step_ok m c k v v' Hmin HS) as [Hr [Hc|[Hc|Hc]]].
  - destruct Hc as (_ & E & _ & Et & _). rewrite Et, E1. auto.
  - destruct Hc as (_ & _ & HD).
    unfold ode_step in HS. rewrite Hr in HS.
    destruct (Nat.eqb (length (y (st v))) 0 || neqb FA (t (st v)) (t_bound c)) eqn:EB.
    { inversion HS; subst v'. cbn [st stat t]. rewrite E1. auto. }
    apply orb_false_iff in EB. destruct EB as [_ EB]. rewrite E1 in EB. apply neqb_64 in EB; auto.
    destruct (running_before _ _ _ _ _ _ _ _ _ HA F0 Fb Ft Hr EB) as [Hu Hbb].
    assert (Q : is_finite (t (st v') : b64) = true /\ B2R (t (st v') : b64) = B2R (t_bound c : b64)).
    { apply (step_lands_64 pw lg m c k (st v) (st v')); auto; rewrite E1; auto. }
    rewrite E1 in Q. destruct Q as [Q1 Q2]. split; [exact Q1|]. split; [exact Q2|].
    rewrite HD in HS. apply StepOk_eq in HS. rewrite <- HS. cbn [stat]. rewrite E1.
    destruct (nleb FA n0 (nmul FA (direction c) (nsub FA (t (st v')) tb))) eqn:EF; [reflexivity|exfalso].
    destruct (dir_64 pw lg c Hu) as [Fd Hd].
    change (Bleb (@n0 FA) (Bmult mode_NE (direction c) (Bminus mode_NE (t (st v')) tb)) = false) in EF.
    apply zero_test in EF; auto; [|apply minus_notnan; auto].
    destruct (minus_exact (t (st v')) tb Q1 Fb) as [FM EM].
    { exists (@n0 FA). destruct (n0_64 pw lg) as [Fz Ez]. split; [exact Fz|]. rewrite Ez, Q2. lra. }
    destruct EF as [[EF _]|[[EF _]|[_ EF]]]; [rewrite EF in FM; discriminate|rewrite EF in FM; discriminate|].
    rewrite EM, Q2 in EF. lra.
  - exfalso. destruct Hc as (msg & E & _). exact (Hnf msg E).
Qed.

Theorem near_64 m o fun_ t0 tb y0 c n v k v' : min_stages m -> after64 m o fun_ t0 tb y0 c n v ->
  is_finite t0 = true -> is_finite tb = true -> is_finite (t (st v) : b64) = true -> is_finite (t (st v') : b64) = true ->
  is_finite (Bminus mode_NE tb (t (st v))) = true ->
  Bleb (min_step_64 pw lg c (st v)) (h_abs (st v)) = true -> Bleb (h_abs (st v)) (max_step c) = true ->
  Bleb (Babs (Bminus mode_NE tb (t (st v)))) (h_abs (st v)) = true ->
  ode_step k m c v = StepOk v' -> (forall msg, stat v' <> Failed msg) -> nfs (st v') = nfs (st v) ->
  Rabs (B2R (t (st v') : b64) - B2R tb) <= u64 * (Rabs (B2R tb) + Rabs (B2R tb - B2R (t (st v) : b64))).
Proof.
  intros Hmin HA F0 Fb Ft Ft' FM H1 H2 H3 HS Hnf Hn.
  pose proof HA as (s & HB & HH). destruct (consts64 _ _ _ _ _ _ _ HB) as (E1 & E2 & E3 & _ & _).
  assert (Z : forall x, x = B2R tb -> Rabs (x - B2R tb) <= u64 * (Rabs (B2R tb) + Rabs (B2R tb - B2R (t (st v) : b64)))).
  { intros x ->. rewrite Rminus_diag_eq, Rabs_R0 by reflexivity. apply Rmult_le_pos.
    - unfold u64. apply Rlt_le, Rinv_0_lt_compat, pow_lt. lra.
    - pose proof (Rabs_pos (B2R tb)). pose proof (Rabs_pos (B2R tb - B2R (t (st v) : b64))). lra. }
  destruct (ode_step_ok m c k v v' Hmin HS) as [Hr [Hc|[Hc|Hc]]].
  - destruct Hc as (_ & E & _ & Et & _). rewrite Et, E1. apply Z. reflexivity.
  - destruct Hc as (_ & _ & HD).
    unfold ode_step in HS. rewrite Hr in HS.
    destruct (Nat.eqb (length (y (st v))) 0 || neqb FA (t (st v)) (t_bound c)) eqn:EB.
    { inversion HS; subst v'. cbn [st stat t]. rewrite E1. apply Z. reflexivity. }
    apply orb_false_iff in EB. destruct EB as [_ EB]. rewrite E1 in EB. apply neqb_64 in EB; auto.
    destruct (running_before _ _ _ _ _ _ _ _ _ HA F0 Fb Ft Hr EB) as [Hu Hbb].
    pose proof (step_nearly_lands_64 pw lg m c k (st v) (st v') Hmin Hu Hbb Ft) as Q. rewrite E1 in Q. apply Q; auto.
  - exfalso. destruct Hc as (msg & E & _). exact (Hnf msg E).
Qed.

(** a successful step whose new time is finite moves strictly towards t_bound *)
Theorem advances_64 m o fun_ t0 tb y0 c n v k v' : min_stages m -> after64 m o fun_ t0 tb y0 c n v ->
  is_finite t0 = true -> is_finite tb = true -> is_finite (t (st v) : b64) = true -> is_finite (t (st v') : b64) = true ->
  Bleb (@n0 FA) (h_abs (st v)) = true -> y (st v) <> [] -> B2R (t (st v) : b64) <> B2R tb ->
  ode_step k m c v = StepOk v' -> (forall msg, stat v' <> Failed msg) ->
  (B2R t0 < B2R tb -> B2R (t (st v) : b64) < B2R (t (st v') : b64)) /\
  (B2R tb < B2R t0 -> B2R (t (st v') : b64) < B2R (t (st v) : b64)).
Proof.
  intros Hmin HA F0 Fb Ft Ft' Hh Hy N HS Hnf.
  pose proof HA as (s & HB & HH). destruct (consts64 _ _ _ _ _ _ _ HB) as (E1 & E2 & E3 & (C & E4) & E5).
  destruct (ode_step_ok m c k v v' Hmin HS) as [Hr [Hc|[Hc|Hc]]].
  - destruct Hc as ([E|E] & _); [destruct (y (st v)); [congruence|discriminate]|].
    exfalso. apply N. apply (eqb_64 _ _ Ft Fb). rewrite E1 in E. exact E.
  - destruct Hc as (_ & _ & HD).
    destruct (running_before _ _ _ _ _ _ _ _ _ HA F0 Fb Ft Hr N) as [Hu Hbb].
    destruct (dir_64 pw lg c Hu) as [Fd Hd].
    destruct (direction_64 t0 tb F0 Fb) as [D1 D2]. rewrite <- E2 in D1, D2.
    unfold step_impl in HD. destruct (reassess_stepsize c (st v)) as [[h0 ms] sc] eqn:ER.
    destruct (rk_loop_done m c k Hmin _ _ _ _ _ HD) as (h & Ks & en & ha & HAcc & Eh & Hlt).
    destruct HAcc. cbn [with_trial t] in ac_t. rewrite ac_t in Ft' |- *. subst h.
    change (nmul FA) with (@Bmult 53 1024 _ _ mode_NE) in *. change (nadd FA) with (@Bplus 53 1024 _ _ mode_NE) in *.
    assert (FH : is_finite (Bmult mode_NE (ha : b64) (direction c)) = true).
    { revert Ft'. clear - Ft. change (num FA) with b64 in *.
      destruct (t (st v)) as [st0|st0| |st0 mt et Ht]; try discriminate;
      destruct (Bmult mode_NE (ha : b64) (direction c)) as [sm|sm| |sm mm em Hm]; try reflexivity; intros X; discriminate. }
    assert (Fha : is_finite (ha : b64) = true).
    { revert FH. clear - Fd. change (num FA) with b64 in *.
      destruct ha as [sa|sa| |sa ma ea Hma]; try reflexivity;
      destruct (direction c) as [sm|sm| |sm mm em Hm]; try discriminate; intros X; discriminate. }
    destruct (times_dir pw lg c ha Hu Fha) as [_ EM].
    assert (Ems : ms = min_step_64 pw lg c (st v)).
    { unfold reassess_stepsize in ER. fold (min_step_64 pw lg c (st v)) in ER.
      repeat match type of ER with context [if ?b then (_, _, _) else _] => destruct b end; inversion ER; reflexivity. }
    assert (UL : ulp radix2 fexp64 (B2R (t (st v) : b64)) <= B2R (ha : b64)).
    { destruct (h_min_a_64 C) as [G1 G2]. rewrite <- E4 in G1, G2. destruct h_min_b_64 as [G3 G4]. rewrite <- E5 in G3, G4.
      apply (min_step_ulp (t (st v)) (h_abs (st v)) ha (h_min_a c) (h_min_b c)); auto.
      rewrite Ems in Hlt. exact Hlt. }
    destruct (plus_moves (t (st v)) (Bmult mode_NE ha (direction c)) Ft FH Ft') as [P1 P2].
    destruct Hd as [Hd|Hd]; rewrite Hd in *; rewrite EM in P1, P2.
    + split; intros L; [apply P1; lra|]. specialize (D2 ltac:(lra)). lra.
    + split; intros L; [|apply P2; lra]. specialize (D2 ltac:(lra)). lra.
  - exfalso. destruct Hc as (msg & E & _). exact (Hnf msg E).
Qed.
End Adv.
