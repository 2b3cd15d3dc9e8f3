(** IEEE 754 binary64 arithmetic (Flocq, round to nearest even, one nan) as an
    instance of [Arith], and facts about the stepping loop of RK.v in it.

    The elementary functions pow and log10 are not specified by IEEE 754: they are
    parameters [pw], [lg] of the instance, and every theorem below holds for all
    choices.  Division is the total IEEE operation (numpy floats), sqrt the
    correctly rounded IEEE one. *)
From Flocq Require Import Core BinarySingleNaN Plus_error Sterbenz Mult_error Relative.
From Coq Require Import String ZArith Reals Lra Psatz QArith Bool Lia List.
From Verif Require Import Arith Common Stiff RK RKGen RKHist HStart RKInit.
Import ListNotations.
Close Scope string_scope. Open Scope nat_scope. Open Scope R_scope.

Definition b64 := binary_float 53 1024.
#[global] Instance prec53 : Prec_gt_0 53 := eq_refl.
#[global] Instance prec53_emax : Prec_lt_emax 53 1024 := eq_refl.

(** a decimal or rational literal, correctly rounded: the quotient is computed to at
    least 64 significant bits plus a sticky bit *)
Definition b64_ofQ (q : Q) : b64 :=
  let n := Z.abs (Qnum q) in let d := Zpos (Qden q) in
  let k := Z.max 0 (66 + Z.log2 d - Z.log2 n) in
  let n1 := (n * 2 ^ k)%Z in
  let m := (2 * (n1 / d) + (if Z.eqb (n1 mod d) 0 then 0 else 1))%Z in
  binary_normalize 53 1024 _ _ mode_NE (if Z.ltb (Qnum q) 0 then - m else m) (- (k + 1)) false.

Definition b64_pow2 (e : Z) : b64 := binary_normalize 53 1024 _ _ mode_NE 1 e false.

Definition F64 (pw : b64 -> b64 -> b64) (lg : b64 -> b64) : Arith := {|
  num := b64; nofQ := b64_ofQ;
  nadd := Bplus mode_NE; nsub := Bminus mode_NE; nmul := Bmult mode_NE; ndiv := Bdiv mode_NE;
  nopp := Bopp; nabs := Babs; nsqrt := Bsqrt mode_NE; npow := pw; nlog10 := lg;
  ncopysign := fun a b => if Bsign b then Bopp (Babs a) else Babs a;
  nltb := Bltb; nleb := Bleb; neqb := Beqb;
  nisnan := is_nan;
  nisinf := fun a => match a with B754_infinity _ => true | _ => false end;
  n_inf := B754_infinity false;
  n_epsneg := b64_pow2 (-53); n_eps := b64_pow2 (-52); n_tiny := b64_pow2 (-1022);
  n_max := binary_normalize 53 1024 _ _ mode_NE (2 ^ 53 - 1) 971 false;
  n_small := binary_normalize 53 1024 _ _ mode_NE (2 ^ 52 + 1) (-105) false
|}.

(** reals that are binary64 numbers, and rounding to nearest even *)
Notation fexp64 := (SpecFloat.fexp 53 1024).
Notation rnd64 := (round radix2 fexp64 ZnearestE).
Definition is_b64 (x : R) : Prop := exists a : b64, is_finite a = true /\ B2R a = x.

Lemma b64_format (a : b64) : generic_format radix2 fexp64 (B2R a).
Proof. apply generic_format_B2R. Qed.

Lemma b64_lt (a : b64) : Rabs (B2R a) < bpow radix2 1024.
Proof. apply abs_B2R_lt_emax. Qed.

Lemma minus_exact (a b : b64) : is_finite a = true -> is_finite b = true -> is_b64 (B2R a - B2R b) ->
  is_finite (Bminus mode_NE a b) = true /\ B2R (Bminus mode_NE a b) = B2R a - B2R b.
Proof.
  intros Ha Hb (d & Hd & Ed).
  pose proof (Bminus_correct 53 1024 _ _ mode_NE a b Ha Hb) as H.
  assert (E : rnd64 (B2R a - B2R b) = B2R a - B2R b) by (apply round_generic; [apply valid_rnd_N|rewrite <- Ed; apply b64_format]).
  cbn [round_mode] in H. rewrite E in H.
  rewrite Rlt_bool_true in H by (rewrite <- Ed; apply b64_lt). destruct H as (H1 & H2 & _). auto.
Qed.

Lemma plus_exact (a b : b64) : is_finite a = true -> is_finite b = true -> is_b64 (B2R a + B2R b) ->
  is_finite (Bplus mode_NE a b) = true /\ B2R (Bplus mode_NE a b) = B2R a + B2R b.
Proof.
  intros Ha Hb (d & Hd & Ed).
  pose proof (Bplus_correct 53 1024 _ _ mode_NE a b Ha Hb) as H.
  assert (E : rnd64 (B2R a + B2R b) = B2R a + B2R b) by (apply round_generic; [apply valid_rnd_N|rewrite <- Ed; apply b64_format]).
  cbn [round_mode] in H. rewrite E in H.
  rewrite Rlt_bool_true in H by (rewrite <- Ed; apply b64_lt). destruct H as (H1 & H2 & _). auto.
Qed.

Lemma mult_exact (a b : b64) : is_finite a = true -> is_finite b = true -> is_b64 (B2R a * B2R b) ->
  is_finite (Bmult mode_NE a b) = true /\ B2R (Bmult mode_NE a b) = B2R a * B2R b.
Proof.
  intros Ha Hb (d & Hd & Ed).
  pose proof (Bmult_correct 53 1024 _ _ mode_NE a b) as H.
  assert (E : rnd64 (B2R a * B2R b) = B2R a * B2R b) by (apply round_generic; [apply valid_rnd_N|rewrite <- Ed; apply b64_format]).
  cbn [round_mode] in H. rewrite E in H.
  rewrite Rlt_bool_true in H by (rewrite <- Ed; apply b64_lt). destruct H as (H1 & H2 & _). rewrite Ha, Hb in H2. auto.
Qed.

(** two numbers of the same sign within a factor two: the difference is exact (Sterbenz) *)
Lemma factor_two (a b : b64) : is_finite a = true -> is_finite b = true -> 0 < B2R a * B2R b ->
  Rabs (B2R a) <= 2 * Rabs (B2R b) -> Rabs (B2R b) <= 2 * Rabs (B2R a) -> is_b64 (B2R a - B2R b).
Proof.
  intros Ha Hb Hs H1 H2.
  assert (HF : generic_format radix2 fexp64 (B2R a - B2R b)).
  { assert (V : Valid_exp fexp64) by (apply FLT_exp_valid; reflexivity).
    assert (M : Monotone_exp fexp64) by apply FLT_exp_monotone.
    destruct (Rlt_or_le 0 (B2R b)) as [P|P].
    - assert (0 < B2R a) by nra. rewrite (Rabs_pos_eq (B2R a)) in * by lra. rewrite (Rabs_pos_eq (B2R b)) in * by lra.
      apply (sterbenz radix2 fexp64); try apply b64_format. lra.
    - assert (B2R a < 0) by nra. rewrite (Rabs_left (B2R a)) in * by lra. rewrite (Rabs_left1 (B2R b)) in * by lra.
      replace (B2R a - B2R b) with (- (- B2R a - - B2R b)) by ring. apply generic_format_opp.
      apply (sterbenz radix2 fexp64); try (apply generic_format_opp; apply b64_format). lra. }
  pose proof (Bminus_correct 53 1024 _ _ mode_NE a b Ha Hb) as H. cbn [round_mode] in H.
  rewrite round_generic in H; [|apply valid_rnd_N|exact HF].
  assert (HL : Rabs (B2R a - B2R b) < bpow radix2 1024).
  { apply Rle_lt_trans with (Rmax (Rabs (B2R a)) (Rabs (B2R b))).
    - apply Rabs_le. unfold Rmax, Rabs. repeat destruct Rcase_abs; destruct Rle_dec; nra.
    - apply Rmax_lub_lt; apply b64_lt. }
  rewrite Rlt_bool_true in H by exact HL. destruct H as (E1 & E2 & _).
  exists (Bminus mode_NE a b). auto.
Qed.

Lemma by_SF (a : b64) x : B2SF a = x -> is_finite a = is_finite_SF x /\ B2R a = SF2R radix2 x.
Proof. intros <-. split; [symmetry; apply is_finite_SF_B2SF|symmetry; apply SF2R_B2SF]. Qed.

Ltac by_sf := match goal with |- is_finite ?a = true /\ B2R ?a = ?r =>
  let x := eval vm_compute in (B2SF a) in
  let H := fresh in
  assert (H : B2SF a = x) by (vm_compute; reflexivity);
  apply by_SF in H; destruct H as [H1 H2]; split; [exact H1|rewrite H2; clear H1 H2];
  cbn [SF2R SpecFloat.cond_Zopp cond_Zopp]; unfold F2R; cbn [Fnum Fexp cond_Zopp Z.opp]; cbn [bpow]; repeat match goal with |- context [Z.pow_pos ?a ?b] => let x := eval vm_compute in (Z.pow_pos a b) in change (Z.pow_pos a b) with x end; try lra end.

Section Land.
Context (pw : b64 -> b64 -> b64) (lg : b64 -> b64).
Notation FA := (F64 pw lg).
Implicit Types (m : Meth FA) (c : Cfg FA) (v : Solver FA) (s : St FA).

Lemma n1_64 : is_finite (@n1 FA : b64) = true /\ B2R (@n1 FA : b64) = 1.
Proof. by_sf. Qed.
Lemma n2_64 : is_finite (@n2 FA : b64) = true /\ B2R (@n2 FA : b64) = 2.
Proof. by_sf. Qed.
Lemma n0_64 : is_finite (@n0 FA : b64) = true /\ B2R (@n0 FA : b64) = 0.
Proof. by_sf. Qed.
Lemma nm1_64 : is_finite (@lit FA (-1) : b64) = true /\ B2R (@lit FA (-1) : b64) = -1.
Proof. by_sf. Qed.

(** comparisons of finite numbers *)
Lemma ltb_64 (a b : b64) : is_finite a = true -> is_finite b = true -> (Bltb a b = true <-> B2R a < B2R b).
Proof. intros Ha Hb. rewrite (Bltb_correct _ _ a b Ha Hb). destruct (Rlt_bool_spec (B2R a) (B2R b)); split; auto; try discriminate; lra. Qed.
Lemma leb_64 (a b : b64) : is_finite a = true -> is_finite b = true -> (Bleb a b = true <-> B2R a <= B2R b).
Proof. intros Ha Hb. rewrite (Bleb_correct _ _ a b Ha Hb). destruct (Rle_bool_spec (B2R a) (B2R b)); split; auto; try discriminate; lra. Qed.
Lemma eqb_64 (a b : b64) : is_finite a = true -> is_finite b = true -> (Beqb a b = true <-> B2R a = B2R b).
Proof. intros Ha Hb. rewrite (Beqb_correct _ _ a b Ha Hb). destruct (Req_bool_spec (B2R a) (B2R b)); split; auto; try discriminate; lra. Qed.
Lemma ltb_leb_neg (a b : b64) : Bleb a b = true -> Bltb b a = false.
Proof.
  unfold Bleb, Bltb, SpecFloat.SFleb, SpecFloat.SFltb.
  intros H. assert (X : SpecFloat.SFcompare (B2SF b) (B2SF a) = match SpecFloat.SFcompare (B2SF a) (B2SF b) with Some c => Some (CompOpp c) | None => None end).
  { apply (Bcompare_swap 53 1024 a b). }
  rewrite X. destruct (SpecFloat.SFcompare (B2SF a) (B2SF b)) as [[]|]; auto; discriminate.
Qed.

Lemma ltb_inf (d : b64) : is_finite d = true -> Bltb d (B754_infinity false) = true.
Proof. destruct d as [sd|sd| |sd m e H]; cbn; try discriminate; reflexivity. Qed.
Lemma leb_ninf (d : b64) : is_finite d = true -> Bleb d (B754_infinity true) = false.
Proof. destruct d as [sd|sd| |sd m e H]; cbn; try discriminate; reflexivity. Qed.

(** 0 < d <= h gives d < 2h in floats, even when 2h overflows or h is inf *)
Lemma double_64 (d h : b64) : is_finite d = true -> 0 < B2R d -> Bleb d h = true ->
  Bltb d (Bmult mode_NE (@n2 FA) h) = true.
Proof.
  intros Hd Hp Hle. destruct n2_64 as [F2 E2].
  destruct h as [sh|sh| |sh mh eh Hh].
  - exfalso. apply leb_64 in Hle; auto. cbn [B2R] in Hle. lra.
  - destruct sh.
    + rewrite leb_ninf in Hle by auto. discriminate.
    + assert (EE : Bmult mode_NE (@n2 FA) (B754_infinity false : b64) = B754_infinity false).
      { vm_compute. reflexivity. }
      rewrite EE. apply ltb_inf, Hd.
  - destruct d; discriminate.
  - set (h := B754_finite sh mh eh Hh) in *. assert (Fh : is_finite h = true) by reflexivity.
    pose proof Hle as Hle'. apply leb_64 in Hle'; auto.
    pose proof (Bmult_correct 53 1024 _ _ mode_NE (@n2 FA : b64) h) as H. cbn [round_mode] in H. rewrite E2 in H.
    rewrite round_generic in H; [|apply valid_rnd_N|].
    2:{ replace (2 * B2R h) with (B2R h * bpow radix2 1) by (cbn; lra).
        apply (mult_bpow_pos_exact_FLT radix2 (-1074) 53); [|lia]. apply b64_format. }
    destruct (Rlt_bool_spec (Rabs (2 * B2R h)) (bpow radix2 1024)).
    + destruct H as (H1 & H2 & _). rewrite F2, Fh in H2. apply ltb_64; auto. rewrite H1. lra.
    + cbn [binary_overflow overflow_to_inf] in H.
      assert (Sh : xorb (Bsign (@n2 FA : b64)) (Bsign h) = false).
      { assert (B2R h > 0) by lra. subst h. destruct sh; [|reflexivity]. exfalso.
        assert (B2R (B754_finite true mh eh Hh : b64) < 0); [|lra]. cbn [B2R]. apply F2R_lt_0. cbn. lia. }
      rewrite Sh in H.
      destruct (Bmult mode_NE (@n2 FA) h) as [|s0| |]; cbn in H; try discriminate. injection H as ->.
      apply ltb_inf, Hd.
Qed.

(** ** one step *)
Lemma loop_nfs m c fuel : min_stages m -> forall s ha ms rej s',
  rk_loop fuel m c s ha ms rej = Done s' -> (nfs s <= nfs s')%nat.
Proof.
  intros Hmin. induction fuel as [|fuel IH]; intros s ha ms rej s' H; simpl in H; [discriminate|].
  pose proof (trial_inv m c s ha ms rej Hmin) as HT.
  destruct (trial_step m c s ha ms rej) as [s1 h h1 tn yn en|s1 h1|s1 msg|e]; try discriminate.
  - destruct HT as (H0 & HC & Hh & Ht & Hlt & Hn & _ & (Ks & HF & Hy & HK & He & _) & _). subst tn.
    destruct (finish_done m c s s1 h h1 _ yn en s' Ks HC HF eq_refl Hy HK He Hlt H) as (_ & _ & _ & _ & En & _). lia.
  - destruct HT as (_ & _ & _ & _ & Hn & _). apply IH in H. lia.
Qed.

(** the first trial is accepted exactly when no rejection is counted *)
Lemma first_trial m c k s s' : min_stages m -> step_impl k m c s = Done s' -> nfs s' = nfs s ->
  t s' = nadd FA (t s) (nmul FA (fst (fst (reassess_stepsize c s))) (direction c)).
Proof.
  intros Hmin H Hn. unfold step_impl in H. destruct (reassess_stepsize c s) as [[h0 ms] sc]. cbn [fst].
  destruct k as [|k]; [discriminate|]. cbn [rk_loop] in H.
  set (s0 := with_trial s sc (max_factor s) (jflstp s) (nfs s) (K s) (calls s)) in *.
  pose proof (trial_inv m c s0 h0 ms false Hmin) as HT.
  destruct (trial_step m c s0 h0 ms false) as [s1 h h1 tn yn en|s1 h1|s1 msg|e]; try discriminate.
  - destruct HT as (H0 & HC & Hh & Ht & Hlt & _ & _ & (Ks & HF & Hy & HK & He & _) & _). subst tn.
    destruct (finish_done m c s0 s1 h h1 _ yn en s' Ks HC HF eq_refl Hy HK He Hlt H) as (HA & _).
    destruct HA. rewrite ac_t. subst h. reflexivity.
  - destruct HT as (_ & _ & _ & _ & Hn1 & _). apply loop_nfs in H; auto.
    assert (nfs s0 = nfs s) by reflexivity. lia.
Qed.

(** common.py 313: the minimum step computed from the current state *)
Definition min_step_64 c s : b64 := @pymax FA (nmul FA (h_min_a c) (nadd FA (nabs FA (t s)) (h_abs s))) (h_min_b c).

Lemma reassess_last c s : Bleb (min_step_64 c s) (h_abs s) = true -> Bleb (h_abs s) (max_step c) = true ->
  let d := Babs (Bminus mode_NE (t_bound c : b64) (t s)) in
  is_finite d = true -> 0 < B2R d -> Bleb d (h_abs s) = true ->
  fst (fst (reassess_stepsize c s)) = d.
Proof.
  intros H1 H2 d Hd Hp Hle. unfold reassess_stepsize.
  change (@pymax FA (nmul FA (h_min_a c) (nadd FA (nabs FA (t s)) (h_abs s))) (h_min_b c)) with (min_step_64 c s).
  change (nltb FA) with (@Bltb 53 1024). rewrite (ltb_leb_neg _ _ H1), (ltb_leb_neg _ _ H2). cbn [orb].
  change (nabs FA (nsub FA (t_bound c) (t s))) with d.
  change (nmul FA) with (@Bmult 53 1024 _ _ mode_NE). rewrite (double_64 d (h_abs s) Hd Hp Hle).
  rewrite (ltb_leb_neg _ _ Hle). reflexivity.
Qed.

(** the direction is +-1 *)
Definition unit_dir c : Prop := direction c = @n1 FA \/ direction c = @lit FA (-1).
(** the current time is on the near side of t_bound *)
Definition before_bound c s : Prop := 0 < B2R (direction c : b64) * (B2R (t_bound c : b64) - B2R (t s : b64)).

Lemma dir_64 c : unit_dir c -> is_finite (direction c : b64) = true /\ (B2R (direction c : b64) = 1 \/ B2R (direction c : b64) = -1).
Proof. intros [E|E]; rewrite E; [destruct n1_64|destruct nm1_64]; auto. Qed.

Lemma times_dir c (d : b64) : unit_dir c -> is_finite d = true ->
  is_finite (Bmult mode_NE d (direction c)) = true /\ B2R (Bmult mode_NE d (direction c)) = B2R d * B2R (direction c : b64).
Proof.
  intros Hu Hd. destruct (dir_64 c Hu) as [Fd Ed]. apply mult_exact; auto.
  destruct Ed as [-> | ->].
  - exists d. split; auto. lra.
  - exists (Bopp d). rewrite is_finite_Bopp, B2R_Bopp. split; auto. lra.
Qed.

Theorem step_lands_64 m c k s s' : min_stages m -> unit_dir c -> before_bound c s ->
  is_finite (t s : b64) = true -> is_finite (t_bound c : b64) = true ->
  is_b64 (B2R (t_bound c : b64) - B2R (t s : b64)) ->
  Bleb (min_step_64 c s) (h_abs s) = true -> Bleb (h_abs s) (max_step c) = true ->
  Bleb (Babs (Bminus mode_NE (t_bound c : b64) (t s))) (h_abs s) = true ->
  step_impl k m c s = Done s' -> nfs s' = nfs s ->
  is_finite (t s' : b64) = true /\ B2R (t s' : b64) = B2R (t_bound c : b64).
Proof.
  intros Hmin Hu Hb Ft Ftb Hx H1 H2 H3 HD Hn.
  destruct (minus_exact (t_bound c) (t s) Ftb Ft Hx) as [Fm Em].
  set (d := Babs (Bminus mode_NE (t_bound c : b64) (t s))) in *.
  assert (Fd : is_finite d = true) by (subst d; rewrite is_finite_Babs; exact Fm).
  assert (Ed : B2R d = Rabs (B2R (t_bound c : b64) - B2R (t s : b64))) by (subst d; rewrite B2R_Babs, Em; reflexivity).
  destruct (dir_64 c Hu) as [Fdir Edir]. unfold before_bound in Hb.
  assert (Hp : 0 < B2R d). { rewrite Ed. apply Rabs_pos_lt. intros E0. rewrite E0 in Hb. lra. }
  pose proof (first_trial m c k s s' Hmin HD Hn) as Ht.
  rewrite (reassess_last c s H1 H2 Fd Hp H3) in Ht. fold d in Ht. rewrite Ht.
  destruct (times_dir c d Hu Fd) as [Fh Eh].
  change (nmul FA) with (@Bmult 53 1024 _ _ mode_NE). change (nadd FA) with (@Bplus 53 1024 _ _ mode_NE).
  assert (EE : B2R (t s : b64) + B2R (Bmult mode_NE d (direction c)) = B2R (t_bound c : b64)).
  { rewrite Eh, Ed. destruct Edir as [E|E]; rewrite E in *.
    - rewrite Rabs_pos_eq by lra. lra.
    - rewrite Rabs_left by lra. lra. }
  assert (XX : is_b64 (B2R (t s : b64) + B2R (Bmult mode_NE d (direction c)))) by (exists (t_bound c); split; [exact Ftb|symmetry; exact EE]).
  destruct (plus_exact (t s) (Bmult mode_NE d (direction c)) Ft Fh XX) as [F' E']. split; [exact F'|].
  rewrite E'. exact EE.
Qed.

(** ** rounding error of the last step *)
Definition u64 : R := / 2 ^ 53.

Lemma u_ro_u64 : u_ro radix2 53 = u64.
Proof. unfold u_ro, u64. cbn [bpow]. cbn. lra. Qed.

Lemma plus_err (x y : R) : generic_format radix2 fexp64 x -> generic_format radix2 fexp64 y ->
  exists e, Rabs e <= u64 / (1 + u64) /\ rnd64 (x + y) = (x + y) * (1 + e).
Proof.
  intros Hx Hy. destruct (FLT_plus_error_N_ex radix2 (-1074) 53 (fun x => negb (Z.even x)) x y Hx Hy) as (e & H1 & H2).
  rewrite u_ro_u64 in H1. exists e. auto.
Qed.

Lemma Bminus_fin (a b : b64) : is_finite a = true -> is_finite b = true -> is_finite (Bminus mode_NE a b) = true ->
  B2R (Bminus mode_NE a b) = rnd64 (B2R a - B2R b).
Proof.
  intros Ha Hb Hf. pose proof (Bminus_correct 53 1024 _ _ mode_NE a b Ha Hb) as H. cbn [round_mode] in H.
  destruct (Rlt_bool _ _); [tauto|]. destruct H as [H _]. apply by_SF in H. destruct H as [H _]. rewrite Hf in H.
  cbn in H. discriminate.
Qed.
Lemma Bplus_fin (a b : b64) : is_finite a = true -> is_finite b = true -> is_finite (Bplus mode_NE a b) = true ->
  B2R (Bplus mode_NE a b) = rnd64 (B2R a + B2R b).
Proof.
  intros Ha Hb Hf. pose proof (Bplus_correct 53 1024 _ _ mode_NE a b Ha Hb) as H. cbn [round_mode] in H.
  destruct (Rlt_bool _ _); [tauto|]. destruct H as [H _]. apply by_SF in H. destruct H as [H _]. rewrite Hf in H.
  cbn in H. discriminate.
Qed.

Lemma rnd_minus_sign (a b : b64) : (0 < B2R a - B2R b -> 0 < rnd64 (B2R a - B2R b)) /\
  (B2R a - B2R b < 0 -> rnd64 (B2R a - B2R b) < 0).
Proof.
  assert (V : Valid_exp fexp64) by (apply FLT_exp_valid; reflexivity).
  assert (NF : Exp_not_FTZ fexp64) by (apply monotone_exp_not_FTZ; [exact V|apply FLT_exp_monotone]).
  assert (N : B2R a - B2R b <> 0 -> rnd64 (B2R a - B2R b) <> 0).
  { intros H. unfold Rminus. apply round_plus_neq_0; auto; try apply valid_rnd_N; try apply b64_format.
    apply generic_format_opp, b64_format. }
  split; intros H.
  - assert (0 <= rnd64 (B2R a - B2R b)) by (apply round_ge_generic; first [exact V|apply valid_rnd_N|apply generic_format_0|lra]).
    specialize (N ltac:(lra)). lra.
  - assert (rnd64 (B2R a - B2R b) <= 0) by (apply round_le_generic; first [exact V|apply valid_rnd_N|apply generic_format_0|lra]).
    specialize (N ltac:(lra)). lra.
Qed.

(** when the remaining interval is selected as step size and the first trial is accepted,
    the new time misses t_bound by at most 2^-53 (|t_bound| + |t_bound - t|) *)
Theorem step_nearly_lands_64 m c k s s' : min_stages m -> unit_dir c -> before_bound c s ->
  is_finite (t s : b64) = true -> is_finite (t_bound c : b64) = true ->
  is_finite (Bminus mode_NE (t_bound c : b64) (t s)) = true -> is_finite (t s' : b64) = true ->
  Bleb (min_step_64 c s) (h_abs s) = true -> Bleb (h_abs s) (max_step c) = true ->
  Bleb (Babs (Bminus mode_NE (t_bound c : b64) (t s))) (h_abs s) = true ->
  step_impl k m c s = Done s' -> nfs s' = nfs s ->
  Rabs (B2R (t s' : b64) - B2R (t_bound c : b64)) <=
    u64 * (Rabs (B2R (t_bound c : b64)) + Rabs (B2R (t_bound c : b64) - B2R (t s : b64))).
Proof.
  intros Hmin Hu Hb Ft Ftb Fm F' H1 H2 H3 HD Hn.
  pose proof (Bminus_fin (t_bound c) (t s) Ftb Ft Fm) as Em.
  set (d := Babs (Bminus mode_NE (t_bound c : b64) (t s))) in *.
  assert (Fd : is_finite d = true) by (subst d; rewrite is_finite_Babs; exact Fm).
  assert (Ed : B2R d = Rabs (rnd64 (B2R (t_bound c : b64) - B2R (t s : b64)))) by (subst d; rewrite B2R_Babs, Em; reflexivity).
  destruct (dir_64 c Hu) as [Fdir Edir]. unfold before_bound in Hb.
  destruct (rnd_minus_sign (t_bound c) (t s)) as [S1 S2].
  assert (Hp : 0 < B2R d). { rewrite Ed. apply Rabs_pos_lt. destruct Edir as [E|E]; rewrite E in Hb;
      [specialize (S1 ltac:(lra)); lra|specialize (S2 ltac:(lra)); lra]. }
  pose proof (first_trial m c k s s' Hmin HD Hn) as Ht.
  rewrite (reassess_last c s H1 H2 Fd Hp H3) in Ht. fold d in Ht.
  destruct (times_dir c d Hu Fd) as [Fh Eh].
  change (nmul FA) with (@Bmult 53 1024 _ _ mode_NE) in Ht. change (nadd FA) with (@Bplus 53 1024 _ _ mode_NE) in Ht.
  assert (E1 : B2R (Bmult mode_NE d (direction c)) = rnd64 (B2R (t_bound c : b64) - B2R (t s : b64))).
  { rewrite Eh, Ed. destruct Edir as [E|E]; rewrite E in *.
    - specialize (S1 ltac:(lra)). rewrite Rabs_pos_eq by lra. lra.
    - specialize (S2 ltac:(lra)). rewrite Rabs_left by lra. lra. }
  rewrite Ht in F' |- *. rewrite (Bplus_fin _ _ Ft Fh F').
  destruct (plus_err (B2R (t s : b64)) (B2R (Bmult mode_NE d (direction c)))) as (e2 & He2 & E2); try apply b64_format.
  rewrite E2, E1.
  destruct (plus_err (B2R (t_bound c : b64)) (- B2R (t s : b64))) as (e1 & He1 & E3); [apply b64_format|apply generic_format_opp, b64_format|].
  change (B2R (t_bound c : b64) - B2R (t s : b64)) with (B2R (t_bound c : b64) + - B2R (t s : b64)) at 1. rewrite E3.
  set (T := B2R (t_bound c : b64)) in *. set (x := B2R (t s : b64)) in *.
  replace ((x + (T + - x) * (1 + e1)) * (1 + e2) - T) with (T * e2 + (T - x) * (e1 * (1 + e2))) by ring.
  assert (U : 0 < u64) by (unfold u64; apply Rinv_0_lt_compat; apply pow_lt; lra).
  assert (B1 : u64 / (1 + u64) <= u64).
  { (unfold Rdiv; apply Rmult_le_reg_r with (1 + u64); [lra|]; rewrite Rmult_assoc, Rinv_l by lra; nra). }
  assert (B2 : u64 / (1 + u64) * (1 + u64) = u64) by (field; lra).
  assert (B3 : Rabs (e1 * (1 + e2)) <= u64).
  { rewrite Rabs_mult. rewrite <- B2. apply Rmult_le_compat; try apply Rabs_pos; [exact He1|].
    eapply Rle_trans; [apply Rabs_triang|]. rewrite Rabs_R1. lra. }
  eapply Rle_trans; [apply Rabs_triang|]. rewrite !Rabs_mult.
  pose proof (Rabs_pos T). pose proof (Rabs_pos (T - x)). rewrite <- Rabs_mult. 
  assert (Rabs T * Rabs e2 <= Rabs T * u64) by (apply Rmult_le_compat_l; lra).
  assert (Rabs (T - x) * Rabs (e1 * (1 + e2)) <= Rabs (T - x) * u64) by (apply Rmult_le_compat_l; lra).
  rewrite !Rabs_mult in *. lra.
Qed.

End Land.
