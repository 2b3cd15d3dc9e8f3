(** The explicit RK stepping model over the extended reals: monotonicity,
    landing, termination, step size bounds. *)
From Coq Require Import String ZArith Reals Lra Psatz QArith Qreals Bool Lia List.
From Verif Require Import Arith Common Stiff RK RKGen RX.
Import ListNotations.
Open Scope R_scope.

Implicit Types (m : Meth RX) (c : Cfg RX) (s : St RX).

(** the constants of a configuration as real numbers *)
Record rconst := {
  tb : R; dir : R; ha : R; hb : R; te : R; g : R; gs : R;
  b1 : R; b2 : R; al : R; ee : R; mf : R
}.

Definition cfg_is c (r : rconst) : Prop :=
  t_bound c = Fin (tb r) /\ direction c = Fin (dir r) /\ h_min_a c = Fin (ha r) /\
  h_min_b c = Fin (hb r) /\ tiny_err c = Fin (te r) /\ safety c = Fin (g r) /\
  safety_sc c = Fin (gs r) /\ minbeta1 c = Fin (b1 r) /\ minbeta2 c = Fin (b2 r) /\
  minalpha c = Fin (al r) /\ error_exponent c = Fin (ee r) /\ min_factor c = Fin (mf r).

(** conditions established by __init__ for the built-in controllers *)
Definition rc_ok (r : rconst) : Prop :=
  (dir r = 1 \/ dir r = -1) /\ 0 < ha r /\ 0 < hb r /\ 0 < te r < 1 /\
  0 < g r < 1 /\ 0 < gs r /\ ee r < 0 /\ 0 < mf r < 1.

Definition max_ok c : Prop :=
  max_step c = PInf \/ exists M, max_step c = Fin M /\ 0 < M.

Definition good_cfg c (r : rconst) : Prop := cfg_is c r /\ rc_ok r /\ max_ok c.

(** state invariant *)
Definition good_st (r : rconst) s : Prop :=
  (exists tt, t s = Fin tt /\ 0 <= dir r * (tb r - tt)) /\
  (exists h, h_abs s = Fin h /\ 0 < h) /\
  (max_factor s = Fin 10 \/ max_factor s = Fin 4) /\
  (standard_sc s = false ->
   (exists hp, h_previous s = Some (Fin hp) /\ 0 < dir r * hp) /\
   (exists eo, error_norm_old s = Some (Fin eo) /\ te r <= eo < 1)).

(** what the loop needs (t may be anywhere) *)
Definition loop_st (r : rconst) s : Prop :=
  (exists tt, t s = Fin tt) /\
  (max_factor s = Fin 10 \/ max_factor s = Fin 4) /\
  (standard_sc s = false ->
   (exists hp, h_previous s = Some (Fin hp) /\ 0 < dir r * hp) /\
   (exists eo, error_norm_old s = Some (Fin eo) /\ te r <= eo < 1)).

Lemma xpow_fin x e : 0 < x -> exists p, xpow (Fin x) (Fin e) = Fin p /\ 0 < p.
Proof.
  intros Hx. simpl. destruct (Req_EM_T e 0); [exists 1; split; auto; lra|].
  destruct (Rlt_dec 0 x); [|contradiction].
  eexists; split; [reflexivity|]. apply Rpower_pos.
Qed.

Ltac litR := unfold lit; cbn [nofQ RX]; apply f_equal; unfold Q2R; cbn [Qnum Qden]; lra.

Lemma n1_RX : @n1 RX = Fin 1.
Proof. unfold n1. litR. Qed.
Lemma n0_RX : @n0 RX = Fin 0.
Proof. unfold n0. litR. Qed.
Lemma n2_RX : @n2 RX = Fin 2.
Proof. unfold n2. litR. Qed.
Lemma MAXF_RX : @MAX_FACTOR RX = Fin 4.
Proof. unfold MAX_FACTOR. litR. Qed.
Lemma MAXF0_RX : @MAX_FACTOR0 RX = Fin 10.
Proof. unfold MAX_FACTOR0. litR. Qed.
Lemma half_RX : @lit RX (1#2) = Fin (1/2).
Proof. litR. Qed.

(** *** rejection shrinks *)

Definition shrink (r : rconst) : R := Rmax (mf r) (g r).

Lemma shrink_lt1 r : rc_ok r -> 0 < shrink r < 1.
Proof.
  intros (_&_&_&_&Hg&_&_&Hm). unfold shrink.
  apply Rmax_case; lra.
Qed.

Lemma reject_factor_bounds c r en :
  cfg_is c r -> rc_ok r -> xltb en (Fin 1) = false -> xisnan en = false ->
  exists q, reject_factor c en = Fin q /\ mf r <= q <= shrink r.
Proof.
  intros HC HR Hlt Hnan.
  destruct HC as (_&_&_&_&_&Hg&_&_&_&_&He&Hm).
  destruct HR as (_&_&_&_&Hg1&_&Hee&Hmf).
  unfold reject_factor. rewrite Hg, He, Hm.
  assert (forall q, 0 <= q <= g r ->
    exists q', @pymax RX (Fin (mf r)) (Fin q) = Fin q' /\ mf r <= q' <= shrink r) as HH.
  { intros q Hq. rewrite pymax_fin. eexists; split; [reflexivity|].
    unfold shrink. split; [apply Rmax_l|]. apply Rle_max_compat_l. lra. }
  destruct en as [x| | |]; simpl in Hlt, Hnan; try discriminate.
  - apply Rltb_false in Hlt. cbn [npow RX].
    change (nmul RX) with xmul. unfold xpow.
    destruct (Req_EM_T (ee r) 0); [lra|].
    destruct (Rlt_dec 0 x); [|lra]. cbn [xmul]. apply HH.
    pose proof (Rpower_pos x (ee r)). pose proof (Rpower_ge1_neg x (ee r) Hlt).
    split; [nra|]. rewrite <- (Rmult_1_r (g r)) at 2.
    apply Rmult_le_compat_l; [lra|]. apply H0. lra.
  - cbn [npow RX]. change (nmul RX) with xmul. unfold xpow.
    destruct (Req_EM_T (ee r) 0); [lra|].
    destruct (Rlt_dec 0 (ee r)); [lra|]. cbn [xmul]. apply HH. lra.
Qed.

(** *** the accepted factor is a positive real *)

Lemma accept_factor_ok c r s h en fac sc :
  cfg_is c r -> rc_ok r -> loop_st r s -> 0 < dir r * h ->
  xltb en (Fin 1) = true ->
  accept_factor c s (standard_sc s) (Fin h) en = Factor fac sc ->
  exists q, fac = Fin q /\ 0 < q /\
   (sc = false -> exists eo, en = Fin eo /\ te r <= eo < 1) /\
   (standard_sc s = false -> xltb en (tiny_err c) = false -> mf r <= q <= 10) /\
   (xltb en (tiny_err c) = true -> q <= 10).
Proof.
  intros HC HR HS Hh Hlt Hf.
  destruct HC as (_&_&_&_&Hte&Hg&Hgs&Hb1&Hb2&Hal&He&Hm).
  destruct HR as (Hd&_&_&Hte1&Hg1&Hgs1&Hee&Hmf).
  destruct HS as (_ & Hmax & Hsc).
  unfold accept_factor in Hf. rewrite Hte in *.
  cbn [nltb RX] in Hf.
  destruct (xltb en (Fin (te r))) eqn:Htiny.
  { inversion Hf; subst. destruct Hmax as [-> | ->];
      eexists; (split; [reflexivity|]); repeat split; try lra; try discriminate. }
  assert (exists eo, en = Fin eo /\ te r <= eo < 1) as (eo & -> & Heo).
  { destruct en as [x| | |]; simpl in *; try discriminate.
    apply Rltb_true in Hlt. apply Rltb_false in Htiny. exists x. auto. }
  destruct (standard_sc s) eqn:Hs.
  { inversion Hf; subst. rewrite Hg, He.
    cbn [npow RX]. destruct (xpow_fin eo (ee r)) as (p & -> & Hp); [lra|].
    change (nmul RX) with xmul. cbn [xmul].
    eexists; split; [reflexivity|]. split; [nra|]. split; [eauto|].
    split; discriminate. }
  destruct (Hsc eq_refl) as ((hp & Hhp & Hhp0) & (eo' & Heo' & Heo1)).
  rewrite Hhp, Heo' in Hf. inversion Hf; subst; clear Hf.
  rewrite Hgs, Hb1, Hb2, Hal, Hm. cbn [npow ndiv RX].
  assert (Hratio : exists q, xdiv (Fin h) (Fin hp) = Fin q /\ 0 < q).
  { simpl. destruct (Req_EM_T hp 0) as [E|E]; [subst; lra|].
    eexists; split; [reflexivity|].
    destruct Hd as [Hd|Hd]; rewrite Hd in *.
    - apply Rdiv_lt_0_compat; lra.
    - replace (h / hp) with ((- h) / (- hp)) by (field; lra).
      apply Rdiv_lt_0_compat; lra. }
  destruct Hratio as (q & Hq' & Hq). simpl in Hq'. rewrite Hq'.
  destruct (xpow_fin eo (b1 r)) as (p1 & -> & Hp1); [lra|].
  destruct (xpow_fin eo' (b2 r)) as (p2 & -> & Hp2); [lra|].
  destruct (xpow_fin q (al r)) as (p3 & -> & Hp3); [lra|].
  change (nmul RX) with xmul. cbn [xmul].
  rewrite pymax_fin.
  set (z := gs r * (p1 * p2 * p3)).
  destruct Hmax as [-> | ->]; rewrite pymin_fin; eexists; (split; [reflexivity|]);
   (assert (mf r <= Rmax (mf r) z) by apply Rmax_l);
   (split; [apply Rmin_case; lra|]); (split; [eauto|]); split; try discriminate;
   try discriminate; intros _ _;
   (split; [apply Rmin_case; lra | eapply Rle_trans; [apply Rmin_l|lra]]).
Qed.

(** *** the loop *)

Lemma loop_st_with r s sc mf' jf nf K' cl :
  loop_st r s -> (sc = standard_sc s \/ sc = true) -> mf' = max_factor s ->
  loop_st r (with_trial s sc mf' jf nf K' cl).
Proof.
  intros (H1 & H2 & H3) [-> | ->] ->; (split; [exact H1|]); split; try exact H2; try exact H3.
  simpl. discriminate.
Qed.

Lemma reject_loop_st r s s' :
  same_core s s' -> standard_sc s' = standard_sc s -> max_factor s' = max_factor s ->
  loop_st r s -> loop_st r s'.
Proof.
  intros HC Hs Hm (H1 & H2 & H3).
  destruct HC as (C1&_&_&_&C5&_&_&C8&_).
  unfold loop_st. rewrite C1, Hm, Hs, C5, C8. auto.
Qed.

Lemma loop_terminates m c r : min_stages m -> cfg_is c r -> rc_ok r ->
  forall k s h ms rej, loop_st r s -> 0 < h ->
    h * shrink r ^ k < ms ->
    rk_loop (S k) m c s (Fin h) (Fin ms) rej <> OutOfFuel.
Proof.
  intros Hmin HC HR. pose proof (shrink_lt1 r HR) as Hq.
  induction k as [|k IH]; intros s h ms rej HS Hh Hb.
  - simpl in Hb. cbn [rk_loop].
    unfold trial_step. cbn [nltb RX xltb].
    assert (Rltb h ms = true) as -> by (apply Rltb_true; lra). discriminate.
  - cbn [rk_loop].
    pose proof (trial_inv m c s (Fin h) (Fin ms) rej Hmin) as HT.
    destruct (trial_step m c s (Fin h) (Fin ms) rej) as [s1 hh h1 tn yn en|s1 h1|s1 m1|e];
      try discriminate.
    + unfold finish.
      match goal with |- context [if m_fsal m then ?a else ?b] =>
        destruct (if m_fsal m then a else b) end.
      match goal with |- context [diagnose ?a ?b ?x ?d ?z] =>
        destruct (diagnose a b x d z); discriminate end.
    + destruct HT as (H0 & HCo & Hsc & Hmx & _ & (en & Hh1 & Hen)).
      assert (xltb en (Fin 1) = false /\ xisnan en = false) as [Hlt Hnan].
      { destruct Hen as [(_ & Hgt & _)|(Hlt & Hnan & _)].
        - rewrite n1_RX in Hgt. cbn [nltb RX] in Hgt.
          destruct en; simpl in *; try discriminate; auto.
          split; auto. apply Rltb_true in Hgt. apply Rltb_false. lra.
        - rewrite n1_RX in Hlt. auto. }
      destruct (reject_factor_bounds c r en HC HR Hlt Hnan) as (q & Hq1 & Hq2).
      rewrite Hq1 in Hh1. change (nmul RX) with xmul in Hh1. cbn [xmul] in Hh1. subst h1.
      apply (IH s1 (h * q) ms true).
      * eapply reject_loop_st; eauto.
      * destruct HR as (_&_&_&_&_&_&_&Hmf). apply Rmult_lt_0_compat; lra.
      * simpl in Hb. eapply Rle_lt_trans; [|exact Hb].
        rewrite Rmult_assoc. apply Rmult_le_compat_l; [lra|].
        apply Rmult_le_compat_r; [|lra].
        apply pow_le. lra.
Qed.

(** more fuel does not change a result *)
Lemma rk_loop_fuel m c : forall k s h ms rej, rk_loop k m c s h ms rej <> OutOfFuel ->
  forall k', (k <= k')%nat -> rk_loop k' m c s h ms rej = rk_loop k m c s h ms rej.
Proof.
  induction k as [|k IH]; intros s h ms rej H k' Hk.
  - simpl in H. congruence.
  - destruct k' as [|k']; [lia|]. cbn [rk_loop] in *.
    destruct (trial_step m c s h ms rej); auto.
    apply IH; auto. lia.
Qed.

(** bounds on the accepted step, and the new controller state *)
Lemma loop_done m c r : min_stages m -> cfg_is c r -> rc_ok r ->
  forall k s h ms rej s', loop_st r s -> 0 < h -> 0 < ms ->
    rk_loop k m c s (Fin h) (Fin ms) rej = Done s' ->
    exists j hk tt,
      (0 < hk) /\ h * mf r ^ j <= hk <= h * shrink r ^ j /\ (nfs s' = nfs s + j)%nat /\
      ms <= hk /\ h_previous s' = Some (Fin (dir r * hk)) /\
      t s = Fin tt /\ t s' = Fin (tt + dir r * hk) /\
      (exists h', h_abs s' = Fin h' /\ 0 < h' /\
        ((rej = true \/ (0 < j)%nat) -> h' <= hk) /\
        (standard_sc s = false -> mf r * hk <= h' <= 10 * hk) ) /\
      (max_factor s' = max_factor s \/ max_factor s' = Fin 4) /\
      (standard_sc s' = false -> exists eo, error_norm_old s' = Some (Fin eo) /\ te r <= eo < 1).
Proof.
  intros Hmin HC HR. pose proof (shrink_lt1 r HR) as Hq.
  assert (Hmf : 0 < mf r < 1) by (destruct HR as (_&_&_&_&_&_&_&HH); exact HH).
  assert (Hdd : dir r * dir r = 1) by (destruct HR as ([Hd|Hd]&_); rewrite Hd; lra).
  induction k as [|k IH]; intros s h ms rej s' HS Hh Hms H; cbn [rk_loop] in H; [discriminate|].
  pose proof (trial_inv m c s (Fin h) (Fin ms) rej Hmin) as HT.
  destruct (trial_step m c s (Fin h) (Fin ms) rej) as [s1 hh h1 tn yn en|s1 h1|s1 m1|e];
    try discriminate.
  - destruct HT as (H0 & HCo & Hhh & Htn & Hlt & Hnf & _ & (Ks & HF & Hy & HK & He & _) & (fac & Hfac & Hh1 & Hmx)).
    destruct (finish_done m c s s1 hh h1 tn yn en s' Ks HCo HF Htn Hy HK He Hlt H)
      as (HA & Hha & Hsc & Hmx' & Hn2 & _).
    destruct HC as (HC1 & HC2 & HC3).
    rewrite HC2 in Hhh. change (nmul RX) with xmul in Hhh. cbn [xmul] in Hhh.
    destruct HS as ((tt & Ht) & HS2 & HS3).
    rewrite n1_RX in Hlt. cbn [nltb RX] in Hlt, H0.
    subst hh.
    destruct (accept_factor_ok c r s (h * dir r) en fac (standard_sc s1)) as (q & -> & Hq0 & Hq1 & Hq2 & Hq3); auto.
    { repeat split; tauto. }
    { split; [eauto|split; auto]. }
    { replace (dir r * (h * dir r)) with (h * (dir r * dir r)) by ring. rewrite Hdd; lra. }
    apply Rltb_false in H0.
    exists 0%nat, h, tt. simpl. split; [lra|]. split; [lra|]. split; [lia|]. split; [lra|].
    split; [rewrite (ac_hprev _ _ _ _ _ _ _ HA); do 2 f_equal; ring|].
    split; [exact Ht|]. split.
    { rewrite (ac_t _ _ _ _ _ _ _ HA), Ht. change (nadd RX) with xadd. cbn [xadd].
      f_equal. ring. }
    split.
    { rewrite Hha. subst h1. change (nmul RX) with xmul.
      destruct rej.
      - rewrite n1_RX, pymin_fin. cbn [xmul]. eexists; split; [reflexivity|].
        assert (Hmin1 : 0 < Rmin 1 q) by (apply Rmin_case; lra).
        pose proof (Rmin_l 1 q). pose proof (Rmin_r 1 q).
        split; [apply Rmult_lt_0_compat; lra|]. split; [intros _; nra|].
        intros Hsc0. split.
        + destruct (xltb en (tiny_err c)) eqn:Ety.
          * unfold accept_factor in Hfac. cbn [nltb RX] in Hfac. rewrite Ety in Hfac.
            inversion Hfac as [[Hm1 Hm2]]. 
            assert (q = 10 \/ q = 4) by (destruct HS2 as [E|E]; rewrite E in Hm1; inversion Hm1; auto).
            rewrite Rmin_left by lra. nra.
          * specialize (Hq2 Hsc0 eq_refl). assert (mf r <= Rmin 1 q) by (apply Rmin_glb; lra). nra.
        + nra.
      - cbn [xmul]. eexists; split; [reflexivity|]. split; [apply Rmult_lt_0_compat; lra|].
        split; [intros [?|?]; [discriminate|lia]|].
        intros Hsc0. destruct (xltb en (tiny_err c)) eqn:Ety.
        + unfold accept_factor in Hfac. cbn [nltb RX] in Hfac. rewrite Ety in Hfac.
          inversion Hfac as [[Hm1 Hm2]].
          assert (q = 10 \/ q = 4) by (destruct HS2 as [E|E]; rewrite E in Hm1; inversion Hm1; auto).
          nra.
        + specialize (Hq2 Hsc0 eq_refl). nra. }
    split.
    { rewrite Hmx', Hmx, MAXF_RX.
      match goal with |- context [if ?x then _ else _] => destruct x; auto end. }
    intros Hs. rewrite Hsc in Hs. destruct (Hq1 Hs) as (eo & Heo & Hb).
    exists eo. split; [|exact Hb]. rewrite (ac_enold _ _ _ _ _ _ _ HA). f_equal. exact Heo.
  - destruct HT as (H0 & HCo & Hsc & Hmx & Hnf & (en & Hh1 & Hen)).
    assert (xltb en (Fin 1) = false /\ xisnan en = false) as [Hlt Hnan].
    { destruct Hen as [(_ & Hgt & _)|(Hlt & Hnan & _)].
      - rewrite n1_RX in Hgt. cbn [nltb RX] in Hgt.
        destruct en; simpl in *; try discriminate; auto.
        split; auto. apply Rltb_true in Hgt. apply Rltb_false. lra.
      - rewrite n1_RX in Hlt. auto. }
    destruct (reject_factor_bounds c r en HC HR Hlt Hnan) as (q & Hq1 & Hq2).
    rewrite Hq1 in Hh1. change (nmul RX) with xmul in Hh1. cbn [xmul] in Hh1. subst h1.
    pose proof (reject_loop_st r s s1 HCo Hsc Hmx HS) as HS1.
    assert (Hhq : 0 < h * q) by (apply Rmult_lt_0_compat; lra).
    destruct (IH s1 (h * q) ms true s' HS1 Hhq Hms H)
      as (j & hk & tt & Hk0 & Hk1 & Hk2 & Hk3 & Hk4 & Hk5 & Hk6 & (h' & Hk7 & Hk7p & Hk8 & Hk9) & Hk10 & Hk11).
    exists (S j), hk, tt. split; [exact Hk0|].
    split.
    { simpl. destruct Hk1 as [Ha Hb].
      assert (0 < mf r ^ j) by (apply pow_lt; lra).
      assert (0 < shrink r ^ j) by (apply pow_lt; lra).
      split.
      - eapply Rle_trans; [|exact Ha].
        replace (h * (mf r * mf r ^ j)) with ((h * mf r) * mf r ^ j) by ring.
        apply Rmult_le_compat_r; [lra|]. apply Rmult_le_compat_l; lra.
      - eapply Rle_trans; [exact Hb|].
        replace (h * (shrink r * shrink r ^ j)) with ((h * shrink r) * shrink r ^ j) by ring.
        apply Rmult_le_compat_r; [lra|]. apply Rmult_le_compat_l; lra. }
    split; [lia|]. split; [exact Hk3|]. split; [exact Hk4|].
    split; [destruct HCo as (C1&_); congruence|]. split; [exact Hk6|].
    split.
    { exists h'. split; [exact Hk7|]. split; [exact Hk7p|].
      split; [intros _; apply Hk8; auto|]. rewrite <- Hsc. exact Hk9. }
    split; [rewrite <- Hmx; exact Hk10|]. exact Hk11.
Qed.

(** *** _reassess_stepsize *)

Definition min_step_of (r : rconst) (tt h : R) : R := Rmax (ha r * (Rabs tt + h)) (hb r).

Definition xmaxR (M : xr) (h : R) : R := match M with Fin x => Rmin x h | _ => h end.

(** the step after clipping to [min_step, max_step] *)
Definition clip (M : xr) (ms h : R) : R :=
  if (Rltb h ms || xltb M (Fin h)) then xmaxR M (Rmax ms h) else h.

Lemma reassess_real c r s tt h :
  cfg_is c r -> rc_ok r -> max_ok c -> t s = Fin tt -> h_abs s = Fin h -> 0 < h ->
  let ms := min_step_of r tt h in
  let h1 := clip (max_step c) ms h in
  let d := Rabs (tb r - tt) in
  exists h' sc, reassess_stepsize c s = (Fin h', Fin ms, sc) /\
    (sc = false -> standard_sc s = false) /\
    0 < ms /\ 0 < h1 /\
    h' = (if Rlt_dec d (2 * h1) then if Rlt_dec h1 d then Rmax (1/2 * d) ms else d else h1).
Proof.
  intros HC HR HM Ht Hh Hpos ms h1 d.
  destruct HC as (Htb&_&Hha&Hhb&_).
  destruct HR as (_&Hha0&Hhb0&_).
  assert (Hms : 0 < ms).
  { unfold ms, min_step_of. eapply Rlt_le_trans; [exact Hhb0|apply Rmax_r]. }
  assert (Hh1 : 0 < h1).
  { unfold h1, clip, xmaxR.
    assert (0 < Rmax ms h) by (eapply Rlt_le_trans; [exact Hms|apply Rmax_l]).
    destruct (Rltb h ms || xltb (max_step c) (Fin h)); [|lra].
    destruct HM as [-> | (M & -> & HM)]; [lra|]. apply Rmin_case; lra. }
  unfold reassess_stepsize. rewrite Ht, Hh, Htb, Hha, Hhb.
  change (nabs RX) with xabs. change (nadd RX) with xadd. change (nmul RX) with xmul.
  change (nsub RX) with xsub. unfold xsub. cbn [xabs xadd xmul xopp].
  rewrite pymax_fin. fold ms. fold (min_step_of r tt h). fold ms.
  rewrite pymax_fin. cbn [nltb RX xltb].
  replace (tb r + - tt) with (tb r - tt) by ring. fold d.
  assert (Hh1e : (if Rltb h ms || xltb (max_step c) (Fin h)
           then @pymin RX (max_step c) (Fin (Rmax ms h)) else Fin h) = Fin h1).
  { unfold h1, clip. destruct (Rltb h ms || xltb (max_step c) (Fin h)); [|reflexivity].
    destruct HM as [-> | (M & -> & HM)].
    - unfold pymin. simpl. reflexivity.
    - rewrite pymin_fin. reflexivity. }
  rewrite Hh1e. rewrite n2_RX. cbn [xmul xltb]. rewrite half_RX. cbn [xmul].
  generalize (Rltb h ms || xltb (max_step c) (Fin h)); intros lim. unfold Rltb.
  destruct (Rlt_dec d (2 * h1)).
  - destruct (Rlt_dec h1 d).
    + rewrite pymax_fin. eexists _, _. split; [reflexivity|]. split; [discriminate|]. auto.
    + eexists _, _. split; [reflexivity|]. split; [|auto].
      destruct lim; [discriminate|auto].
  - eexists _, _. split; [reflexivity|]. split; [|auto].
    destruct lim; [discriminate|auto].
Qed.

(** max_step not below the minimum step *)
Definition max_ge_min c (ms : R) : Prop :=
  match max_step c with Fin M => ms <= M | _ => True end.

Lemma clip_bounds c ms h : max_ok c -> 0 < h -> max_ge_min c ms ->
  ms <= clip (max_step c) ms h /\
  match max_step c with Fin M => clip (max_step c) ms h <= M | _ => True end.
Proof.
  intros HM Hh Hge. unfold clip, xmaxR, max_ge_min in *.
  pose proof (Rmax_l ms h). pose proof (Rmax_r ms h).
  destruct HM as [-> | (M & HMe & HM)].
  - cbn [xltb]. rewrite orb_false_r. split; [|exact I].
    destruct (Rltb_spec h ms); lra.
  - rewrite HMe in *. cbn [xltb].
    destruct (Rltb_spec h ms); destruct (Rltb_spec M h); cbn [orb]; try lra;
    (split; [apply Rmin_glb; lra|apply Rmin_l]).
Qed.

