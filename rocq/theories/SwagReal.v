(** Step sizes of SWAG over the extended reals, for every right-hand side. *)
From Coq Require Import String ZArith Reals Lra Psatz QArith Qreals Bool Lia List Arith.
From Verif Require Import Arith Common Stiff RK HStart RKInit RX RKReal HStartReal RKInitReal RKStep Ode Swag SwagArr SwagCo SwagGen SwagTop.
Import ListNotations.
Close Scope string_scope. Open Scope nat_scope. Open Scope R_scope.

Lemma fouru_RX : @sw_fouru RX = Fin (4 * small).
Proof. unfold sw_fouru. rewrite lit_RX, nsmall_RX. cbn [nmul RX xmul]. f_equal; unfold Q2R; simpl; lra. Qed.
Lemma p5_RX : @sw_p5eps RX = Fin (1/2).
Proof. unfold sw_p5eps. rewrite lit_RX. f_equal; unfold Q2R; simpl; lra. Qed.
Lemma half_RX : @lit RX (1#2) = Fin (1/2).
Proof. rewrite lit_RX. f_equal; unfold Q2R; simpl; lra. Qed.
Lemma quart_RX : @lit RX (1#4) = Fin (1/4).
Proof. rewrite lit_RX. f_equal; unfold Q2R; simpl; lra. Qed.
Lemma nine_RX : @lit RX (9#10) = Fin (9/10).
Proof. rewrite lit_RX. f_equal; unfold Q2R; simpl; lra. Qed.

(** a rejected trial at least halves the step, whatever the error *)
Lemma retry_h_RX i (e : xr) h : exists q, @retry_h RX i e (Fin h) = Fin (h * q) /\ 0 <= q <= 1/2.
Proof.
  unfold retry_h. rewrite p5_RX, half_RX, quart_RX.
  assert (D : exists q, Fin (h * (1/2)) = Fin (h * q) /\ 0 <= q <= 1/2) by (exists (1/2); split; [reflexivity|lra]).
  destruct (4 <=? i)%nat; cbn [andb]; [|exact D].
  destruct e as [e| | |]; cbn [nmul RX xmul nltb xltb inf_of_sign xsgn]; try exact D.
  - destruct (Rltb_spec (1/2) (1/4 * e)) as [L|L]; [|exact D].
    cbn [ndiv nsqrt RX xdiv]. destruct (Req_EM_T e 0); [lra|]. cbn [xsqrt].
    assert (P : 0 < 1/2/e) by (apply Rdiv_lt_0_compat; lra). destruct (Rlt_dec (1/2/e) 0); [lra|]. cbn [nmul RX xmul].
    exists (sqrt (1/2/e)). split; [reflexivity|]. split; [apply sqrt_pos|].
    replace (1/2) with (sqrt (1/4)) at 2; [|replace (1/4) with ((1/2) * (1/2)) by lra; apply sqrt_square; lra].
    apply sqrt_le_1_alt. apply (Rmult_le_reg_r e); [lra|]. unfold Rdiv. rewrite Rmult_assoc, Rinv_l by lra. lra.
  - destruct (Rlt_dec (1/4) 0); [lra|]. destruct (Rlt_dec 0 (1/4)); [|lra]. unfold inf_of_sign. destruct (Rlt_dec 0 (1 * 1)); [|lra].
    cbn [xltb ndiv nsqrt RX xdiv xsqrt]. destruct (Rlt_dec 0 0); [lra|]. rewrite sqrt_0. cbn [nmul RX xmul]. exists 0. split; [reflexivity|lra].
  - destruct (Rlt_dec (1/4) 0); [lra|]. destruct (Rlt_dec 0 (1/4)); [|lra]. unfold inf_of_sign. destruct (Rlt_dec 0 (1 * -1)); [lra|]. destruct (Rlt_dec (1 * -1) 0); [|lra]. cbn [xltb]. exact D.
Qed.

Lemma inl_inj {X E} (a b : X) : @inl X E a = inl b -> a = b. Proof. congruence. Qed.

(** the step size after an accepted step: twice, the same, or reduced by a factor
    between 0.5 and 0.9 (but not below ms) *)
Definition grown (h h' ms : R) : Prop :=
  h' = 2 * h \/ h' = h \/ exists q, 1/2 <= q <= 9/10 /\ Rabs h' = Rmax (Rabs h * q) ms /\ 0 <= h * h'.
Lemma next_h_RX ph1 k (e : xr) h ms h' : 0 <= ms -> @next_h RX ph1 k e (Fin h) (Fin (Rabs h)) (Fin ms) = inl h' -> exists r, h' = Fin r /\ grown h r ms.
Proof.
  intros Hms. unfold next_h. rewrite p5_RX. destruct ph1.
  { intros E. apply inl_inj in E. subst h'. exists (h + h). split; [reflexivity|]. left. lra. }
  destruct (aget sw_two k) as [tw|]; [|discriminate]. intros E. apply inl_inj in E. subst h'.
  destruct (nleb RX (nmul RX e tw) (Fin (1/2))); [exists (h + h); split; [reflexivity|]; left; lra|].
  destruct (nleb RX e (Fin (1/2))); [exists h; split; [reflexivity|]; right; left; reflexivity|].
  set (r := npow RX _ _). rewrite half_RX, nine_RX.
  assert (Q : exists q, @pymax RX (Fin (1/2)) (@pymin RX (Fin (9/10)) r) = Fin q /\ 1/2 <= q <= 9/10).
  { destruct r as [r| | |].
    - rewrite pymin_fin, pymax_fin. eexists. split; [reflexivity|]. split; [apply Rmax_l|apply Rmax_lub; [lra|apply Rmin_l]].
    - replace (@pymin RX (Fin (9/10)) PInf) with (Fin (9/10)) by reflexivity. rewrite pymax_fin. eexists. split; [reflexivity|]. split; [apply Rmax_l|apply Rmax_lub; lra].
    - replace (@pymin RX (Fin (9/10)) NInf) with NInf by reflexivity. replace (@pymax RX (Fin (1/2)) NInf) with (Fin (1/2)) by reflexivity. exists (1/2). split; [reflexivity|lra].
    - replace (@pymin RX (Fin (9/10)) NaN) with (Fin (9/10)) by reflexivity. rewrite pymax_fin. eexists. split; [reflexivity|]. split; [apply Rmax_l|apply Rmax_lub; lra]. }
  destruct Q as (q & -> & Hq). cbn [nmul RX xmul]. rewrite pymax_fin. cbn [ncopysign RX xcopysign xabs xopp].
  assert (M : 0 <= Rmax (Rabs h * q) ms) by (eapply Rle_trans; [exact Hms|apply Rmax_r]). rewrite (Rabs_pos_eq _ M).
  destruct (Rlt_dec h 0); eexists; (split; [reflexivity|]); right; right; exists q; (split; [exact Hq|]).
  - rewrite Rabs_Ropp, (Rabs_pos_eq _ M). split; [reflexivity|]. nra.
  - rewrite (Rabs_pos_eq _ M). split; [reflexivity|]. nra.
Qed.

(** *** configuration and state *)
Record scfg (c : SCfg RX) (tb d : R) : Prop := {
  sc_tb : s_tb c = Fin tb; sc_dir : s_dir c = Fin d; sc_d : d = 1 \/ d = -1;
  sc_max : s_max c = PInf \/ exists m, s_max c = Fin m /\ 0 < m;
  sc_kmax : kmax_ok c }.
(** the step size is finite and does not point backwards *)
Record hinv (c : SCfg RX) (d : R) (s : SSt RX) (t h : R) : Prop := {
  hi_t : s_t s = Fin t; hi_h : s_h s = Fin h; hi_d : 0 <= d * h; hi_s : sinv c s }.

Lemma min_step_RX (s : SSt RX) t : s_t s = Fin t -> min_step s = Fin (4 * small * Rabs t).
Proof. intros E. unfold min_step. rewrite E, fouru_RX. reflexivity. Qed.

Definition below_max (c : SCfg RX) (h : R) : Prop := forall m, s_max c = Fin m -> Rabs h <= m.
Lemma trial_h_RX c tb d s t h : scfg c tb d -> s_t s = Fin t -> s_h s = Fin h -> 0 <= d * h -> 0 < d * (tb - t) ->
  exists h', trial_h c s = Fin h' /\ 0 <= d * h' /\ Rabs h' <= Rabs h /\ Rabs h' <= Rabs (tb - t) /\ below_max c h' /\ (h <> 0 -> h' <> 0) /\
   ((d * h <= d * (tb - t) /\ below_max c h) -> h' = h).
Proof.
  intros [C1 C2 C3 C4 _] Et Eh Hh Ha. unfold trial_h. rewrite C1, C2, Et, Eh, n0_RX. cbn [nsub nmul nltb neqb ncopysign nabs RX n_inf]. unfold xsub. cbn [xopp xadd xmul xltb].
  set (dd := tb + - t). assert (Edd : dd = tb - t) by (unfold dd; lra). rewrite Edd in *. clear Edd dd.
  assert (H1 : exists h1, (if Rltb 0 (d * (h + - (tb - t))) then Fin (tb - t) else Fin h) = Fin h1 /\ 0 <= d * h1 /\ Rabs h1 <= Rabs h /\ Rabs h1 <= Rabs (tb - t) /\ (h <> 0 -> h1 <> 0) /\ (d * h <= d * (tb - t) -> h1 = h)).
  { assert (AB : forall a b, 0 <= d * a -> d * a <= d * b -> Rabs a <= Rabs b) by (intros a b; destruct C3 as [-> | ->]; intros; unfold Rabs; destruct (Rcase_abs a), (Rcase_abs b); lra).
    destruct (Rltb_spec 0 (d * (h + - (tb - t)))) as [L|L]; eexists; (split; [reflexivity|]).
    - split; [lra|]. split; [apply AB; [lra|destruct C3 as [-> | ->]; lra]|]. split; [lra|]. split; [intros _ X; rewrite X in Ha; lra|]. intros; destruct C3 as [-> | ->]; lra.
    - split; [lra|]. split; [lra|]. split; [apply AB; [lra|destruct C3 as [-> | ->]; lra]|]. split; auto. }
  destruct H1 as (h1 & E1 & P1 & P2 & P3 & P4 & P5). match goal with |- context [if xeqb (s_max c) PInf then ?X else _] => replace X with (Fin h1) by (symmetry; exact E1) end. unfold below_max. destruct C4 as [->|(m & -> & Hm)].
  - cbn [xeqb]. exists h1. split; [reflexivity|]. do 3 (split; [assumption|]). split; [discriminate|]. split; [exact P4|]. intros [X _]. auto.
  - cbn [xeqb]. cbn [xabs]. rewrite pymin_fin. cbn [xcopysign xabs xopp].
    assert (M : 0 <= Rmin m (Rabs h1)) by (apply Rmin_glb; [lra|apply Rabs_pos]). rewrite (Rabs_pos_eq _ M).
    pose proof (Rmin_l m (Rabs h1)) as ML. pose proof (Rmin_r m (Rabs h1)) as MR.
    assert (NZ : h1 <> 0 -> 0 < Rmin m (Rabs h1)) by (intros X; apply Rmin_glb_lt; [lra|apply Rabs_pos_lt; exact X]).
    assert (MM : forall m' : R, Fin m = Fin m' -> m' = m) by (intros m' X; injection X; auto).
    destruct (Rlt_dec d 0) as [D|D].
    + assert (d = -1) by lra. subst d. eexists. split; [reflexivity|]. split; [lra|]. rewrite Rabs_Ropp, (Rabs_pos_eq _ M). split; [lra|]. split; [lra|].
      split; [intros m' X; rewrite (MM m' X); exact ML|]. split; [intros X; specialize (NZ (P4 X)); lra|]. intros [X Y]. rewrite (P5 X) in *. specialize (Y m eq_refl). rewrite Rmin_right by exact Y. rewrite Rabs_left1; lra.
    + assert (d = 1) by lra. subst d. eexists. split; [reflexivity|]. split; [lra|]. rewrite (Rabs_pos_eq _ M). split; [lra|]. split; [lra|].
      split; [intros m' X; rewrite (MM m' X); exact ML|]. split; [intros X; specialize (NZ (P4 X)); lra|]. intros [X Y]. rewrite (P5 X) in *. specialize (Y m eq_refl). rewrite Rmin_right by exact Y. rewrite Rabs_pos_eq; lra.
Qed.

Lemma rejects_le (c : SCfg RX) ms s i s' i' : rejects c ms s i s' i' -> (i <= i')%nat.
Proof. intros H. induction H; lia. Qed.
(** one trial *)
Lemma rejects_RX c tb d ms s i s' i' t h : scfg c tb d -> rejects c (Fin ms) s i s' i' -> hinv c d s t h -> 
  exists h', hinv c d s' t h' /\ Rabs h' * 2 ^ (i' - i) <= Rabs h /\ (i <= i')%nat /\ ((i < i')%nat -> ms <= Rabs h').
Proof.
  intros C H. revert h. induction H as [s i|s i s1 s' i' E H IH]; intros h I.
  - exists h. split; [exact I|]. rewrite Nat.sub_diag. cbn [pow]. split; [lra|]. split; [lia|]. lia.
  - pose proof (hi_s _ _ _ _ _ I) as SI. destruct (trial_again _ _ _ _ _ (sc_kmax _ _ _ C) SI E) as (co & phi & p & yp & wt & e & knew & co' & phi' & TD & _ & _ & Es & X & B).
    destruct (retry_h_RX (S i) (erk e) h) as (q & Eq & Hq).
    assert (Eh1 : s_h s1 = Fin (h * q)). { rewrite Es. cbn [rejected s_h]. rewrite (hi_h _ _ _ _ _ I). exact Eq. }
    assert (I1 : hinv c d s1 t (h * q)).
    { constructor; [rewrite Es; cbn [rejected s_t]; apply (hi_t _ _ _ _ _ I)|exact Eh1| |exact X]. pose proof (hi_d _ _ _ _ _ I). nra. }
    destruct (IH _ I1) as (h' & I' & B1 & B2 & B3). exists h'. split; [exact I'|].
    assert (A1 : Rabs (h * q) <= Rabs h / 2). { rewrite Rabs_mult, (Rabs_pos_eq q) by lra. pose proof (Rabs_pos h). nra. }
    split; [|split; [lia|]].
    + replace (i' - i)%nat with (S (i' - S i))%nat by lia. cbn [pow]. nra.
    + intros _. destruct (Nat.eq_dec i' (S i)) as [->|N]; [|apply B3; lia].
      rewrite Eh1 in B. cbn [nabs RX xabs nltb xltb] in B. apply Rltb_false in B. clear B3.
      assert (s' = s1) as ->. { inversion H as [|? ? ? ? ? ? H2]; subst; [reflexivity|]. apply rejects_le in H2. lia. }
      assert (h' = h * q) by (pose proof (hi_h _ _ _ _ _ I') as Z; rewrite Eh1 in Z; injection Z; auto). subst h'. exact B.
Qed.

Lemma loop_fuel c s0 ms : kmax_ok c -> forall fuel s i, sinv c s -> @swag_loop RX fuel c s0 s i ms = IFuel -> exists s', rejects c ms s i s' (i + fuel).
Proof.
  intros HK. induction fuel as [|fuel IH]; intros s i I E.
  - exists s. rewrite Nat.add_0_r. constructor.
  - cbn [swag_loop] in E. destruct (swag_trial c s i ms) as [[s'|s'|s']|] eqn:ET; try discriminate.
    destruct (trial_again _ _ _ _ _ HK I ET) as (? & ? & ? & ? & ? & ? & ? & ? & ? & _ & _ & _ & _ & X & _).
    destruct (IH _ _ X E) as (s2 & R). exists s2. replace (i + S fuel)%nat with (S i + fuel)%nat by lia. econstructor; [exact ET|exact R].
Qed.

Lemma started_hinv c d s t h h' : hinv c d s t h -> 0 <= d * h' -> hinv c d (started c s (Fin h' : num RX)) t h'.
Proof. intros [I1 I2 I3 I4] H. unfold started. pose proof (started_inv c s (Fin h' : num RX) I4) as X. unfold started in X. destruct (kle4_step c s). constructor; [exact I1|reflexivity|exact H|exact X]. Qed.

Definition smin (t : R) : R := 4 * small * Rabs t.
Lemma smin_pos t : 0 <= smin t. Proof. unfold smin. pose proof small_pos. pose proof (Rabs_pos t). nra. Qed.
Lemma smin_pos' t : t <> 0 -> 0 < smin t. Proof. intros H. unfold smin. pose proof small_pos. pose proof (Rabs_pos_lt t H). nra. Qed.

Lemma accept_RX c tb d s i s' t h ms : scfg c tb d -> 0 <= ms -> (h = 0 -> ms = 0) -> hinv c d s t h -> swag_trial c s i (Fin ms) = inl (SAccept s') ->
  exists h', s_t s' = Fin (t + h) /\ s_hold s' = Fin h /\ grown h h' ms /\ hinv c d s' (t + h) h'.
Proof.
  intros C Hms Hz I E. destruct (trial_accept _ _ _ _ _ (sc_kmax _ _ _ C) (hi_s _ _ _ _ _ I) E) as (co & phi & p & yp & wt & e & knew & TD & _ & SI & AS & (_ & _ & _ & _ & e' & _ & EH)).
  rewrite (hi_h _ _ _ _ _ I) in EH. change (nabs RX (Fin h)) with (Fin (Rabs h)) in EH. destruct (next_h_RX _ _ _ _ _ _ Hms EH) as (h' & Eh' & G).
  assert (Et : s_t s' = Fin (t + h)) by (rewrite (as_t _ _ _ _ _ _ _ _ _ _ _ _ AS), (hi_t _ _ _ _ _ I), (hi_h _ _ _ _ _ I); reflexivity).
  exists h'. split; [exact Et|]. split; [rewrite (as_hold _ _ _ _ _ _ _ _ _ _ _ _ AS); apply (hi_h _ _ _ _ _ I)|]. split; [exact G|].
  constructor; [exact Et|exact Eh'| |exact SI].
  pose proof (hi_d _ _ _ _ _ I) as D. destruct (sc_d _ _ _ C) as [-> | ->]; destruct G as [->|[->|(q & Hq & E1 & E2)]]; try lra.
  - destruct (Rle_dec 0 h'); [lra|]. assert (h = 0) by nra. rewrite (Hz H), H, Rabs_R0, Rmult_0_l, Rmax_left in E1 by lra. pose proof (Rabs_pos_lt h' ltac:(lra)). lra.
  - destruct (Rle_dec h' 0); [lra|]. assert (h = 0) by nra. rewrite (Hz H), H, Rabs_R0, Rmult_0_l, Rmax_left in E1 by lra. pose proof (Rabs_pos_lt h' ltac:(lra)). lra.
Qed.

(** an accepted step of size hs from t, when the solver's step size was h *)
Record moved (c : SCfg RX) (tb d t h : R) (s' : SSt RX) (hs h' : R) : Prop := {
  mv_t : s_t s' = Fin (t + hs);
  mv_dir : 0 <= d * hs <= d * (tb - t);
  mv_le : Rabs hs <= Rabs h;
  mv_max : below_max c hs;
  mv_min : smin t <= Rabs hs;
  mv_hold : s_hold s' = Fin hs;
  mv_next : grown hs h' (smin t);
  mv_inv : hinv c d s' (t + hs) h' }.

Theorem step_RX c tb d s t h fuel : scfg c tb d -> hinv c d s t h -> 0 < d * (tb - t) ->
  (Rabs (tb - t) <= smin t /\ swag_step fuel c s = IDone (extrapolated c s)) \/
  (smin t < Rabs (tb - t) /\
   ((exists s' msg, swag_step fuel c s = IFail s' msg) \/ 
    (exists s' hs h', swag_step fuel c s = IDone s' /\ moved c tb d t h s' hs h') \/
    (swag_step fuel c s = IFuel /\ smin t * 2 ^ fuel <= Rabs h))).
Proof.
  intros C I Ha. pose proof (step_cases c s fuel (sc_kmax _ _ _ C) (hi_s _ _ _ _ _ I)) as SC.
  rewrite (min_step_RX s t (hi_t _ _ _ _ _ I)), (hi_t _ _ _ _ _ I), (sc_tb _ _ _ C) in SC. fold (smin t) in SC.
  change (nabs RX (nsub RX (Fin tb) (Fin t))) with (Fin (Rabs (tb + - t))) in SC. replace (tb + - t) with (tb - t) in SC by lra. cbn [nleb RX xleb] in SC.
  destruct SC as [(B & S)|(B & SC)]; [left; apply Rleb_true in B; auto|]. right. apply Rleb_false in B. split; [exact B|].
  destruct SC as [(msg & S)|(B2 & SC)]; [left; eauto|].
  destruct (trial_h_RX c tb d s t h C (hi_t _ _ _ _ _ I) (hi_h _ _ _ _ _ I) (hi_d _ _ _ _ _ I) Ha) as (h0 & E0 & P1 & P2 & P3 & P4 & P5 & P6). rewrite E0 in *.
  change (nabs RX (Fin h0)) with (Fin (Rabs h0)) in B2. cbn [nltb RX xltb] in B2. apply Rltb_false in B2.
  pose proof (started_hinv c d s t h h0 I P1) as I0.
  assert (AB : forall a b, 0 <= d * a -> 0 <= d * b -> Rabs a <= Rabs b -> d * a <= d * b) by (intros a b; destruct (sc_d _ _ _ C) as [-> | ->]; intros X Y; unfold Rabs; destruct (Rcase_abs a), (Rcase_abs b); lra).
  pose proof (smin_pos t) as SP.
  destruct SC as [S|[(s1 & i1 & s' & R & T & S)|(s1 & i1 & s' & R & T & S)]]; [| |left; eauto].
  - right. right. split; [exact S|].
    assert (exists s0, @swag_loop RX fuel c s0 (started c s (Fin h0 : num RX)) 0 (Fin (smin t)) = IFuel) as (s0 & EL).
    { unfold swag_step in S. fold (min_step s) in S. rewrite (min_step_RX s t (hi_t _ _ _ _ _ I)) in S. fold (smin t) in S. unfold started. destruct (kle4_step c s) as (kle & nt). cbv zeta in S.
      destruct (nleb RX _ _); [discriminate|]. rewrite E0 in S. destruct (nltb RX _ (Fin (smin t))); [discriminate|]. destruct (nltb RX _ _); [discriminate|]. eexists. exact S. }
    destruct (loop_fuel c s0 (Fin (smin t)) (sc_kmax _ _ _ C) fuel _ _ (hi_s _ _ _ _ _ I0) EL) as (s2 & R).
    destruct (rejects_RX _ _ _ _ _ _ _ _ _ _ C R I0) as (h2 & I2 & B4 & _ & B5). cbn [Nat.add] in B4, B5. rewrite Nat.sub_0_r in B4.
    destruct fuel as [|fuel]; [cbn [pow]; lra|]. specialize (B5 ltac:(lia)). pose proof (pow_lt 2 (Datatypes.S fuel) ltac:(lra)). nra.
  - right. left. destruct (rejects_RX _ _ _ _ _ _ _ _ _ _ C R I0) as (h1 & I1 & B4 & _ & B5).
    assert (L1 : Rabs h1 <= Rabs h0). { pose proof (pow_R1_Rle 2 (i1 - 0) ltac:(lra)). pose proof (Rabs_pos h1). nra. }
    assert (M1 : smin t <= Rabs h1).
    { destruct (Nat.eq_dec i1 0) as [->|N]; [|apply B5; lia]. assert (s1 = started c s (Fin h0 : num RX)) as -> by (inversion R as [|? ? ? ? ? ? R2]; subst; [reflexivity|apply rejects_le in R2; lia]).
      assert (Fin h1 = Fin h0) as Q by (exact (eq_trans (eq_sym (hi_h _ _ _ _ _ I1)) (hi_h _ _ _ _ _ I0))). injection Q as ->. exact B2. }
    destruct (accept_RX c tb d s1 i1 s' t h1 (smin t) C SP) as (h' & E1 & E2 & E3 & E4); [intros ->; rewrite Rabs_R0 in M1; lra|exact I1|exact T|].
    exists s', h1, h'. split; [exact S|]. constructor; try assumption; try lra.
    + split; [exact (hi_d _ _ _ _ _ I1)|]. apply AB; [exact (hi_d _ _ _ _ _ I1)|lra|lra].
    + intros m Em. specialize (P4 m Em). lra.
Qed.

(** termination away from t = 0 *)
Corollary step_ends c tb d s t h fuel : scfg c tb d -> hinv c d s t h -> 0 < d * (tb - t) -> Rabs h < smin t * 2 ^ fuel -> swag_step fuel c s <> IFuel.
Proof. intros C I Ha F E. destruct (step_RX c tb d s t h fuel C I Ha) as [(_ & S)|(_ & [(s' & msg & S)|[(s' & hs & h' & S & _)|(S & B)]])]; try congruence; lra. Qed.

(** *** histories *)
Definition place (c : SCfg RX) (tb d : R) (v : OSolver RX (SSt RX)) : Prop :=
  match ostat v with
  | ORunning => exists t h, hinv c d (ost v) t h /\ 0 < d * (tb - t)
  | OFinished => s_t (ost v) = Fin tb
  | OFailed _ => exists t, s_t (ost v) = Fin t /\ 0 < d * (tb - t)
  end.

Lemma status_RX c tb d (s' : SSt RX) t' : scfg c tb d -> s_t s' = Fin t' -> nleb RX n0 (nmul RX (s_dir c) (nsub RX (v_t sw_view s') (s_tb c))) = Rleb 0 (d * (t' - tb)).
Proof. intros C E. cbn [v_t sw_view]. rewrite (sc_dir _ _ _ C), (sc_tb _ _ _ C), E, n0_RX. reflexivity. Qed.

Lemma abort_t (c : SCfg RX) s s' h : s_t (swag_abort (started c s h) s') = s_t s.
Proof. unfold swag_abort, started. destruct (kle4_step c s). reflexivity. Qed.
Lemma fail_t c s fuel s' msg : kmax_ok c -> sinv c s -> @swag_step RX fuel c s = IFail s' msg -> s_t s' = s_t s.
Proof.
  intros HK I E. destruct (step_cases c s fuel HK I) as [(_ & S)|(_ & [(m & S)|(_ & [S|[(s1 & i1 & s2 & R & T & S)|(s1 & i1 & s2 & R & T & S)]])])]; rewrite E in S; try discriminate.
  - injection S as -> _. unfold started. destruct (kle4_step c s). reflexivity.
  - injection S as -> _. apply abort_t.
Qed.

(** what one returned call of step() does *)
Inductive call_effect (c : SCfg RX) (tb d : R) (v v' : OSolver RX (SSt RX)) : Prop :=
| ce_empty : s_y (ost v) = [] -> ostat v' = OFinished -> s_t (ost v') = Fin tb -> call_effect c tb d v v'
| ce_last t : s_t (ost v) = Fin t -> Rabs (tb - t) <= smin t -> ostat v' = OFinished -> ost v' = extrapolated c (ost v) -> call_effect c tb d v v'
| ce_fail msg : ostat v' = OFailed msg -> s_t (ost v') = s_t (ost v) -> call_effect c tb d v v'
| ce_step t h hs h' : s_t (ost v) = Fin t -> s_h (ost v) = Fin h -> moved c tb d t h (ost v') hs h' ->
    ((ostat v' = ORunning /\ 0 < d * (tb - (t + hs))) \/ (ostat v' = OFinished /\ t + hs = tb)) -> call_effect c tb d v v'.

Lemma OOk_inj {S} (v v' : OSolver RX S) : OOk v = OOk v' -> v = v'. Proof. congruence. Qed.
Lemma call_RX c tb d v fuel v' : scfg c tb d -> place c tb d v -> swag_call c fuel v = OOk v' -> place c tb d v' /\ call_effect c tb d v v' /\ ostat v = ORunning.
Proof.
  intros C P E. unfold swag_call, ostep in E. unfold place in P. destruct (ostat v) eqn:Es; try discriminate. destruct P as (t & h & I & Ha).
  destruct ((length (s_y (ost v)) =? 0)%nat) eqn:E0.
  { cbn [v_n sw_view] in E. rewrite E0 in E. cbn [orb] in E. apply OOk_inj in E; subst v'. apply Nat.eqb_eq in E0. split; [exact (sc_tb _ _ _ C)|]. split; [|reflexivity]. apply ce_empty; [destruct (s_y (ost v)); [reflexivity|discriminate]|reflexivity|exact (sc_tb _ _ _ C)]. }
  cbn [v_n sw_view] in E. rewrite E0 in E. cbn [orb v_t sw_view] in E.
  assert (N : neqb RX (s_t (ost v)) (s_tb c) = false). { rewrite (hi_t _ _ _ _ _ I), (sc_tb _ _ _ C). cbn [neqb RX xeqb]. apply Reqb_false. intros ->. lra. }
  rewrite N in E. unfold swag_impl in E.
  destruct (step_RX c tb d (ost v) t h fuel C I Ha) as [(B & S)|(B & [(s' & msg & S)|[(s' & hs & h' & S & M)|(S & B2)]])]; rewrite S in E; try discriminate.
  - apply OOk_inj in E; subst v'. assert (Et : s_t (extrapolated c (ost v)) = Fin tb) by (unfold extrapolated; destruct (kle4_step c (ost v)); exact (sc_tb _ _ _ C)).
    assert (ST : (if nleb RX n0 (nmul RX (s_dir c) (nsub RX (s_t (extrapolated c (ost v))) (s_tb c))) then OFinished else ORunning) = OFinished).
    { pose proof (status_RX c tb d _ _ C Et) as Q. cbn [v_t sw_view] in Q. rewrite Q. replace (Rleb 0 (d * (tb - tb))) with true; [reflexivity|]. symmetry. apply Rleb_true. lra. }
    unfold place. cbn [ost ostat v_t sw_view]. rewrite ST. split; [exact Et|]. split; [|reflexivity]. eapply ce_last; [exact (hi_t _ _ _ _ _ I)|exact B|reflexivity|reflexivity].
  - apply OOk_inj in E; subst v'. pose proof (fail_t _ _ _ _ _ (sc_kmax _ _ _ C) (hi_s _ _ _ _ _ I) S) as F. unfold place. cbn [ost ostat]. split; [exists t; rewrite F; split; [exact (hi_t _ _ _ _ _ I)|exact Ha]|]. split; [|reflexivity]. eapply ce_fail; [reflexivity|exact F].
  - apply OOk_inj in E; subst v'. pose proof (status_RX c tb d s' _ C (mv_t _ _ _ _ _ _ _ _ M)) as Q. cbn [v_t sw_view] in Q. unfold place. cbn [ost ostat v_t sw_view]. rewrite Q.
    pose proof (mv_dir _ _ _ _ _ _ _ _ M) as [D1 D2].
    destruct (Rleb 0 (d * (t + hs - tb))) eqn:EL.
    + apply Rleb_true in EL. assert (EQ : t + hs = tb) by (destruct (sc_d _ _ _ C) as [-> | ->]; lra). split; [rewrite (mv_t _ _ _ _ _ _ _ _ M), EQ; reflexivity|]. split; [|reflexivity].
      eapply ce_step; [exact (hi_t _ _ _ _ _ I)|exact (hi_h _ _ _ _ _ I)|exact M|]. right. auto.
    + apply Rleb_false in EL. split; [exists (t + hs), h'; split; [exact (mv_inv _ _ _ _ _ _ _ _ M)|lra]|]. split; [|reflexivity].
      eapply ce_step; [exact (hi_t _ _ _ _ _ I)|exact (hi_h _ _ _ _ _ I)|exact M|]. left. split; [reflexivity|lra].
Qed.

Lemma hist_RX c tb d v n v' : scfg c tb d -> place c tb d v -> swag_hist c v n v' -> place c tb d v'.
Proof. intros C P H. induction H as [|v n v1 v2 k H IH E]; [exact P|]. destruct (call_RX c tb d v1 k v2 C (IH P) E) as (X & _). exact X. Qed.

(** construction *)
Theorem init_RX o j fun_ (t0 tb : R) y0 c s : t0 <> tb -> y0 <> [] -> so_max o <> NaN -> so_first o <> Some NaN -> junk_ok (Z.to_nat (so_kmax o)) (length y0) j ->
  @swag_init RX o j fun_ (Fin t0) y0 (Fin tb) = inl (c, s) ->
  exists d h, scfg c tb d /\ 0 < d * (tb - t0) /\ hinv c d s t0 h /\ 0 < d * h /\ (forall f, so_first o = Some (Fin f) -> Rabs h = f) /\ 
    (so_first o = None -> Rabs h <= Rmax (Rabs (tb - t0)) (100 * small * Rabs t0)).
Proof.
  intros Hne Hy Hm Hf HJ E. destruct (init_inv _ _ _ _ _ _ _ _ E HJ) as (K & I & _ & _ & Etb & Edir & Emax & Et & _).
  destruct (direction0_RX t0 tb Hne) as (d & Ed & Hd & Hdp).
  assert (Mx : so_max o = PInf \/ exists m, so_max o = Fin m /\ 0 < m).
  { unfold swag_init in E. destruct (negb _); [discriminate|]. destruct (nleb RX (so_max o) n0) eqn:EM; [discriminate|]. clear E. rewrite n0_RX in EM. destruct (so_max o) as [m| | |]; cbn [nleb RX xleb] in EM; [|auto|discriminate|congruence].
    apply Rleb_false in EM. eauto. }
  assert (HH : exists h, s_h s = Fin h /\ 0 < d * h /\ (forall f, so_first o = Some (Fin f) -> Rabs h = f) /\ (so_first o = None -> Rabs h <= Rmax (Rabs (tb - t0)) (100 * small * Rabs t0))).
  { unfold swag_init in E. destruct (negb _); [discriminate|]. destruct (nleb RX (so_max o) n0) eqn:EM; [discriminate|]. destruct (validate_tol _ _ _ _) as [[rt at']|]; [|discriminate].
    match type of E with match ?X with _ => _ end = _ => destruct X as [[h cl]|] eqn:EF; [|discriminate] end. cbv zeta in E.
    assert (Eh : s_h s = h).
    { destruct (aset (e_phi j) _ _); [|discriminate]. destruct (aset l _ _); [|discriminate]. destruct (aset (e_sig j) _ _); [|discriminate]. destruct (aset (e_g j) _ _); [|discriminate]. destruct (aset l2 _ _); [|discriminate].
      destruct (inl_pair_inj _ _ _ _ E) as [_ E2]. rewrite <- E2. reflexivity. }
    rewrite Eh. clear E. rewrite Ed in EF. destruct (so_first o) as [f|].
    - rewrite n0_RX in EF. change (nabs RX (nsub RX (Fin tb) (Fin t0))) with (Fin (Rabs (tb + - t0))) in EF.
      destruct f as [f| | |]; cbn [nleb RX xleb nltb xltb] in EF; try discriminate; [|exfalso; apply Hf; reflexivity].
      destruct (Rleb_spec f 0) as [L|L]; [discriminate|]. destruct (Rltb_spec (Rabs (tb + - t0)) f) as [L2|L2]; [discriminate|]. destruct (inl_pair_inj _ _ _ _ EF) as [<- _].
      cbn [ncopysign RX xcopysign xabs xopp]. rewrite (Rabs_pos_eq f) by lra. assert (X : forall g : R, Some (Fin f) = Some (Fin g) -> f = g) by (intros g Q; injection Q; auto).
      destruct (Rlt_dec d 0); eexists; (split; [reflexivity|]); (split; [destruct Hd; subst d; lra|]); (split; [|discriminate]); intros g Q; rewrite <- (X g Q); rewrite ?Rabs_Ropp; apply Rabs_pos_eq; lra.
    - change (nabs RX (nsub RX (Fin tb) (Fin t0))) with (Fin (Rabs (tb + - t0))) in EF. apply inl_inj in EF.
      assert (B : exists b, nadd RX (Fin t0) (ncopysign RX (pymin (Fin (Rabs (tb + - t0))) (so_max o)) (Fin d)) = Fin b /\ 0 < d * (b - t0) /\ Rabs (b - t0) <= Rabs (tb - t0)).
      { assert (T : 0 < Rabs (tb - t0)) by (apply Rabs_pos_lt; lra). replace (tb + - t0) with (tb - t0) by lra.
        assert (M : exists m, @pymin RX (Fin (Rabs (tb - t0))) (so_max o) = Fin m /\ 0 < m <= Rabs (tb - t0)).
        { destruct Mx as [->|(m & -> & Hmm)]; [exists (Rabs (tb - t0)); split; [reflexivity|lra]|]. rewrite pymin_fin. eexists. split; [reflexivity|]. split; [apply Rmin_glb_lt; lra|apply Rmin_l]. }
        destruct M as (m & -> & M1 & M2). cbn [ncopysign RX xcopysign xabs xopp]. rewrite (Rabs_pos_eq m) by lra.
        destruct (Rlt_dec d 0); cbn [nadd RX xadd]; eexists; (split; [reflexivity|]); (split; [destruct Hd; subst d; lra|]).
        - replace (t0 + - m - t0) with (- m) by lra. rewrite Rabs_Ropp, Rabs_pos_eq; lra.
        - replace (t0 + m - t0) with m by lra. rewrite Rabs_pos_eq; lra. }
      destruct B as (b & EB & B1 & B2). rewrite EB in EF. assert (Hb : t0 <> b) by (intros X; rewrite X in B1; replace (b - b) with 0 in B1 by lra; lra).
      destruct (h_start_spec fun_ t0 b y0 (fun_ (Fin t0) y0) 1 rt at' None None Hb Hy) as (hh & cl' & EHs & S1 & S2 & _). rewrite EHs in EF. injection EF as <- _.
      exists hh. split; [reflexivity|]. split; [destruct Hd; subst d; nra|]. split; [discriminate|]. intros _. eapply Rle_trans; [exact S2|]. apply Rmax_lub; [eapply Rle_trans; [exact B2|apply Rmax_l]|apply Rmax_r]. }
  destruct HH as (h & Eh & H1 & H2 & H3). exists d, h. split.
  - constructor; [rewrite Etb; reflexivity|rewrite Edir; exact Ed|exact Hd|rewrite Emax; exact Mx|exact K].
  - split; [exact Hdp|]. split; [constructor; [rewrite Et; reflexivity|exact Eh|lra|exact I]|]. auto.
Qed.
