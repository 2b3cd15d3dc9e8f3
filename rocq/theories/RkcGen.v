(** SSV2stab for every arithmetic: what a trial and a step() leave unchanged, the
    counters, and how often the spectral radius is determined. *)
From Coq Require Import String ZArith QArith Bool Lia List Arith.
From Verif Require Import Arith Common Stiff RK HStart RKInit Dense Ode Rkc.
Import ListNotations.
Close Scope string_scope. Open Scope nat_scope.

Section Gen.
Context {A : Arith} (EL : Elem A).
Notation num := (num A).

(** fields that a trial never writes *)
Record same_base (s s' : RkcSt A) : Prop := {
  sb_t : rs_t s' = rs_t s; sb_y : rs_y s' = rs_y s; sb_yn : rs_yn s' = rs_yn s; sb_fn : rs_fn s' = rs_fn s;
  sb_hold : rs_hold s' = rs_hold s; sb_errold : rs_errold s' = rs_errold s; sb_nst : rs_nstsig s' = rs_nstsig s }.
Lemma sb_refl s : same_base s s. Proof. constructor; reflexivity. Qed.
Lemma sb_trans s1 s2 s3 : same_base s1 s2 -> same_base s2 s3 -> same_base s1 s3.
Proof. intros [] []. constructor; etransitivity; eassumption. Qed.

Lemma rho_iter_calls left : forall iter (g : num -> list num -> list num) t yn fn sm dy sg v fv rc r v' fv' rc',
  rho_iter left iter g t yn fn sm dy sg v fv rc = (r, v', fv', rc') -> exists l, rc' = rc ++ l /\ length l <= left /\ (left <> 0 -> 1 <= length l) /\ Forall (fun p => fst p = t) l.
Proof.
  induction left as [|left IH]; intros iter g t yn fn sm dy sg v fv rc r v' fv' rc' H; cbn [rho_iter] in H.
  - injection H as <- <- <- <-. exists []. rewrite app_nil_r. cbn. repeat split; auto; lia.
  - destruct (negb (Nat.eqb iter 0) && _).
    + injection H as <- <- <- <-. eexists. split; [reflexivity|]. cbn [length]. repeat split; auto; try lia.
    + apply IH in H. destruct H as (l & -> & L & _ & F). eexists ((t, v) :: l). rewrite <- app_assoc. split; [reflexivity|]. cbn [length]. repeat split; auto; try lia.
Qed.

Record sprad_eff (c : RkcCfg A) (s s' : RkcSt A) (ok : bool) : Prop := {
  se_base : same_base s s';
  se_absh : rs_absh s' = rs_absh s;
  se_calls : rs_calls s' = rs_calls s;
  se_newspc : rs_newspc s' = rs_newspc s;
  se_nrejct : rs_nrejct s' = rs_nrejct s;
  se_nrho : rs_nrho s' = rs_nrho s + (if rs_newspc s then 1 else 0);
  se_jacatt : ok = true -> rs_jacatt s' = (rs_newspc s || rs_jacatt s)%bool;
  se_jacatt' : rs_jacatt s' = rs_jacatt s \/ rs_jacatt s' = true;
  se_mlim : rs_mlim s' = rs_mlim s; se_maxm : rs_maxm s' = rs_maxm s; se_notes : rs_notes s' = rs_notes s;
  se_sprad : rs_newspc s = false -> rs_sprad s' = rs_sprad s /\ rs_V s' = rs_V s;
  se_nfesig : rs_nfesig s' + length (rs_rcalls s) = rs_nfesig s + length (rs_rcalls s');
  se_rcalls : exists l, rs_rcalls s' = rs_rcalls s ++ l /\ (rs_newspc s = false -> l = []) /\ length l <= 50 /\ (rc_rho c <> None -> l = []) /\ Forall (fun p => fst p = rs_t s) l }.
Lemma sprad_gen c s s' ok : rkc_sprad c s = (s', ok) -> sprad_eff c s s' ok.
Proof.
  unfold rkc_sprad. destruct (rs_newspc s) eqn:N; cbn [negb].
  2: { intros H. injection H as <- <-. constructor; auto; try (apply sb_refl); try lia; rewrite ?N; try lia; auto.
       exists []. rewrite app_nil_r. cbn; repeat split; auto; lia. }
  destruct (rc_rho c) as [r|] eqn:R.
  - intros H. injection H as <- <-. constructor; cbn; rewrite ?N; auto; try lia; try discriminate. 
    + constructor; reflexivity.
    + exists []. rewrite app_nil_r. cbn; repeat split; auto; lia.
  - destruct (rkc_rho c s (rs_t s)) as [[[res v] fv] rc] eqn:E. unfold rkc_rho in E. destruct (rho_start _ _) as [v0 dy]. 
    pose proof (rho_iter_calls _ _ _ _ _ _ _ _ _ _ _ _ _ _ _ _ E) as (l & -> & L & _ & F).
    destruct res as [[sp V]|]; intros H; injection H as <- <-; constructor; cbn [rs_t rs_y rs_absh rs_hold rs_errold rs_yn rs_fn rs_v1 rs_v2 rs_V rs_nstsig rs_mlim rs_newspc rs_jacatt rs_sprad rs_nrejct rs_maxm rs_nfesig rs_calls rs_rcalls rs_nrho rs_notes]; rewrite ?N; auto; try lia; try discriminate; try (constructor; reflexivity);
      try (rewrite app_length; lia); exists l; rewrite ?N; repeat split; auto; try discriminate; congruence.
Qed.

Record first_eff (s s' : RkcSt A) (absh : option num) : Prop := {
  fe_base : same_base s s';
  fe_absh : rs_absh s' = rs_absh s; fe_newspc : rs_newspc s' = rs_newspc s; fe_nrejct : rs_nrejct s' = rs_nrejct s;
  fe_nrho : rs_nrho s' = rs_nrho s; fe_jacatt : rs_jacatt s' = rs_jacatt s; fe_mlim : rs_mlim s' = rs_mlim s; fe_maxm : rs_maxm s' = rs_maxm s; fe_notes : rs_notes s' = rs_notes s;
  fe_sprad : rs_sprad s' = rs_sprad s; fe_V : rs_V s' = rs_V s; fe_nfesig : rs_nfesig s' = rs_nfesig s; fe_rcalls : rs_rcalls s' = rs_rcalls s;
  fe_first : forall c a, rkc_first c s absh = inl (a, s') -> absh = None -> exists v1 v2 p, rkc_init_step c (rs_sprad s) (rs_t s) (rs_yn s) (rs_fn s) = inl (a, v1, v2, p) /\ In p (rs_calls s');
  fe_calls : exists l, rs_calls s' = rs_calls s ++ l /\ length l = match absh with None => 1 | Some _ => 0 end }.
Lemma first_gen c s absh a s' : rkc_first c s absh = inl (a, s') -> first_eff s s' absh.
Proof.
  unfold rkc_first. destruct absh as [a0|].
  - intros H. injection H as <- <-. constructor; auto; [apply sb_refl|discriminate|]. exists []. rewrite app_nil_r. auto.
  - destruct (rkc_init_step c _ _ _ _) as [[[[b v1] v2] p]|e] eqn:EI; [|discriminate]. intros H. injection H as <- <-. constructor; cbn; auto.
    + constructor; reflexivity.
    + intros c' a' H _. destruct (rkc_init_step c' _ _ _ _) as [[[[b' v1'] v2'] p']|e'] eqn:EI'; [|discriminate]. injection H as <- <- <- H. apply app_inv_head in H. injection H as ->. exists v1', v2', p. split; [reflexivity|]. apply in_or_app. right. left. reflexivity.
    + exists [p]. auto.
Qed.
Lemma select_gen c sp t a m a' lim : rkc_select EL c sp t a = inl (m, a', lim) -> (m <= rc_mmax c)%Z /\ (lim = true -> m = rc_mmax c).
Proof.
  unfold rkc_select. destruct (msqrt _); [|discriminate]. destruct (el_int EL _) as [k|]; [|discriminate]. destruct (Z.ltb_spec (rc_mmax c) (1 + k)); intros E; injection E as <- <- <-; split; try lia; try discriminate; auto.
Qed.
Lemma stages_calls left : forall (g : num -> list num -> list num) t yn fn h w0 w1 k y y1 y2 cl r y1' y2' cl',
  stage_loop left g t yn fn h w0 w1 k y y1 y2 cl = inl (r, y1', y2', cl') -> exists l, cl' = cl ++ l /\ length l = left.
Proof.
  induction left as [|left IH]; intros g t yn fn h w0 w1 k y y1 y2 cl r y1' y2' cl' H; cbn [stage_loop] in H.
  - injection H as <- <- <- <-. exists []. rewrite app_nil_r. auto.
  - destruct (coef_next w0 w1 k) as [[[[[mu nu] mus] aj] k']|]; [|discriminate]. destruct left as [|left].
    + injection H as <- <- <- <-. eexists. split; [reflexivity|reflexivity].
    + apply IH in H. destruct H as (l & -> & L). rewrite <- app_assoc. eexists. split; [reflexivity|]. cbn [length app]. lia.
Qed.

(** what one trial does, whatever its outcome *)
Record trial_eff (c : RkcCfg A) (s s' : RkcSt A) : Prop := {
  te_base : same_base s s';
  te_nrho : rs_nrho s' = rs_nrho s + (if rs_newspc s then 1 else 0) }.
(** a trial that ran the m stages *)
Record trial_run (c : RkcCfg A) (s : RkcSt A) (absh : option num) (s' : RkcSt A) (m : Z) : Prop := {
  tr_eff : trial_eff c s s';
  tr_jacatt : rs_jacatt s' = (rs_newspc s || rs_jacatt s)%bool;
  tr_calls : exists l, rs_calls s' = rs_calls s ++ l /\ length l = (match absh with None => 1 | Some _ => 0 end) + Z.to_nat (m - 1) + 1;
  tr_rcalls : exists l, rs_rcalls s' = rs_rcalls s ++ l /\ (rs_newspc s = false -> l = []) /\ length l <= 50 /\ (rc_rho c <> None -> l = []);
  tr_nfesig : rs_nfesig s' + length (rs_rcalls s) = rs_nfesig s + length (rs_rcalls s');
  tr_first : absh = None -> exists a v1 v2 p, rkc_init_step c (rs_sprad s') (rs_t s) (rs_yn s) (rs_fn s) = inl (a, v1, v2, p) /\ In p (rs_calls s');
  tr_m : (m <= rc_mmax c)%Z; tr_maxm : rs_maxm s' = Z.max m (rs_maxm s) }.

Lemma trial_gen c s absh y : 
  match rkc_trial EL c s absh y with
  | RFail s' msg => trial_eff c s s' /\ (rs_nrejct s' = rs_nrejct s \/ rs_nrejct s' = S (rs_nrejct s))
  | RRaise _ => True
  | RReject s' a y' => exists m, trial_run c s absh s' m /\ rs_nrejct s' = S (rs_nrejct s) /\ rs_newspc s' = negb (rs_jacatt s') /\ rs_absh s' = Some a
  | RAccept s' h a hmin err y' => exists m, trial_run c s absh s' m /\ rs_nrejct s' = rs_nrejct s /\ rs_absh s' = rs_absh s /\ h = nmul A (rc_dir c) a /\ rs_v1 s' = rc_fun c (nadd A (rs_t s) h) y'
  end.
Proof.
  unfold rkc_trial. destruct (rkc_sprad c s) as [s1 ok] eqn:ES. pose proof (sprad_gen _ _ _ _ ES) as P. destruct ok; cbn [negb].
  2: { split; [constructor; [apply P|rewrite (se_nrho _ _ _ _ P); reflexivity]|left; apply P]. }
  destruct (rkc_first c s1 absh) as [[a s2]|e] eqn:EF; [|exact I]. pose proof (first_gen _ _ _ _ _ EF) as Q.
  destruct (rkc_select EL c (rs_sprad s2) (rs_t s2) a) as [[[m a1] lim]|e] eqn:EM; [|exact I]. destruct (select_gen _ _ _ _ _ _ _ EM) as [M1 _].
  cbv zeta.
  destruct (rkc_stages EL (rc_fun c) (rs_t s2) (rs_yn s2) (rs_fn s2) (rc_dir c * a1)%num m y (rs_calls s2)) as [[[[y' yj1] v2] cl]|e] eqn:EG; [|exact I].
  assert (CL : exists l, cl = rs_calls s2 ++ l /\ length l = Z.to_nat (m - 1)).
  { unfold rkc_stages in EG. destruct (rkc_w1 EL m); [|discriminate]. eapply stages_calls; exact EG. }
  destruct CL as (l & -> & L). pose proof (sb_trans _ _ _ (se_base _ _ _ _ P) (fe_base _ _ _ Q)) as B.
  assert (CC : exists l0 : list (num * list num), forall p, (rs_calls s2 ++ l) ++ [p] = rs_calls s ++ l0 ++ [p] /\ length (l0 ++ [p]) = (match absh with None => 1 | Some _ => 0 end) + Z.to_nat (m - 1) + 1).
  { destruct (fe_calls _ _ _ Q) as (l2 & E2 & L2). exists (l2 ++ l). intros p. rewrite E2, (se_calls _ _ _ _ P), <- !app_assoc. split; [reflexivity|]. rewrite !app_length. cbn [length]. lia. }
  destruct CC as (l0 & CC).
  assert (RUN : forall s', same_base s2 s' -> rs_nrho s' = rs_nrho s2 -> rs_jacatt s' = rs_jacatt s2 -> rs_calls s' = (rs_calls s2 ++ l) ++ [((rs_t s2 + rc_dir c * a1)%num, y')] -> rs_rcalls s' = rs_rcalls s2 -> rs_nfesig s' = rs_nfesig s2 -> rs_maxm s' = Z.max m (rs_maxm s2) -> rs_sprad s' = rs_sprad s2 -> trial_run c s absh s' m).
  { intros s' B' N' J' C' R' F' X' SP'. constructor.
    - constructor; [eapply sb_trans; eassumption|]. rewrite N', (fe_nrho _ _ _ Q). apply P.
    - rewrite J', (fe_jacatt _ _ _ Q). apply P. reflexivity.
    - rewrite C'. eexists. apply CC.
    - rewrite R', (fe_rcalls _ _ _ Q). destruct (se_rcalls _ _ _ _ P) as (l4 & Z1 & Z2 & Z3 & Z4 & _). exists l4; auto.
    - rewrite R', F', (fe_rcalls _ _ _ Q), (fe_nfesig _ _ _ Q). apply P.
    - intros HA. destruct (fe_first _ _ _ Q _ _ EF HA) as (w1 & w2 & p & E4 & I4). exists a, w1, w2, p. rewrite SP', (fe_sprad _ _ _ Q). rewrite (sb_t _ _ (se_base _ _ _ _ P)), (sb_yn _ _ (se_base _ _ _ _ P)), (sb_fn _ _ (se_base _ _ _ _ P)) in E4. split; [exact E4|]. rewrite C'. rewrite <- app_assoc. apply in_or_app. left. exact I4.
    - exact M1.
    - rewrite X', (fe_maxm _ _ _ Q), (se_maxm _ _ _ _ P). reflexivity. }
  destruct (rkc_err _ _ _ _ _ _ <? n1)%num eqn:E1.
  - exists m. split; [apply RUN; try reflexivity; constructor; reflexivity|]. cbn. split; [rewrite (fe_nrejct _ _ _ Q); apply P|]. split; [rewrite (fe_absh _ _ _ Q); apply P|]. split; [reflexivity|]. rewrite (sb_t _ _ B). reflexivity.
  - destruct (nisnan A _ || nisinf A _).
    + split; [constructor|left].
      * eapply sb_trans; [exact B|]. constructor; reflexivity.
      * cbn. rewrite (fe_nrho _ _ _ Q). apply P.
      * cbn. rewrite (fe_nrejct _ _ _ Q). apply P.
    + match goal with |- context [if ?b then RFail _ rkc_toosmall else _] => destruct b end.
      * split; [constructor|right].
        -- eapply sb_trans; [exact B|]. constructor; reflexivity.
        -- cbn. rewrite (fe_nrho _ _ _ Q). apply P.
        -- cbn. rewrite (fe_nrejct _ _ _ Q), (se_nrejct _ _ _ _ P). reflexivity.
      * exists m. split; [apply RUN; try reflexivity; constructor; reflexivity|]. cbn. rewrite (fe_nrejct _ _ _ Q), (se_nrejct _ _ _ _ P). auto.
Qed.

(** ** the loop *)
Definition at_most (s s' : RkcSt A) : Prop :=
  rs_nrejct s <= rs_nrejct s' /\
  rs_nrho s' <= rs_nrho s + (if rs_jacatt s then (if rs_newspc s then 1 else 0) else 1) /\
  rs_nrho s' + rs_nrejct s <= rs_nrho s + (if rs_newspc s then 1 else 0) + rs_nrejct s'.
Lemma loop_gen c : forall fuel s absh y, (rs_newspc s = true -> rs_jacatt s = false) ->
  match rkc_loop EL fuel c s absh y with
  | IFail s' msg => same_base s s' /\ at_most s s'
  | IDone s' => exists s2 h a hmin err y', s' = rkc_finish c s2 h a hmin err y' /\ same_base s s2 /\ at_most s s2 /\
      rs_nrho s2 >= rs_nrho s + (if rs_newspc s then 1 else 0) /\ h = nmul A (rc_dir c) a /\ rs_v1 s2 = rc_fun c (nadd A (rs_t s) h) y'
  | _ => True
  end.
Proof.
  unfold at_most. induction fuel as [|fuel IH]; intros s absh y HN; cbn [rkc_loop]; [exact I|].
  pose proof (trial_gen c s absh y) as T. destruct (rkc_trial EL c s absh y) as [s1 msg|e|s1 a1 y1|s1 h a hm er y1].
  - destruct T as ([B N] & R). split; [exact B|]. split; [lia|]. rewrite N. destruct (rs_newspc s), (rs_jacatt s); lia.
  - exact I.
  - destruct T as (m & [[B N] J _ _ _ _ _ _] & R & W & _). specialize (IH s1 (Some a1) y1).
    assert (HN1 : rs_newspc s1 = true -> rs_jacatt s1 = false) by (rewrite W; destruct (rs_jacatt s1); auto; discriminate).
    specialize (IH HN1). rewrite W in IH. rewrite J, N, R in IH.
    destruct (rkc_loop EL fuel c s1 (Some a1) y1) as [s'|s' msg|e|]; auto.
    + destruct IH as (s2 & h & a & hm & er & y' & -> & B2 & A2 & G & E1 & E2). exists s2, h, a, hm, er, y'. split; [reflexivity|]. split; [eapply sb_trans; eassumption|].
      rewrite (sb_t _ _ B) in E2. split; [|split; [|auto]].
      * destruct (rs_newspc s) eqn:X, (rs_jacatt s) eqn:Y; cbn [orb negb] in *; try (specialize (HN eq_refl); discriminate); lia.
      * destruct (rs_newspc s) eqn:X, (rs_jacatt s) eqn:Y; cbn [orb negb] in *; lia.
    + destruct IH as (B2 & A2). split; [eapply sb_trans; eassumption|].
      destruct (rs_newspc s) eqn:X, (rs_jacatt s) eqn:Y; cbn [orb negb] in *; try (specialize (HN eq_refl); discriminate); lia.
  - destruct T as (m & [[B N] J _ _ _ _ _ _] & R & _ & E1 & E2). exists s1, h, a, hm, er, y1. split; [reflexivity|]. split; [exact B|]. rewrite N, R.
    split; [|split; [|auto]]; destruct (rs_newspc s), (rs_jacatt s); cbn [orb negb] in *; lia.
Qed.

(** ** histories *)
Definition rkc_call (c : RkcCfg A) (fuel : nat) (v : OSolver A (RkcSt A)) := rkc_step EL c fuel v.
Definition rkc_hist (c : RkcCfg A) := ohist rkc_view (rc_tb c) (rc_dir c) (rkc_step_impl EL c).

(** at every step boundary *)
Record rkc_inv (c : RkcCfg A) (n : nat) (s : RkcSt A) : Prop := {
  ri_yn : rs_yn s = rs_y s;
  ri_fn : rs_fn s = rc_fun c (rs_t s) (rs_y s);
  ri_nst : rs_nstsig s = n mod 25;
  ri_jacatt : rs_jacatt s = (rc_const_jac c && negb (n =? 0))%bool;
  ri_newspc : rs_newspc s = ((n =? 0) || (match rc_rho c with Some _ => true | None => (n mod 25 =? 0) end && negb (rc_const_jac c)))%bool;
  ri_nrho : rs_nrho s <= n;
  ri_const : rc_const_jac c = true -> rs_nrho s <= 1;
  ri_est : rc_rho c = None -> rs_nrho s <= (n + 24) / 25 + rs_nrejct s }.

Lemma init_gen o f t0 y0 tb c s : rkc_init EL o f t0 y0 tb = inl (c, s) -> rkc_inv c 0 s /\ rc_fun c = f /\ rs_t s = t0 /\ rs_y s = y0 /\ rc_tb c = tb /\ rc_rho c = ro_rho o /\ (2 <= rc_mmax c)%Z /\ ro_const_jac o = Some (rc_const_jac c).
Proof.
  unfold rkc_init. destruct (match ro_first_step o with None => _ | _ => _ end) as [ab|]; [|discriminate].
  destruct (ro_const_jac o) as [cj|]; [|discriminate].
  destruct (match ro_rho o with None => _ | _ => _ end) as [[]|]; [|discriminate].
  destruct (ro_max_step o <=? n0)%num; [discriminate|]. destruct (validate_tol _ _ _ _) as [[rt at_]|]; [|discriminate].
  destruct (msqrt _) as [q|]; [|discriminate]. destruct (el_round EL q) as [mm|]; [|discriminate].
  intros H. injection H as <- <-. split; [|cbn; repeat split; lia]. constructor; cbn; auto; try lia.
Qed.

Lemma mod25_S n : S (n mod 25) mod 25 = S n mod 25.
Proof. replace (S (n mod 25)) with (n mod 25 + 1) by lia. rewrite Nat.add_mod_idemp_l by lia. f_equal. lia. Qed.
Lemma ceil_S n : (S n + 24) / 25 = (n + 24) / 25 + (if n mod 25 =? 0 then 1 else 0).
Proof.
  pose proof (Nat.div_mod n 25 ltac:(lia)) as D. pose proof (Nat.mod_upper_bound n 25 ltac:(lia)) as U.
  destruct (Nat.eqb_spec (n mod 25) 0) as [E|E].
  - rewrite <- (Nat.div_unique (S n + 24) 25 (n / 25 + 1) 0) by lia. rewrite <- (Nat.div_unique (n + 24) 25 (n / 25) 24) by lia. lia.
  - rewrite <- (Nat.div_unique (S n + 24) 25 (n / 25 + 1) (n mod 25)) by lia. rewrite <- (Nat.div_unique (n + 24) 25 (n / 25 + 1) (n mod 25 - 1)) by lia. lia.
Qed.

Lemma rkc_inv_J c n s : rkc_inv c n s -> rs_newspc s = true -> rs_jacatt s = false.
Proof. intros I. rewrite (ri_newspc _ _ _ I), (ri_jacatt _ _ _ I). destruct (n =? 0), (rc_const_jac c), (rc_rho c), (n mod 25 =? 0); cbn; auto. Qed.

Lemma finish_inv c n s s2 h a hm er y' : rkc_inv c n s -> same_base s s2 -> at_most s s2 -> rs_nrho s2 >= rs_nrho s + (if rs_newspc s then 1 else 0) ->
  rs_v1 s2 = rc_fun c (nadd A (rs_t s) h) y' -> rkc_inv c (S n) (rkc_finish c s2 h a hm er y').
Proof.
  intros I B (A1 & A2 & A3) G E. pose proof (rkc_inv_J _ _ _ I) as NJ. destruct I. constructor; cbn [rkc_finish rs_t rs_y rs_absh rs_hold rs_errold rs_yn rs_fn rs_v1 rs_v2 rs_V rs_nstsig rs_mlim rs_newspc rs_jacatt rs_sprad rs_nrejct rs_maxm rs_nfesig rs_calls rs_rcalls rs_nrho rs_notes].
  - reflexivity.
  - rewrite (sb_t _ _ B). exact E.
  - rewrite (sb_nst _ _ B), ri_nst0. apply mod25_S.
  - cbn. rewrite andb_true_r. reflexivity.
  - rewrite (sb_nst _ _ B), ri_nst0, mod25_S. cbn. destruct (rc_rho c); reflexivity.
  - destruct (rs_jacatt s), (rs_newspc s); lia.
  - intros C. specialize (ri_const0 C). rewrite C in *. destruct (Nat.eqb_spec n 0) as [->|N]; cbn [andb orb negb] in *.
    + destruct (rs_jacatt s), (rs_newspc s); lia.
    + rewrite ri_jacatt0, ri_newspc0 in A2. destruct (rc_rho c); cbn in A2; rewrite ?andb_false_r in A2; lia.
  - intros C. specialize (ri_est0 C). rewrite C in *. rewrite ceil_S. rewrite ri_newspc0 in A3. 
    destruct (Nat.eqb_spec n 0) as [->|N]; [change (0 mod 25 =? 0) with true; cbn [orb] in A3; cbv iota in *; lia|]. cbn [orb] in A3. destruct (n mod 25 =? 0), (rc_const_jac c); cbn in A3; lia.
Qed.

(** [n] counts the accepted steps *)
Theorem hist_gen c v0 n v : rkc_inv c 0 (ost v0) -> ostat v0 = ORunning -> rkc_hist c v0 n v ->
  (ostat v = ORunning -> rkc_inv c n (ost v)) /\
  rs_nrho (ost v) <= n /\ (rc_const_jac c = true -> rs_nrho (ost v) <= 1) /\
  (rc_rho c = None -> rs_nrho (ost v) <= (n + 24) / 25 + rs_nrejct (ost v)) /\
  rs_yn (ost v) = rs_y (ost v) /\ (ostat v <> OFinished -> rs_fn (ost v) = rc_fun c (rs_t (ost v)) (rs_y (ost v))).
Proof.
  intros I0 R0 H. induction H as [v|v n v1 v2 k H IH HS].
  - destruct I0. repeat split; auto; lia.
  - destruct (IH I0 R0) as (IH1 & _). unfold ostep in HS. destruct (ostat v1) eqn:S1; try discriminate. specialize (IH1 eq_refl).
    destruct (_ || _).
    { injection HS as <-. cbn [ost ostat rkc_view v_set_t v_t]. cbn [rs_nrho rs_yn rs_y rs_nrejct rs_fn rs_t]. destruct IH1. repeat split; auto; try lia; try discriminate; try congruence.
      intros C. specialize (ri_est0 C). rewrite ceil_S. lia. }
    unfold rkc_step_impl in HS. pose proof (loop_gen c k (ost v1) (rs_absh (ost v1)) (rs_y (ost v1)) (rkc_inv_J _ _ _ IH1)) as L.
    destruct (rkc_loop EL k c (ost v1) (rs_absh (ost v1)) (rs_y (ost v1))) as [s'|s' msg|e|] eqn:EL1; try discriminate; injection HS as <-; cbn [ost ostat].
    + destruct L as (s2 & h & a & hm & er & y' & -> & B & A1 & G & E1 & E2). pose proof (finish_inv c n _ _ h a hm er y' IH1 B A1 G E2) as I2.
      destruct I2. repeat split; auto. 
    + destruct L as (B & A1 & A2 & A3). destruct IH1 as [Y F N J W R C E]. rewrite (sb_yn _ _ B), (sb_fn _ _ B), (sb_y _ _ B), (sb_t _ _ B).
      repeat split; auto; try discriminate.
      * destruct (rs_jacatt (ost v1)), (rs_newspc (ost v1)); lia.
      * intros HC. specialize (C HC). rewrite HC in *. destruct (Nat.eqb_spec n 0) as [->|X]; cbn [andb orb negb] in *.
        -- destruct (rs_jacatt (ost v1)), (rs_newspc (ost v1)); lia.
        -- rewrite J, W in A2. destruct (rc_rho c); cbn in A2; rewrite ?andb_false_r in A2; lia.
      * intros HC. specialize (E HC). rewrite HC in *. rewrite ceil_S. rewrite W in A3.
        destruct (Nat.eqb_spec n 0) as [->|X]; [change (0 mod 25 =? 0) with true; cbn [orb] in A3; cbv iota in *; lia|]. cbn [orb] in A3. destruct (n mod 25 =? 0), (rc_const_jac c); cbn in A3; lia.
Qed.
End Gen.
