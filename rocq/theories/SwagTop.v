(** Steps and histories of SWAG for every arithmetic. *)
From Coq Require Import String ZArith QArith Bool Lia List Arith.
From Verif Require Import Arith Common Stiff RK HStart RKInit Ode Swag SwagArr SwagCo SwagGen.
Import ListNotations.
Open Scope nat_scope.

Section Top.
Context {A : Arith}.
Notation num := (num A).
Notation vec := (list num).
Notation cell l i := (nth i l (@n0 A)).
Notation col l i := (nth i l (@nil num)).

(** rejected trials of one step: from trial number i with state s to trial i' with s' *)
Inductive rejects (c : SCfg A) (ms : num) : SSt A -> nat -> SSt A -> nat -> Prop :=
| rj0 s i : rejects c ms s i s i
| rjS s i s1 s' i' : swag_trial c s i ms = inl (SAgain s1) -> rejects c ms s1 (S i) s' i' -> rejects c ms s i s' i'.

Lemma trial_again c s i ms s1 : kmax_ok c -> sinv c s -> swag_trial c s i ms = inl (SAgain s1) ->
  exists co phi p yp wt e knew co' phi', trial_data c s co phi p yp wt e knew /\ nleb A (err e) sw_eps = false /\ restore_spec co phi (s_k s) (s_h s) co' phi' /\
    s1 = rejected s co' phi' p yp wt e knew i /\ sinv c s1 /\ nltb A (nabs A (s_h s1)) ms = false.
Proof.
  intros HK HI E. destruct (swag_trial_ok c s i ms HK HI) as (co & phi & p & yp & wt & e & knew & TD & [(_ & s' & E' & _)|(B & co' & phi' & RS & SI & E')]).
  - rewrite E in E'. discriminate.
  - rewrite E in E'. exists co, phi, p, yp, wt, e, knew, co', phi'. destruct (nltb A _ ms) eqn:EB; [discriminate|]. injection E' as ->. auto 10.
Qed.
Lemma trial_accept c s i ms s1 : kmax_ok c -> sinv c s -> swag_trial c s i ms = inl (SAccept s1) ->
  exists co phi p yp wt e knew, trial_data c s co phi p yp wt e knew /\ nleb A (err e) sw_eps = true /\ sinv c s1 /\
    accept_spec c s co phi p yp wt (s_k s) (nadd A (s_t s) (s_h s)) (s_h s) (s_calls s ++ [(nadd A (s_t s) (s_h s), p)]) s1 /\ stepped c s knew ms e wt s1.
Proof.
  intros HK HI E. destruct (swag_trial_ok c s i ms HK HI) as (co & phi & p & yp & wt & e & knew & TD & [(B & s' & E' & SI & AS & ST)|(_ & co' & phi' & RS & SI & E')]).
  - rewrite E in E'. injection E' as <-. exists co, phi, p, yp, wt, e, knew. auto.
  - rewrite E in E'. destruct (nltb A _ ms); discriminate.
Qed.
Lemma trial_small c s i ms s1 : kmax_ok c -> sinv c s -> swag_trial c s i ms = inl (STooSmall s1) ->
  exists co phi p yp wt e knew co' phi', trial_data c s co phi p yp wt e knew /\ nleb A (err e) sw_eps = false /\ restore_spec co phi (s_k s) (s_h s) co' phi' /\
    s1 = rejected s co' phi' p yp wt e knew i /\ nltb A (nabs A (s_h s1)) ms = true.
Proof.
  intros HK HI E. destruct (swag_trial_ok c s i ms HK HI) as (co & phi & p & yp & wt & e & knew & TD & [(_ & s' & E' & _)|(B & co' & phi' & RS & SI & E')]).
  - rewrite E in E'. discriminate.
  - rewrite E in E'. exists co, phi, p, yp, wt, e, knew, co', phi'. destruct (nltb A _ ms) eqn:EB; [|discriminate]. injection E' as ->. auto 10.
Qed.

Lemma rejects_inv c ms s i s' i' : kmax_ok c -> rejects c ms s i s' i' -> sinv c s -> sinv c s'.
Proof. intros HK H. induction H as [|s i s1 s' i' E H IH]; intros I; [exact I|]. destruct (trial_again _ _ _ _ _ HK I E) as (? & ? & ? & ? & ? & ? & ? & ? & ? & _ & _ & _ & _ & X & _). auto. Qed.
Lemma rejects_trans c ms s i s1 i1 s2 : rejects c ms s i s1 i1 -> swag_trial c s1 i1 ms = inl (SAgain s2) -> rejects c ms s i s2 (S i1).
Proof. intros H. induction H as [|s i s1 s' i' E H IH]; intros E2; [eapply rjS; [exact E2|apply rj0]|eapply rjS; [exact E|auto]]. Qed.

(** what a rejected trial leaves alone, and the orders tried *)
Lemma rejects_frame c ms s i s' i' : kmax_ok c -> rejects c ms s i s' i' -> sinv c s ->
  s_t s' = s_t s /\ s_y s' = s_y s /\ s_yold s' = s_yold s /\ s_hold s' = s_hold s /\ s_kold s' = s_kold s /\ s_nfs s' + i = s_nfs s + i' /\ i <= i' /\
  s_kle4 s' = s_kle4 s /\ s_notes s' = s_notes s.
Proof.
  intros HK H. induction H as [|s i s1 s' i' E H IH]; intros I; [repeat split; lia|].
  destruct (trial_again _ _ _ _ _ HK I E) as (co & phi & p & yp & wt & e & knew & co' & phi' & _ & _ & _ & -> & X & _).
  specialize (IH X). unfold rejected in IH. cbn [s_t s_y s_yold s_hold s_kold s_nfs s_kle4 s_notes] in IH. destruct IH as (A1 & A2 & A3 & A4 & A5 & A6 & A7 & A8 & A9). repeat split; try assumption; lia.
Qed.
Lemma rejects_order c ms s i s' i' : kmax_ok c -> rejects c ms s i s' i' -> sinv c s ->
  1 <= s_k s' <= s_k s /\ s_k s <= s_k s' + (if 3 <=? i' then s_k s else i' - i) /\ (i < i' -> 3 <= i' -> s_k s' = 1).
Proof.
  intros HK H. induction H as [s i|s i s1 s' i' E H IH]; intros I.
  - destruct (si_co _ _ I) as (_ & Hk & _). repeat split; lia.
  - destruct (trial_again _ _ _ _ _ HK I E) as (co & phi & p & yp & wt & e & knew & co' & phi' & TD & _ & _ & Es & X & _).
    specialize (IH X). pose proof (rejects_frame _ _ _ _ _ _ HK H X) as (_ & _ & _ & _ & _ & _ & Hle & _).
    destruct (si_co _ _ X) as (_ & Hk1 & _). destruct (si_co _ _ I) as (_ & Hk & _).
    assert (E1 : s_k s1 = retry_k (S i) knew) by (rewrite Es; reflexivity). destruct (td_knew _ _ _ _ _ _ _ _ _ TD) as (_ & Kn & _). unfold retry_k in E1.
    destruct (Nat.leb_spec 3 (S i)) as [T|T]; destruct (Nat.leb_spec 3 i') as [T2|T2]; try lia.
Qed.

Lemma loop_cases c s0 ms : kmax_ok c -> forall fuel s i, sinv c s ->
  swag_loop fuel c s0 s i ms = IFuel \/
  (exists s1 i1 s', rejects c ms s i s1 i1 /\ swag_trial c s1 i1 ms = inl (SAccept s') /\ swag_loop fuel c s0 s i ms = IDone s') \/
  (exists s1 i1 s', rejects c ms s i s1 i1 /\ swag_trial c s1 i1 ms = inl (STooSmall s') /\ swag_loop fuel c s0 s i ms = IFail (swag_abort s0 s') too_small_step).
Proof.
  intros HK. induction fuel as [|fuel IH]; intros s i I; [left; reflexivity|]. cbn [swag_loop].
  destruct (swag_trial_ok c s i ms HK I) as (co & phi & p & yp & wt & e & knew & TD & [(B & s' & E & SI & AS & ST)|(B & co' & phi' & RS & SI & E)]).
  - rewrite E. right. left. exists s, i, s'. split; [constructor|auto].
  - cbv zeta in E. rewrite E. destruct (nltb A _ ms).
    + right. right. eexists s, i, _. split; [constructor|]. split; [exact E|reflexivity].
    + destruct (IH _ (S i) SI) as [H|[(s1 & i1 & s' & R & T & H)|(s1 & i1 & s' & R & T & H)]]; rewrite H.
      * left. reflexivity.
      * right. left. exists s1, i1, s'. split; [econstructor; [exact E|exact R]|auto].
      * right. right. exists s1, i1, s'. split; [econstructor; [exact E|exact R]|auto].
Qed.

(** the state with which the loop starts *)
Definition started (c : SCfg A) (s : SSt A) (h : num) : SSt A := let '(kle, nt) := kle4_step c s in sw_set s (s_t s) (s_y s) (s_y s) h (s_kold s) kle nt.
Lemma started_inv c s h : sinv c s -> sinv c (started c s h).
Proof. intros [I1 I2]. unfold started. destruct (kle4_step c s). constructor; assumption. Qed.
Definition min_step (s : SSt A) : num := nmul A sw_fouru (nabs A (s_t s)).
Definition extrapolated (c : SCfg A) (s : SSt A) : SSt A :=
  let d := nsub A (s_tb c) (s_t s) in let '(kle, nt) := kle4_step c s in
  sw_set s (s_tb c) (vadd (s_y s) (vscale d (s_yp s))) (s_y s) (s_h s) 0 kle nt.

Lemma step_cases c s fuel : kmax_ok c -> sinv c s ->
  (nleb A (nabs A (nsub A (s_tb c) (s_t s))) (min_step s) = true /\ swag_step fuel c s = IDone (extrapolated c s)) \/
  (nleb A (nabs A (nsub A (s_tb c) (s_t s))) (min_step s) = false /\
   ((exists msg, swag_step fuel c s = IFail (started c s (s_h s)) msg) \/
    (nltb A (nabs A (trial_h c s)) (min_step s) = false /\
     (swag_step fuel c s = IFuel \/
      (exists s1 i1 s', rejects c (min_step s) (started c s (trial_h c s)) 0 s1 i1 /\ swag_trial c s1 i1 (min_step s) = inl (SAccept s') /\ swag_step fuel c s = IDone s') \/
      (exists s1 i1 s', rejects c (min_step s) (started c s (trial_h c s)) 0 s1 i1 /\ swag_trial c s1 i1 (min_step s) = inl (STooSmall s') /\ swag_step fuel c s = IFail (swag_abort (started c s (s_h s)) s') too_small_step))))).
Proof.
  intros HK HI. unfold swag_step. fold (min_step s). unfold extrapolated, started. destruct (kle4_step c s) as (kle & nt) eqn:EK. cbv zeta.
  destruct (nleb A (nabs A (nsub A (s_tb c) (s_t s))) (min_step s)) eqn:E1; [left; auto|]. right. split; [reflexivity|].
  destruct (nltb A (nabs A (trial_h c s)) (min_step s)) eqn:E2; [left; eexists; reflexivity|].
  destruct (nltb A sw_p5eps _) eqn:E3; [left; eexists; reflexivity|]. right. split; [reflexivity|].
  apply loop_cases; [exact HK|]. pose proof (started_inv c s (trial_h c s) HI) as X. unfold started in X. rewrite EK in X. exact X.
Qed.

(** *** construction *)
Lemma init_inv o j fun_ t0 y0 tb c s : swag_init o j fun_ t0 y0 tb = inl (c, s) -> junk_ok (Z.to_nat (so_kmax o)) (length y0) j ->
  kmax_ok c /\ sinv c s /\ s_kmax c = Z.to_nat (so_kmax o) /\ s_fn c = fun_ /\ s_tb c = tb /\ s_dir c = direction0 t0 tb /\ s_max c = so_max o /\
  s_t s = t0 /\ s_y s = y0 /\ s_hold s = n0 /\ s_k s = 1 /\ s_kold s = 0 /\ s_yp s = fun_ t0 y0 /\ col (s_phi s) 0 = fun_ t0 y0 /\ ns (s_co s) = 0 /\ s_phase1 s = true /\
  (forall x, In x (s_phi s) -> length x = length y0 \/ x = fun_ t0 y0) /\ cell (sig (s_co s)) 0 = n1.
Proof.
  unfold swag_init. intros E (J1 & J1b & J2 & J3 & J4 & J5 & J6 & J7 & J8 & J9).
  destruct ((0 <? so_kmax o)%Z && (so_kmax o <? 13)%Z) eqn:EK; [|discriminate]. cbn [negb] in E. apply andb_prop in EK. destruct EK as [K1 K2]. apply Z.ltb_lt in K1. apply Z.ltb_lt in K2.
  set (km := Z.to_nat (so_kmax o)) in *. assert (Hkm : 1 <= km <= 12) by lia.
  destruct (nleb A (so_max o) n0); [discriminate|].
  destruct (validate_tol _ _ _ _) as [[rt at']|]; [|discriminate].
  match type of E with match ?X with _ => _ end = _ => destruct X as [[h cl]|] eqn:EF; [|discriminate] end.
  cbv zeta in E.
  rewrite (aset_ok (e_phi j)) in E by lia. rewrite aset_ok in E by (rewrite len_upd; lia). rewrite (aset_ok (e_sig j)) in E by lia. rewrite (aset_ok (e_g j)) in E by lia. rewrite aset_ok in E by (rewrite len_upd; lia).
  injection E as <- <-. cbn [s_kmax s_fn s_tb s_dir s_max s_t s_y s_hold s_k s_kold s_yp s_phi s_co s_phase1 ns sig].
  split; [exact Hkm|]. split.
  { constructor; cbn [s_co s_k s_kold s_phi s_kmax].
    - split; [|split; [lia|left; reflexivity]]. split.
      + constructor; cbn [psi alpha beta sig gg iv kprev ns vv ww gi ivc kgi]; try assumption; rewrite ?len_upd, ?repeat_length; rewrite ?len_upd; lia.
      + cbn [gg]. rewrite !nth_upd by (rewrite ?len_upd; lia). split; reflexivity.
    - rewrite !len_upd; rewrite ?len_upd; lia. }
  do 11 (split; [reflexivity|]). split; [rewrite !nth_upd by (rewrite ?len_upd; lia); reflexivity|]. split; [reflexivity|]. split; [reflexivity|]. split.
  - assert (UP : forall (l : list vec) i v x, In x (upd l i v) -> In x l \/ x = v).
    { intros l i v x. unfold upd. intros H. apply in_app_or in H. destruct H as [H|[H|H]]; [left; rewrite <- (firstn_skipn i l); apply in_or_app; auto|right; auto|left; rewrite <- (firstn_skipn (S i) l); apply in_or_app; auto]. }
    intros x H. apply UP in H. destruct H as [H| ->]; [|left; apply map_length]. apply UP in H. destruct H as [H| ->]; [left; apply J1b; exact H|right; reflexivity].
  - rewrite nth_upd by lia. reflexivity.
Qed.

(** *** histories *)
Definition finite_bound (c : SCfg A) : Prop := nleb A n0 (nmul A (s_dir c) (nsub A (s_tb c) (s_tb c))) = true.
Definition vinv (c : SCfg A) (v : OSolver A (SSt A)) : Prop :=
  1 <= s_k (ost v) <= s_kmax c /\ (ostat v = ORunning -> sinv c (ost v)).
Definition swag_hist (c : SCfg A) := ohist (S := SSt A) sw_view (s_tb c) (s_dir c) (swag_impl c).
Definition swag_call (c : SCfg A) (fuel : nat) := ostep (S := SSt A) sw_view (s_tb c) (s_dir c) (swag_impl c fuel).

Lemma call_inv c fuel v v' : kmax_ok c -> finite_bound c -> vinv c v -> swag_call c fuel v = OOk v' -> vinv c v'.
Proof.
  intros HK HF [V1 V2] E. unfold swag_call, ostep in E. destruct (ostat v); try discriminate. specialize (V2 eq_refl).
  destruct (_ || _).
  { injection E as <-. split; [exact V1|]. cbn [ostat]. discriminate. }
  unfold swag_impl in E. destruct (step_cases c (ost v) fuel HK V2) as [(B & S)|(B & [(msg & S)|(_ & [S|[(s1 & i1 & s' & R & T & S)|(s1 & i1 & s' & R & T & S)]])])]; rewrite S in E; try discriminate.
  - injection E as <-. unfold vinv. cbn [ost ostat]. unfold extrapolated. destruct (kle4_step c (ost v)). cbn [v_t sw_view s_t sw_set s_k]. split; [exact V1|]. rewrite HF. discriminate.
  - injection E as <-. unfold vinv. cbn [ost ostat]. unfold started. destruct (kle4_step c (ost v)). split; [exact V1|discriminate].
  - injection E as <-. pose proof (rejects_inv _ _ _ _ _ _ HK R (started_inv _ _ _ V2)) as I1. destruct (trial_accept _ _ _ _ _ HK I1 T) as (? & ? & ? & ? & ? & ? & ? & _ & _ & I2 & _). unfold vinv. cbn [ost ostat]. split; [|auto]. destruct (si_co _ _ I2) as (_ & X & _). exact X.
  - injection E as <-. unfold vinv. cbn [ost ostat]. split; [|discriminate]. unfold swag_abort, started. destruct (kle4_step c (ost v)). exact V1.
Qed.
Lemma hist_inv c v n v' : kmax_ok c -> finite_bound c -> vinv c v -> swag_hist c v n v' -> vinv c v'.
Proof. intros HK HF V H. induction H as [|v n v1 v2 k H IH E]; [exact V|]. exact (call_inv c k v1 v2 HK HF (IH V) E). Qed.
Lemma new_inv c s : kmax_ok c -> sinv c s -> vinv c (onew s).
Proof. intros HK I. split; [destruct (si_co _ _ I) as (_ & X & _); exact X|auto]. Qed.
End Top.
