(** The step loop of the explicit solvers follows the controller of SpecCtl.v. *)
From Coq Require Import String ZArith QArith Bool List Lia.
From Verif Require Import Arith Common RK RKInit SpecRK RKGen RKHist RKSpecProofs RKTop SpecCtl.
Import ListNotations.
Close Scope string_scope.
Open Scope nat_scope.

Section Ctl.
Context {A : Arith}.
Notation num := (num A).
Notation vec := (list num).

Definition lawful (c : Cfg A) (L : Law A) : Prop :=
  safety c = l_g L /\ safety_sc c = npow A (l_g L) (nadd A (l_kb1 L) (l_kb2 L)) /\ minbeta1 c = nmul A (l_kb1 L) (expo L) /\
  minbeta2 c = nmul A (l_kb2 L) (expo L) /\ minalpha c = nopp A (l_a L) /\ error_exponent c = expo L /\ min_factor c = lit (1#5).

Definition plan_of (p : Plan A) (s : St A) : Prop :=
  size p = h_abs s /\ cap p = max_factor s /\
  (if standard_sc s then past p = None else exists h e, h_previous s = Some h /\ error_norm_old s = Some e /\ past p = Some (h, e)).

(** errors of trials in terms of the method *)
Definition mfull (m : Meth A) (c : Cfg A) (s : St A) (h e : num) : Prop :=
  exists Ks, full_stages m c (t s) (y s) (f s) h Ks /\
    let yn := m_sol m (y s) h Ks in e = err_norm c (y s) yn (m_err m h (if m_fsal m then Ks ++ [fn c (nadd A (t s) h) yn] else Ks)).
Definition mearly (m : Meth A) (c : Cfg A) (s : St A) (h e : num) : Prop :=
  exists est Ks k, m_pre m = Some est /\ full_stages m c (t s) (y s) (f s) h (Ks ++ [k]) /\
    e = err_norm c (y s) (fst (est (y s) h Ks)) (snd (est (y s) h Ks)).

Lemma stages_one (m : Meth A) g t y h K0 cl K1 cl1 : stages m g t y h 1 K0 cl = (K1, cl1) -> exists k, K1 = K0 ++ [k].
Proof. simpl. intros E. inversion E. eauto. Qed.

Lemma trial_reject m c s ha ms rej s' h' : min_stages m -> trial_step m c s ha ms rej = Reject s' h' ->
  exists e, h' = nmul A ha (reject_factor c e) /\ refusal (mfull m c s) (mearly m c s) (nmul A ha (direction c)) e.
Proof.
  intros Hmin. unfold trial_step.
  destruct (nltb A ha ms) eqn:Hsmall; [discriminate|].
  set (h := nmul A ha (direction c)).
  set (npre := match m_pre m with None => m_stages m - 1 | Some _ => m_stages m - 2 end).
  destruct (stages m (fn c) (t s) (y s) h npre [f s] (calls s)) as [K1 cl1] eqn:HS1.
  assert (HS2 : exists K2 cl2,
     (match m_pre m with None => (K1, cl1)
        | Some _ => stages m (fn c) (t s) (y s) h 1 K1 cl1 end) = (K2, cl2) /\
      full_stages m c (t s) (y s) (f s) h K2).
  { assert (HA : stages m (fn c) (t s) (y s) h (m_stages m - 1) [f s] (calls s) =
       match m_pre m with None => (K1, cl1)
        | Some _ => stages m (fn c) (t s) (y s) h 1 K1 cl1 end).
    { unfold npre, min_stages in *. destruct (m_pre m).
      - replace (m_stages m - 1) with ((m_stages m - 2) + 1) by lia.
        rewrite stages_app. rewrite HS1. reflexivity.
      - exact HS1. }
    rewrite <- HA.
    destruct (stages m (fn c) (t s) (y s) h (m_stages m - 1) [f s] (calls s)) as [K2 cl2] eqn:HS2.
    exists K2, cl2. split; [reflexivity|].
    apply stages_spec in HS2. simpl length in HS2. destruct HS2 as (HL2 & HF2 & HE2 & HC2).
    assert (Hs : 1 <= m_stages m) by (unfold min_stages in Hmin; destruct (m_pre m); lia).
    split; [lia|]. split.
    - rewrite (firstn_nth_agree [f s] K2 1 0 [] HF2); auto.
    - intros i Hi. apply HE2. lia. }
  destruct HS2 as (K2 & cl2 & HS2 & HFS).
  set (pre := match m_pre m with None => None | Some g =>
      let '(y_pre, err) := g (y s) h K1 in Some (err_norm c (y s) y_pre err) end).
  destruct (match pre with Some e => nltb A n1 e | None => false end) eqn:Hpre.
  - destruct (m_pre m) as [g|] eqn:Hm; [|unfold pre in Hpre; discriminate].
    unfold pre in *. destruct (g (y s) h K1) as [ypre err] eqn:Hg. intros E. inversion E; subst s' h'.
    eexists. split; [reflexivity|]. left. split; [|exact Hpre].
    destruct (stages_one _ _ _ _ _ _ _ _ _ HS2) as (k & Ek). exists g, K1, k. split; [exact Hm|]. rewrite <- Ek. split; [exact HFS|].
    rewrite Hg. reflexivity.
  - clear pre Hpre. rewrite HS2. unfold comp_sol_err.
    assert (HE : exists K3 cl3, (if m_fsal m then (K2 ++ [fn c (nadd A (t s) h) (m_sol m (y s) h K2)], cl2 ++ [(nadd A (t s) h, m_sol m (y s) h K2)]) else (K2, cl2)) = (K3, cl3)
       /\ K3 = if m_fsal m then K2 ++ [fn c (nadd A (t s) h) (m_sol m (y s) h K2)] else K2) by (destruct (m_fsal m); eauto).
    destruct HE as (K3 & cl3 & -> & EK3).
    set (e := err_norm c (y s) (m_sol m (y s) h K2) (m_err m h K3)).
    assert (HM : mfull m c s h e) by (exists K2; split; [exact HFS|]; unfold e; rewrite EK3; reflexivity).
    destruct (nltb A e n1) eqn:E1.
    + destruct (accept_factor c s (standard_sc s) h e); discriminate.
    + destruct (nisnan A e || nisinf A e) eqn:E2; [discriminate|]. intros E. inversion E. exists e. split; [reflexivity|]. right.
      apply orb_false_iff in E2. destruct E2. auto.
Qed.

Lemma same_full m c s s' h e : same_core s s' -> mfull m c s' h e -> mfull m c s h e.
Proof. intros (E1 & E2 & E3 & _) (Ks & H1 & H2). rewrite E1, E2, E3 in *. exists Ks. auto. Qed.
Lemma same_early m c s s' h e : same_core s s' -> mearly m c s' h e -> mearly m c s h e.
Proof. intros (E1 & E2 & E3 & _) (est & Ks & k & H1 & H2 & H3). rewrite E1, E2, E3 in *. exists est, Ks, k. auto. Qed.

Lemma lawful_reject c L ha e : lawful c L -> nmul A ha (reject_factor c e) = shrink L ha e.
Proof. intros (E1 & _ & _ & _ & _ & E2 & E3). unfold reject_factor, shrink, law1. rewrite E1, E2, E3. reflexivity. Qed.

Lemma loop_plan m c L fuel : min_stages m -> lawful c L -> forall s ha ms rej s' pst cap0,
  rk_loop fuel m c s ha ms rej = Done s' -> cap0 = max_factor s ->
  (if standard_sc s then pst = None else exists h e, h_previous s = Some h /\ error_norm_old s = Some e /\ pst = Some (h, e)) ->
  exists es h e, refused L (fun h e => refusal (mfull m c s) (mearly m c s) (nmul A h (direction c)) e) ha es h /\
    mfull m c s (nmul A h (direction c)) e /\ nltb A e n1 = true /\ t s' = nadd A (t s) (nmul A h (direction c)) /\ nfs s' = nfs s + length es /\
    plan_of (replan L (tiny_err c) cap0 pst (rej || match es with [] => false | _ => true end) h (nmul A h (direction c)) e) s'.
Proof.
  intros Hmin HL. induction fuel as [|fuel IH]; intros s ha ms rej s' pst cap0 H Hcap Hp; simpl in H; [discriminate|].
  pose proof (trial_inv m c s ha ms rej Hmin) as HT.
  destruct (trial_step m c s ha ms rej) as [s1 h h1 tn yn en|s1 h1|s1 msg|e] eqn:ET; try discriminate.
  - destruct HT as (H0 & HC & Hh & Ht & Hlt & Hn & _ & (Ks & HF & Hy & HK & He & _) & (fac & Hfac & Hh1 & Hmf)).
    destruct (finish_done m c s s1 h h1 tn yn en s' Ks HC HF Ht Hy HK He Hlt H) as (HA & Q1 & Q2 & Q3 & Q4 & _).
    exists [], ha, en. split; [constructor|]. rewrite <- Hh. split.
    { exists Ks. split; [exact HF|]. cbv zeta. rewrite <- Hy. rewrite <- Ht. rewrite He, HK. reflexivity. }
    split; [exact Hlt|]. split; [rewrite (ac_t _ _ _ _ _ _ _ HA); reflexivity|]. split; [simpl; lia|].
    rewrite orb_false_r.
    assert (EF : fac = (if nltb A en (tiny_err c) then cap0 else match pst with None => law1 L en
              | Some (h0, e0) => pymin cap0 (pymax (lit (1#5)) (law2 L en e0 (ndiv A h h0))) end)
              /\ standard_sc s1 = nltb A en (tiny_err c)).
    { destruct HL as (L1 & L2 & L3 & L4 & L5 & L6 & L7). unfold accept_factor in Hfac. rewrite <- Hcap in Hfac.
      destruct (nltb A en (tiny_err c)); [inversion Hfac; auto|]. destruct (standard_sc s).
      - subst pst. inversion Hfac. unfold law1. rewrite L1, L6. auto.
      - destruct Hp as (h0 & e0 & P1 & P2 & ->). rewrite P1, P2 in Hfac. inversion Hfac. unfold law2. rewrite L2, L3, L4, L5, L7. auto. }
    destruct EF as (EF & ES). unfold replan. rewrite <- EF. unfold plan_of. cbn [size past cap].
    split; [rewrite Q1, Hh1; reflexivity|]. split.
    { rewrite Q3. cbv zeta in Hmf. rewrite Hmf, Hcap. reflexivity. }
    rewrite Q2, ES. destruct (nltb A en (tiny_err c)); [reflexivity|].
    exists h, en. split; [exact (ac_hprev _ _ _ _ _ _ _ HA)|]. split; [exact (ac_enold _ _ _ _ _ _ _ HA)|reflexivity].
  - destruct (trial_reject m c s ha ms rej s1 h1 Hmin ET) as (e & E1 & E2).
    destruct HT as (H0 & HC & Hsc & Hmf & Hn & _).
    assert (HCe : h_previous s1 = h_previous s /\ error_norm_old s1 = error_norm_old s).
    { unfold same_core in HC. tauto. }
    destruct HCe as (Hp1 & Hp2).
    destruct (IH s1 h1 ms true s' pst cap0 H) as (es & h & e' & R1 & R2 & R3 & R4 & R5 & R6); [congruence|rewrite Hsc, Hp1, Hp2; exact Hp|].
    exists (e :: es), h, e'. split.
    { constructor; [exact E2|]. rewrite <- (lawful_reject c L ha e HL), <- E1.
      clear - R1 HC. induction R1; constructor; auto. destruct H as [(X & Y)|(X & Y)]; [left|right]; split; auto; [eapply same_early|eapply same_full]; eauto. }
    split; [eapply same_full; eauto|]. split; [exact R3|]. destruct HC as (Ct & _). rewrite R4, Ct, R5, Hn. split; [reflexivity|]. split; [simpl; lia|].
    rewrite orb_true_r. exact R6.
Qed.

Lemma impl_plan m c L fuel s s' p : min_stages m -> lawful c L -> plan_of p s -> step_impl fuel m c s = Done s' ->
  exists p', planned_step L (mfull m c s) (mearly m c s) c p s s' p' /\ plan_of p' s'.
Proof.
  intros Hmin HL (P1 & P2 & P3) H. unfold step_impl in H. destruct (reassess_stepsize c s) as [[h0 ms] sc] eqn:ER.
  set (s0 := with_trial s sc (max_factor s) (jflstp s) (nfs s) (K s) (calls s)) in *.
  set (ft := first_trial p (smallest (h_min_a c) (h_min_b c) (t s) (size p)) (max_step c) (nabs A (nsub A (t_bound c) (t s)))).
  assert (EF : fst ft = h0 /\ (if sc then snd ft = None else exists h e, h_previous s = Some h /\ error_norm_old s = Some e /\ snd ft = Some (h, e))).
  { unfold ft, first_trial, smallest. rewrite P1. unfold reassess_stepsize in ER.
    set (msv := pymax (nmul A (h_min_a c) (nadd A (nabs A (t s)) (h_abs s))) (h_min_b c)) in *.
    set (dv := nabs A (nsub A (t_bound c) (t s))) in *.
    destruct (nltb A (h_abs s) msv || nltb A (max_step c) (h_abs s)).
    - destruct (nltb A dv _); [destruct (nltb A _ dv)|]; inversion ER; subst; cbn [fst snd]; auto.
    - destruct (nltb A dv _); [destruct (nltb A _ dv)|]; inversion ER; subst; cbn [fst snd]; auto. }
  destruct ft as [h1 pst] eqn:Eft. cbn [fst snd] in EF. destruct EF as (-> & EP).
  destruct (loop_plan m c L fuel Hmin HL s0 h0 ms false s' pst (max_factor s) H eq_refl EP) as (es & h & e & R1 & R2 & R3 & R4 & R5 & R6).
  assert (HC : same_core s s0) by apply same_core_with_trial.
  eexists. split; [|exact R6]. exists h0, pst, es, h, e. split; [exact Eft|]. split.
  { exact R1. }
  split; [eapply same_full; eauto|]. split; [exact R3|]. split; [exact R4|]. split; [exact R5|]. rewrite P2. reflexivity.
Qed.

(** translation to the textbook *)
Lemma full_tab m T n c s h e : uses_tab m T n -> fresh c s -> mfull m c s h e -> step_error T n c (t s) (y s) h e.
Proof.
  intros HU HF (Ks & (F1 & F2 & F3) & He). exists Ks, (nadd A (t s) h), (m_sol m (y s) h Ks). split.
  - assert (E : m_stages m = r_stages T /\ m_point m = rk_point T n /\ m_sol m = rk_sol T n) by (inversion HU; subst; auto).
    destruct E as (E1 & E2 & E3). split; [congruence|]. split; [rewrite F2; exact HF|]. split; [|split; [reflexivity|]].
    + intros i Hi. rewrite (F3 i ltac:(rewrite E1; exact Hi)), E2. unfold rk_point. cbn [fst snd]. rewrite lincomb_eq. reflexivity.
    + rewrite E3. unfold rk_sol. rewrite lincomb_eq. reflexivity.
  - rewrite He, err_norm_rms. f_equal.
    inversion HU; subst; cbn [rk_meth bs5_meth cfmr_meth m_err m_fsal m_sol]; unfold rk_err, tab_error; rewrite lincomb_eq; reflexivity.
Qed.
Lemma full_tabn m T n c s h e : uses_tabn m T n -> fresh c s -> mfull m c s h e -> step_error_n T n c (t s) (y s) h e.
Proof.
  intros HU HF (Ks & (F1 & F2 & F3) & He). exists Ks, (nadd A (t s) h), (m_sol m (y s) h Ks). inversion HU; subst. split.
  - split; [exact F1|]. split; [rewrite F2; exact HF|]. split; [|split; [reflexivity|]].
    + intros i Hi. cbv zeta. rewrite (F3 i Hi). cbn [m_point rkn_meth]. unfold rkn_point. cbn [fst snd]. rewrite !lincomb_eq. reflexivity.
    + cbn [m_sol rkn_meth]. unfold rkn_sol. rewrite !lincomb_eq. reflexivity.
  - rewrite He, err_norm_rms. f_equal. cbn [rkn_meth m_err m_fsal m_sol]; unfold rkn_err, tabn_error. rewrite !lincomb_eq. reflexivity.
Qed.
Lemma early_tab m T n c s h e : uses_tab m T n -> fresh c s -> mearly m c s h e -> early_error m T n c (t s) (y s) h e.
Proof.
  intros HU HF (est & Ks & k & E0 & HFS & He). 
  assert (HM : mfull m c s h (err_norm c (y s) (m_sol m (y s) h (Ks ++ [k])) (m_err m h (if m_fsal m then (Ks ++ [k]) ++ [fn c (nadd A (t s) h) (m_sol m (y s) h (Ks ++ [k]))] else Ks ++ [k])))).
  { exists (Ks ++ [k]). split; [exact HFS|reflexivity]. }
  exists est, Ks, k, (nadd A (t s) h), (m_sol m (y s) h (Ks ++ [k])). split; [exact E0|]. split; [|rewrite He; apply err_norm_rms].
  destruct HFS as (F1 & F2 & F3).
  assert (E : m_stages m = r_stages T /\ m_point m = rk_point T n /\ m_sol m = rk_sol T n) by (inversion HU; subst; auto).
  destruct E as (E1 & E2 & E3). split; [congruence|]. split; [rewrite F2; exact HF|]. split; [|split; [reflexivity|]].
  - intros i Hi. rewrite (F3 i ltac:(rewrite E1; exact Hi)), E2. unfold rk_point. cbn [fst snd]. rewrite lincomb_eq. reflexivity.
  - rewrite E3. unfold rk_sol. rewrite lincomb_eq. reflexivity.
Qed.

Lemma planned_weaken L (f1 f2 e1 e2 : num -> num -> Prop) c p s s' p' : (forall h e, f1 h e -> f2 h e) -> (forall h e, e1 h e -> e2 h e) ->
  planned_step L f1 e1 c p s s' p' -> planned_step L f2 e2 c p s s' p'.
Proof.
  intros H1 H2 (h1 & pst & es & h & e & Q1 & Q2 & Q3 & Q4). exists h1, pst, es, h, e. split; [exact Q1|]. split; [|split; [auto|exact Q4]].
  clear - H1 H2 Q2. induction Q2; constructor; auto. destruct H as [(X & Y)|(X & Y)]; [left|right]; split; auto.
Qed.

Lemma init_law k o fun_ t0 y0 tb (c : Cfg A) s kb1 kb2 al g : rk_init k o fun_ t0 y0 tb = inl (c, s) -> sc_coefs (sc_or (o_sc o) (k_sc k)) = inl (kb1, kb2, al, g) ->
  lawful c {| l_q := Nat.min (k_order2 k) (k_order k); l_kb1 := kb1; l_kb2 := kb2; l_a := al; l_g := g |} /\
  plan_of {| size := h_abs s; past := None; cap := lit 10 |} s.
Proof.
  intros H HS. unfold rk_init in H.
  destruct (nleb A (o_max_step o) n0); [discriminate|].
  destruct (validate_tol _ _ _ _) as [[rt at_]|]; [|discriminate].
  destruct (init_stiff _ _) as [nsd|]; [|discriminate]. rewrite HS in H. cbv zeta in H.
  match type of H with match ?x with inl _ => _ | inr _ => _ end = _ => destruct x as [[? ?]|]; [|discriminate] end.
  injection H as <- <-. split; [repeat split|]. split; [reflexivity|]. split; reflexivity.
Qed.
End Ctl.
