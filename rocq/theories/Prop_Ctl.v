(** C51: the step size control of the explicit solvers is the documented law. *)
From Coq Require Import String Reals Lra Psatz ZArith QArith Qreals Bool List Lia.
From Verif Require Import Arith Common RX QX RK RKInit RKInitReal SpecRK RKGen RKHist RKSpecProofs RKReal NormReal RKTop RKRefute Classes Tableaux SpecCtl Ctl.
Import ListNotations.
Close Scope string_scope.
Open Scope nat_scope.

(** ** specification: the plans of a whole run *)
Inductive follows {A : Arith} (L : Law A) (full early : St A -> num A -> num A -> Prop) (m : Meth A) (c : Cfg A) (s0 : St A) : nat -> Plan A -> Solver A -> Prop :=
| follows0 : follows L full early m c s0 0 {| size := h_abs s0; past := None; cap := lit 10 |} (new_solver s0)
| followsS j p v k v' p' : follows L full early m c s0 j p v -> ode_step k m c v = StepOk v' -> planned_step L (full (st v)) (early (st v)) c p (st v) (st v') p' ->
    follows L full early m c s0 (S j) p' v'.
(** every running state of a run has a plan, made from the plans before it; its size is the attribute
    h_abs; the next successful step follows it *)
Definition controlled {A : Arith} (L : Law A) (full early : St A -> num A -> num A -> Prop) (m : Meth A) (c : Cfg A) (s0 : St A) : Prop :=
  forall j v, history m c (new_solver s0) j v -> stat v = Running ->
  exists p, follows L full early m c s0 j p v /\ size p = h_abs (st v) /\
    forall k v', ode_step k m c v = StepOk v' -> ~ is_failed v' -> proper c v ->
      exists p', planned_step L (full (st v)) (early (st v)) c p (st v) (st v') p' /\ size p' = h_abs (st v').
Definition law_of {A : Arith} (k : Cls A) (kb1 kb2 a g : num A) : Law A :=
  {| l_q := Nat.min (k_order2 k) (k_order k); l_kb1 := kb1; l_kb2 := kb2; l_a := a; l_g := g |}.

(** ** proofs *)
Lemma running_before {A : Arith} m (c : Cfg A) k v v' : min_stages m -> ode_step k m c v = StepOk v' -> stat v' = Running ->
  step_impl k m c (st v) = Done (st v').
Proof. intros Hm H Hr. destruct (ode_step_ok m c k v v' Hm H) as [_ [(_ & E & _)|[(_ & _ & E)|(msg & E & _)]]]; congruence. Qed.

Lemma control_core {A : Arith} m (c : Cfg A) s0 L (full early : St A -> num A -> num A -> Prop) : explicit m -> lawful c L -> plan_of {| size := h_abs s0; past := None; cap := lit 10 |} s0 -> fresh c s0 ->
  (forall s h e, fresh c s -> mfull m c s h e -> full s h e) -> (forall s h e, fresh c s -> mearly m c s h e -> early s h e) ->
  controlled L full early m c s0.
Proof.
  intros HE HL HP HF0 HF HEa. pose proof (explicit_min m HE) as Hmin.
  assert (G : forall j v, history m c (new_solver s0) j v -> stat v = Running -> exists p, follows L full early m c s0 j p v /\ plan_of p (st v)).
  { intros j v Hh. remember (new_solver s0) as v0 eqn:E0. induction Hh as [v|v n v1 v2 k Hh IH HS]; intros Hr; subst v.
    - eexists. split; [constructor|exact HP].
    - assert (Hr1 : stat v1 = Running) by (destruct (ode_step_ok m c k v1 v2 Hmin HS) as (E & _); exact E).
      destruct (IH eq_refl Hr1) as (p & F1 & F2).
      destruct (impl_plan m c L k (st v1) (st v2) p Hmin HL F2 (running_before m c k v1 v2 Hmin HS Hr)) as (p' & G1 & G2).
      exists p'. split; [|exact G2]. econstructor; [exact F1|exact HS|].
      pose proof (running_fresh m c (new_solver s0) n v1 Hmin HF0 Hh Hr1) as Hfr.
      eapply planned_weaken; [intros h e; apply (HF _ h e Hfr)|intros h e; apply (HEa _ h e Hfr)|exact G1]. }
  intros j v Hh Hr. destruct (G j v Hh Hr) as (p & F1 & F2). exists p. split; [exact F1|]. split; [apply F2|].
  intros k v' HS Hnf Hpr. destruct (step_accepted m c k v v' Hmin HS Hnf Hpr) as (_ & HD & _).
  destruct (impl_plan m c L k (st v) (st v') p Hmin HL F2 HD) as (p' & G1 & G2).
  exists p'. split; [|apply G2]. pose proof (running_fresh m c (new_solver s0) j v Hmin HF0 Hh Hr) as Hfr.
  eapply planned_weaken; [intros h e; apply (HF _ h e Hfr)|intros h e; apply (HEa _ h e Hfr)|exact G1].
Qed.

(** C51, Runge-Kutta classes (any arithmetic) *)
Theorem C51_controller (A : Arith) (m : Meth A) T n k o fun_ t0 y0 tb c s0 kb1 kb2 a g : uses_tab m T n ->
  rk_init k o fun_ t0 y0 tb = inl (c, s0) -> sc_coefs (sc_or (o_sc o) (k_sc k)) = inl (kb1, kb2, a, g) ->
  controlled (law_of k kb1 kb2 a g) (fun s => step_error T n c (t s) (y s)) (fun s => early_error m T n c (t s) (y s)) m c s0.
Proof.
  intros HU HI HS. destruct (init_law k o fun_ t0 y0 tb c s0 kb1 kb2 a g HI HS) as (HL & HP).
  assert (HF0 : fresh c s0).
  { clear - HI. unfold rk_init in HI.
    destruct (nleb A (o_max_step o) n0); [discriminate|].
    destruct (validate_tol _ _ _ _) as [[rt at_]|]; [|discriminate].
    destruct (init_stiff _ _) as [nsd|]; [|discriminate].
    destruct (sc_coefs _) as [[[[? ?] ?] ?]|]; [|discriminate].
    cbv zeta in HI.
    match type of HI with match ?x with inl _ => _ | inr _ => _ end = _ => destruct x as [[? ?]|]; [|discriminate] end.
    injection HI as <- <-. reflexivity. }
  apply control_core; auto; [eapply ex_tab; eauto| |].
  - intros s h e Hf. apply (full_tab m T n c s h e HU Hf).
  - intros s h e Hf. apply (early_tab m T n c s h e HU Hf).
Qed.
(** C51, Nystrom classes *)
Theorem C51_controller_nystrom (A : Arith) (m : Meth A) T n k vi o fun_ t0 y0 tb c s0 kb1 kb2 a g : uses_tabn m T n ->
  rkn_init k vi o fun_ t0 y0 tb = inl (c, s0) -> sc_coefs (sc_or (o_sc o) (k_sc k)) = inl (kb1, kb2, a, g) ->
  controlled (law_of k kb1 kb2 a g) (fun s => step_error_n T n c (t s) (y s)) (fun _ _ _ => False) m c s0.
Proof.
  intros HU HI HS. unfold rkn_init in HI.
  match type of HI with match ?x with inl _ => _ | inr _ => _ end = _ => destruct x as [[c1 s1]|] eqn:E; [|discriminate] end.
  destruct (init_law k _ fun_ t0 y0 tb c1 s1 kb1 kb2 a g E HS) as (HL & HP).
  assert (F : f s1 = fun_ t0 y0 /\ t s1 = t0 /\ y s1 = y0).
  { clear HI. unfold rk_init in E.
    destruct (nleb A _ n0); [discriminate|]. destruct (validate_tol _ _ _ _) as [[rt at_]|]; [|discriminate].
    destruct (init_stiff _ _) as [nsd|]; [|discriminate].
    destruct (sc_coefs _) as [[[[? ?] ?] ?]|]; [|discriminate]. cbv zeta in E.
    match type of E with match ?x with inl _ => _ | inr _ => _ end = _ => destruct x as [[? ?]|]; [|discriminate] end.
    injection E as <- <-. auto. }
  assert (HSC : standard_sc s1 = true /\ max_factor s1 = lit 10).
  { clear HI. unfold rk_init in E.
    destruct (nleb A _ n0); [discriminate|]. destruct (validate_tol _ _ _ _) as [[rt at_]|]; [|discriminate].
    destruct (init_stiff _ _) as [nsd|]; [|discriminate].
    destruct (sc_coefs _) as [[[[? ?] ?] ?]|]; [|discriminate]. cbv zeta in E.
    match type of E with match ?x with inl _ => _ | inr _ => _ end = _ => destruct x as [[? ?]|]; [|discriminate] end.
    injection E as <- <-. auto. }
  destruct F as (F1 & F2 & F3). destruct HSC as (S1 & S2).
  destruct (init_stiff _ _); [|discriminate]. cbv zeta in HI.
  destruct (_ || _) in HI; [discriminate|]. destruct (_ && _) in HI; [discriminate|].
  injection HI as <- <-.
  apply control_core.
  - eapply ex_tabn; eauto.
  - exact HL.
  - split; [reflexivity|]. split; [symmetry; exact S2|]. cbn [standard_sc]. rewrite S1. reflexivity.
  - unfold fresh. cbn [fn f t y]. rewrite F1, F2, F3. reflexivity.
  - intros s h e Hf. apply (full_tabn m T n _ s h e HU Hf).
  - intros s h e Hf (est & Ks & kk & Ep & _). inversion HU; subst. discriminate Ep.
Qed.

(** ** the laws over the reals *)
Open Scope R_scope.
Definition real_law (q : nat) (kb1 kb2 a g : R) : Law RX := {| l_q := q; l_kb1 := Fin kb1; l_kb2 := Fin kb2; l_a := Fin a; l_g := Fin g |}.
Lemma expo_real q kb1 kb2 a g : expo (real_law q kb1 kb2 a g) = Fin (- (1) / INR (S q)).
Proof.
  unfold expo. cbn [l_q real_law]. rewrite nofnat_RX, n1_RX. change (nopp RX) with xopp. change (ndiv RX) with xdiv. cbn [xopp xdiv].
  destruct (Req_EM_T (INR (S q)) 0) as [E|_]; [|reflexivity]. exfalso. apply (not_0_INR (S q)); auto.
Qed.
Lemma pow_real x e : 0 < x -> xpow (Fin x) (Fin e) = Fin (Rpower x e).
Proof.
  intros Hx. unfold xpow. destruct (Req_EM_T e 0) as [->|_]; [rewrite Rpower_O; auto|]. destruct (Rlt_dec 0 x); [reflexivity|lra].
Qed.
Theorem C51_laws q kb1 kb2 a g e e0 r : 0 < g -> 0 < e -> 0 < e0 -> 0 < r ->
  law1 (real_law q kb1 kb2 a g) (Fin e) = Fin (g * Rpower e (- (1) / INR (S q))) /\
  law2 (real_law q kb1 kb2 a g) (Fin e) (Fin e0) (Fin r) =
    Fin (Rpower g (kb1 + kb2) * (Rpower e (- kb1 / INR (S q)) * Rpower e0 (- kb2 / INR (S q)) * Rpower r (- a))).
Proof.
  intros Hg He He0 Hr. unfold law1, law2. rewrite !expo_real. cbn [l_g l_kb1 l_kb2 l_a real_law].
  change (npow RX) with xpow. change (nmul RX) with xmul. change (nadd RX) with xadd. change (nopp RX) with xopp. cbn [xmul xadd xopp].
  rewrite !pow_real by auto. cbn [xmul]. split; [reflexivity|]. f_equal. f_equal. f_equal. f_equal; f_equal; unfold Rdiv; ring.
Qed.
Lemma root_pow x (q : nat) : 0 < x -> Rpower x (- (1) / INR (S q)) ^ S q = / x.
Proof.
  intros Hx. assert (Hn : INR (S q) <> 0) by (apply not_0_INR; auto).
  rewrite <- Rpower_pow by (unfold Rpower; apply exp_pos). rewrite Rpower_mult.
  replace (- (1) / INR (S q) * INR (S q)) with (- (1)) by (field; auto). rewrite Rpower_Ropp, Rpower_1; auto.
Qed.
(** the aim of the laws: if the error of a step of size h is C h^(q+1), the step chosen by the first law has
    error g^(q+1); the second law keeps a size whose error stays at g^(q+1) *)
Theorem C51_aim q g C h : 0 < g -> 0 < C -> 0 < h ->
  let h' := h * (g * Rpower (C * h ^ S q) (- (1) / INR (S q))) in C * h' ^ S q = g ^ S q.
Proof.
  intros Hg HC Hh h'. unfold h'. assert (P : 0 < h ^ S q) by (apply pow_lt; auto).
  rewrite !Rpow_mult_distr, root_pow by (apply Rmult_lt_0_compat; auto). field. lra.
Qed.
Theorem C51_rest q kb1 kb2 a g e : 0 < g -> 0 < e -> kb1 + kb2 <> 0 ->
  (Rpower g (kb1 + kb2) * (Rpower e (- kb1 / INR (S q)) * Rpower e (- kb2 / INR (S q)) * Rpower 1 (- a)) = 1 <-> e = g ^ S q).
Proof.
  intros Hg He Hk. assert (Hn : INR (S q) <> 0) by (apply not_0_INR; auto).
  assert (E1 : Rpower 1 (- a) = 1) by (unfold Rpower; rewrite ln_1, Rmult_0_r, exp_0; reflexivity).
  assert (E2 : Rpower g (kb1 + kb2) * (Rpower e (- kb1 / INR (S q)) * Rpower e (- kb2 / INR (S q)) * Rpower 1 (- a)) =
               exp ((kb1 + kb2) * (ln g - ln e / INR (S q)))).
  { rewrite E1. unfold Rpower. rewrite Rmult_1_r, <- !exp_plus. f_equal. field. auto. }
  rewrite E2. clear E1 E2. assert (E3 : e = g ^ S q <-> ln e = INR (S q) * ln g).
  { split.
    - intros ->. rewrite <- Rpower_pow by auto. unfold Rpower. apply ln_exp.
    - intros E. rewrite <- (exp_ln e) by auto. rewrite E, <- Rpower_pow by auto. reflexivity. }
  rewrite E3. clear E3. split.
  - intros E. rewrite <- exp_0 in E. apply exp_inv in E. apply Rmult_integral in E. destruct E as [E|E]; [contradiction|].
    apply Rmult_eq_reg_r with (/ INR (S q)); [|apply Rinv_neq_0_compat; auto]. field_simplify; auto. unfold Rdiv in E. lra.
  - intros E. rewrite E. replace (ln g - INR (S q) * ln g / INR (S q)) with 0 by (field; auto). rewrite Rmult_0_r. apply exp_0.
Qed.

(** ** the values of sc_params *)
(** the documentation of the explicit classes: (kb1, kb2, a, g) *)
Definition documented (name : string) : option (R * R * R * R) :=
  if String.eqb name "G" then Some (7/10, - (4/10), 0, 9/10) else
  if String.eqb name "S" then Some (6/10, - (2/10), 0, 9/10) else
  if String.eqb name "standard" then Some (1, 0, 0, 9/10) else None.
Definition default_sc : list (Cls RX * string) :=
  [(BS5_cls, "standard"); (CFMR7osc_cls, "G"); (CK5_cls, "G"); (Me4_cls, "G"); (Ts5_cls, "G"); (Pr7_cls, "S"); (Pr8_cls, "G"); (Pr9_cls, "standard");
   (Fi4N_cls, "G"); (Fi5N_cls, "G"); (Mu5Nmb_cls, "G"); (MR6NN_cls, "G")]%string.
Theorem C51_names : (forall name kb1 kb2 a g, documented name = Some (kb1, kb2, a, g) -> @sc_coefs RX (ScName name) = inl (Fin kb1, Fin kb2, Fin a, Fin g)) /\
  (forall kb1 kb2 a g, @sc_coefs RX (ScTuple [kb1; kb2; a; g]) = inl (kb1, kb2, a, g)) /\
  (forall k name, In (k, name) default_sc -> sc_or ScNone (k_sc k) = ScName name /\ documented name <> None) /\
  (forall k name, documented name <> None -> sc_or (ScName name) (k_sc k) = @ScName RX name).
Proof.
  split; [|split; [|split]].
  - intros name kb1 kb2 a g. unfold documented, sc_coefs.
    assert (E1 : @lit RX (7#10) = Fin (7/10)) by litR. assert (E2 : @lit RX (-4#10) = Fin (- (4/10))) by litR. assert (E3 : @lit RX (9#10) = Fin (9/10)) by litR.
    assert (E4 : @lit RX (6#10) = Fin (6/10)) by litR. assert (E5 : @lit RX (-2#10) = Fin (- (2/10))) by litR. rewrite E1, E2, E3, E4, E5, n0_RX, n1_RX.
    do 3 (destruct (String.eqb name _); [intros E; injection E as <- <- <- <-; reflexivity|]). intros E. discriminate E.
  - reflexivity.
  - intros k name H. unfold default_sc in H. cbn [In] in H. repeat (destruct H as [H|H]; [apply pair_equal_spec in H; destruct H as (<- & <-); split; [reflexivity|intros E; cbn in E; discriminate E]|]). contradiction.
  - intros k name H. unfold sc_or, sc_truthy. destruct name; [elim H; reflexivity|reflexivity].
Qed.
(** the documentation also offers "H" and "W", which raise ValueError *)
Theorem C51_names_refuted (A : Arith) k o fun_ t0 y0 tb : In (o_sc o) [@ScName A "H"; @ScName A "W"] ->
  forall c s, rk_init k o fun_ t0 y0 tb <> inl (c, s).
Proof.
  intros H c s E. unfold rk_init in E. destruct (nleb A (o_max_step o) n0); [discriminate|].
  destruct (validate_tol _ _ _ _) as [[rt at_]|]; [|discriminate]. destruct (init_stiff _ _) as [nsd|]; [|discriminate].
  cbn [In] in H. destruct H as [H|[H|[]]]; rewrite <- H in E; cbn in E; discriminate E.
Qed.
(** fine.py 364-372 [Fi5N.__init__]: sc_params is a named argument that is not passed on *)
Definition fi5n_init {A : Arith} (interpolant : Z) (o : Opts A) (fun_ : num A -> list (num A) -> list (num A)) (t0 : num A) (y0 : list (num A)) (tb : num A) : (Cfg A * St A) + exn :=
  match rkn_init Fi5N_cls false {| o_max_step := o_max_step o; o_rtol := o_rtol o; o_rtol_is_float := o_rtol_is_float o; o_atol := o_atol o;
               o_first_step := o_first_step o; o_stiff := o_stiff o; o_sc := ScNone |} fun_ t0 y0 tb with
  | inr e => inr e
  | inl cs => if ((0 <=? interpolant) && (interpolant <=? 3))%Z then inl cs else inr (ValueError "interpolant should be one of: 0, 1, 2, 3")
  end.
(** so Fi5N always runs with "G", whatever sc_params is *)
Theorem C51_fi5n_refuted (A : Arith) (m : Meth A) T n ip o fun_ t0 y0 tb c s0 : uses_tabn m T n -> fi5n_init ip o fun_ t0 y0 tb = inl (c, s0) ->
  controlled (law_of Fi5N_cls (lit (7#10)) (lit (-4#10)) n0 (lit (9#10))) (fun s => step_error_n T n c (t s) (y s)) (fun _ _ _ => False) m c s0.
Proof.
  intros HU H. unfold fi5n_init in H. destruct (rkn_init _ _ _ _ _ _ _) as [cs|] eqn:E; [|discriminate].
  destruct (_ && _) in H; [|discriminate]. assert (D : forall (X Y : Type) (a b : X), @inl X Y a = inl b -> a = b) by (intros X Y a b Q; injection Q; auto).
  apply D in H. subst cs. eapply C51_controller_nystrom; [exact HU|exact E|reflexivity].
Qed.

(** a run with a refused trial and then a step by the second law: y' = -y from 1, Me4, first_step = 4 *)
Definition ctl_opts : Opts QX := mkopts QPInf (QF (rnd (1#1000000))) (QF 4) (@ScName QX "G").
Example C51_case : exists c s v1 v2, rk_init Me4_cls ctl_opts decay (QF 0) [QF 1] (QF 40) = inl (c, s) /\
  sc_coefs (sc_or (o_sc ctl_opts) (k_sc (@Me4_cls QX))) = inl (lit (7#10), lit (-4#10), n0, lit (9#10)) /\
  uses_tab (Me4_meth 1) (@Me4_tab QX) 1 /\
  history (Me4_meth 1) c (new_solver s) 2 v2 /\ ode_step 9 (Me4_meth 1) c (new_solver s) = StepOk v1 /\
  nfs (st v1) <> 0%nat /\ stat v1 = Running /\ standard_sc (st v1) = false /\ stat v2 = Running.
Proof.
  destruct (chk_init_spec Me4_cls ctl_opts decay (QF 0) [QF 1] (QF 40)
    (fun c s => chk_step 9 (Me4_meth 1) c (new_solver s) (fun v => negb (Nat.eqb (nfs (st v)) 0) && (is_run (stat v) && (negb (standard_sc (st v)) &&
       chk_step 9 (Me4_meth 1) c v (fun v' => is_run (stat v'))))))) as (c & s & HI & HC).
  { vm_compute. reflexivity. }
  destruct (chk_step_spec _ _ _ _ _ HC) as (v1 & H1 & HP). apply andb_true_iff in HP. destruct HP as (P1 & HP). apply andb_true_iff in HP.
  destruct HP as (P2 & HP). apply andb_true_iff in HP. destruct HP as (P3 & HP).
  destruct (chk_step_spec _ _ _ _ _ HP) as (v2 & H2 & P4).
  exists c, s, v1, v2. split; [exact HI|]. split; [reflexivity|]. split; [apply ut_rk; apply Nat.leb_le; reflexivity|].
  split; [econstructor; [econstructor; [constructor|exact H1]|exact H2]|]. split; [exact H1|].
  split; [intros E; rewrite E in P1; discriminate P1|]. split; [destruct (stat v1); [reflexivity|discriminate P2|discriminate P2]|].
  split; [destruct (standard_sc (st v1)); [discriminate P3|reflexivity]|]. destruct (stat v2); [reflexivity|discriminate P4|discriminate P4].
Qed.
