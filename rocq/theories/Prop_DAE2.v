(** C56, the other direction: an index-1 problem with consistent initial values is accepted; and
    concrete cases.  (common.py 1778-2006) *)
From Coq Require Import String Reals Lra QArith Qreals Bool Lia List Arith.
From Verif Require Import Arith Common Stiff RK HStart RKInit RX Tableaux Classes Dense Ode RKReal HStartReal RKInitReal Series OrderRK OrderModel RKSpecProofs OrderPairN GlobalAccept
  ESDIRK ESDCls ESDGen ESDReal ESDTop ESDInv ESDLin ESDLin2 Prop_ESDLin DAE DAEReal DAETop DAEMake DAEAcc Prop_DAE.
Import ListNotations.
Close Scope string_scope. Open Scope nat_scope. Open Scope R_scope.

(** a square system without nonzero null vector *)
Definition regular (k : nat) (G : list (list R)) : Prop :=
  forall v, length v = k -> (forall q, (q < k)%nat -> rmv k G v q = 0) -> forall q, (q < k)%nat -> nth q v 0 = 0.
(** the problem M y' = f(t, y) has index 1 at a point with Jacobian J: no direction z <> 0 with M z = 0 is
    invisible to the algebraic equations *)
Definition index_one (d : nat) (X J : list (list R)) : Prop :=
  forall z, length z = d -> (forall q, (q < d)%nat -> rmv d X z q = 0) ->
    (forall w, algebraic d X w -> dot d w (rvec d (rmv d J z)) = 0) -> forall q, (q < d)%nat -> nth q z 0 = 0.
(** np.linalg.solve solves regular systems *)
Definition solves_regular (d : nat) (L : Lin RX) : Prop :=
  forall k G b, (k < d)%nat -> rshape k G -> regular k G -> length b = k -> exists x, l_solve L (FM G) (FV b) = Some x.

Lemma index_regular d X U s V nu J : svd_of d X U s V -> (nu <= d)%nat -> (forall l, (l < nu)%nat -> nth l s 0 <> 0) -> (forall l, (nu <= l < d)%nat -> nth l s 0 = 0) ->
  rshape d J -> index_one d X J -> regular (d - nu) (bvv nu (rconj d U J V)).
Proof.
  intros HS Hn Hnz Hz SJ HI v Lv Hv q Hq. pose proof HS as (SX & OU & OV & _).
  set (p := (repeat 0 nu ++ v)%list). assert (Lp : length p = d) by (unfold p; rewrite app_length, repeat_length; lia).
  set (z := rvec d (rmv d (rtr d V) p)). assert (Lz : length z = d) by apply rvec_len.
  assert (EV : forall l, (l < d)%nat -> rmv d V z l = nth l p 0) by (intros l Hl; apply (orth_out d V p l OV Hl)).
  pose proof (rconj_shape d U J V (proj1 OU)) as SG.
  assert (E : forall l, (l < d)%nat -> nth l z 0 = 0).
  { apply HI; [exact Lz| |].
    - intros r Hr. rewrite (svd_mv d X U s V HS z r Hr). apply rsum_zero. intros l Hl. destruct (Nat.lt_ge_cases l nu) as [B|B].
      + rewrite EV by exact Hl. unfold p. rewrite app_nth1 by (rewrite repeat_length; exact B). rewrite nth_repeat. ring.
      + rewrite Hz by lia. ring.
    - intros w Hw. apply (alg_dot d X U s V HS nu Hnz w _ Hw). intros l Hl. 
      replace l with (nu + (l - nu))%nat by lia. set (r := (l - nu)%nat). assert (Hr : (r < d - nu)%nat) by (unfold r; lia).
      unfold z. rewrite <- (rconj_mv d U J V p) by (first [apply OU|lia]).
      unfold p. rewrite (block_mv d nu (rconj d U J V) (repeat 0 nu) v r Hn SG (repeat_length _ _) Lv Hr).
      rewrite rsum_zero by (intros j Hj; rewrite nth_repeat; ring). rewrite (Hv r Hr). ring. }
  assert (Ep : nth (nu + q) p 0 = 0).
  { rewrite <- EV by lia. unfold rmv. apply rsum_zero. intros j Hj. rewrite (E j Hj). ring. }
  unfold p in Ep. rewrite app_nth2 in Ep by (rewrite repeat_length; lia). rewrite repeat_length in Ep. replace (nu + q - nu)%nat with q in Ep by lia. exact Ep.
Qed.

Lemma small_alg d X U s V nu g : svd_of d X U s V -> (forall l, (nu <= l < d)%nat -> nth l s 0 = 0) ->
  (forall w, algebraic d X w -> dot d w g = 0) -> forall l, (nu <= l < d)%nat -> rmv d (rtr d U) g l = 0.
Proof.
  intros HS Hz Hc l Hl. rewrite <- (ucol_dot d X U s V HS l) by lia. apply Hc. apply (ucol_algebraic d X U s V HS); [lia|apply Hz; exact Hl].
Qed.

(** what an accepted argument list without mass matrix gives *)
Lemma first_acc (o : EOpts RX) t0 tb dir hs dir' hs' h : esd_first o t0 tb dir hs = inl h -> exists h', esd_first o t0 tb dir' hs' = inl h'.
Proof.
  unfold esd_first. destruct (p_first_step o) as [h0|]; [|eauto].
  destruct (nleb RX h0 n0); [discriminate|]. destruct (nltb RX _ _); [discriminate|eauto].
Qed.
Lemma first_none (o : EOpts RX) t0 tb dir hs : exists h', esd_first (no_first o) t0 tb dir hs = inl h'.
Proof. unfold esd_first. cbn [no_first p_first_step]. eauto. Qed.

Lemma init_again m (o : EOpts RX) o' luok solve f jac M t0 y0 tb c s :
  esd_init m o luok solve f jac M t0 y0 tb = inl (c, s) -> o' = o \/ o' = no_first o ->
  exists c1 s1, esd_init m o' (fun _ => true) (fun _ _ => Some []) f jac None t0 y0 tb = inl (c1, s1).
Proof.
  intros H Ho. unfold esd_init in *. 
  assert (E : p_max_step o' = p_max_step o /\ p_rtol_is_float o' = p_rtol_is_float o /\ p_rtol o' = p_rtol o /\ p_atol o' = p_atol o /\ p_sc o' = p_sc o) by (destruct Ho as [-> | ->]; cbn; auto 10).
  destruct E as (-> & -> & -> & -> & ->). cbv zeta in *.
  destruct (nleb RX (p_max_step o) n0); [discriminate H|].
  destruct (validate_tol (p_rtol_is_float o) (p_rtol o) (p_atol o) y0) as [[rtol atol]|]; [|discriminate H].
  destruct (esd_coefs (sc_or (p_sc o) (em_sc m))) as [[[[kb1 kb2] al] g]|]; [|discriminate H].
  destruct (negb (esd_class_ok m)); [discriminate H|].
  destruct (match jac with JacConst J => (J, [], None) | JacFun j => (j 0%nat t0 y0, [(t0, y0)], Some j) end) as [[J0 jcalls] xjac].
  destruct (negb (luok (mat_of (length y0) M))); [discriminate H|]. cbn [negb].
  destruct (solve (mat_of (length y0) M) (f t0 y0)) as [yp0|]; [|discriminate H].
  match type of H with (match ?x with inl _ => _ | inr _ => _ end) = _ => destruct x as [h|e] eqn:E; [|discriminate H] end.
  match goal with |- exists c1 s1, (match ?x with inl _ => _ | inr _ => _ end) = _ => assert (E' : exists h', x = inl h') end.
  { destruct Ho as [-> | ->]; [eapply first_acc; exact E|apply first_none]. }
  destruct E' as (h' & ->). eauto.
Qed.

Lemma init_atol m (o : EOpts RX) luok solve f jac M t0 y0 tb c s a : esd_init m o luok solve f jac M t0 y0 tb = inl (c, s) -> p_atol o = Scalar a -> exists a', x_atol c = Scalar a'.
Proof.
  intros H Ha. unfold esd_init in H. cbv zeta in H. destruct (nleb RX (p_max_step o) n0); [discriminate H|]. rewrite Ha in H.
  destruct (validate_tol (p_rtol_is_float o) (p_rtol o) (Scalar a) y0) as [[rtol atol]|] eqn:EV; [|discriminate H].
  assert (E : exists a', atol = Scalar a').
  { unfold validate_tol in EV. repeat match type of EV with (if ?b then _ else _) = _ => destruct b end; try discriminate EV; cbv zeta in EV; repeat match type of EV with context [if ?b then _ else _] => destruct b end; try discriminate EV; injection EV as _ <-; eauto. }
  destruct E as (a' & ->).
  destruct (esd_coefs (sc_or (p_sc o) (em_sc m))) as [[[[kb1 kb2] al] g]|]; [|discriminate H].
  destruct (negb (esd_class_ok m)); [discriminate H|].
  destruct (match jac with JacConst J => (J, [], None) | JacFun j => (j 0%nat t0 y0, [(t0, y0)], Some j) end) as [[J0 jcalls] xjac].
  destruct (negb (luok (mat_of (length y0) M))); [discriminate H|].
  destruct (solve (mat_of (length y0) M) (f t0 y0)) as [yp0|]; [|discriminate H].
  match type of H with (match ?x with inl _ => _ | inr _ => _ end) = _ => destruct x as [h|e] eqn:E1; [|discriminate H] end.
  apply (f_equal (fun p => match p with inl (c, _) => Some (x_atol c) | inr _ => None end)) in H. cbn [x_atol] in H. injection H as <-. eauto.
Qed.

Lemma init_dae_acc m (o : EOpts RX) luok solve luok' solve' f jac M t0 y0 tb c s X U k ics :
  esd_init m o luok solve f jac M t0 y0 tb = inl (c, s) ->
  exists c' s', esd_init_dae m o luok' solve' f jac X U k t0 y0 tb ics = inl (c', s').
Proof.
  intros H. unfold esd_init_dae. destruct (init_again _ _ _ _ _ _ _ _ _ _ _ _ _ H (or_introl eq_refl)) as (c1 & s1 & E). rewrite E. cbv zeta. destruct ics as [[[y1 yp1] J1] h1].
  assert (E' : exists h', esd_first o t0 tb (x_dir c1) (fun _ => (h1, [])) = inl h').
  { unfold esd_init in H. cbv zeta in H. destruct (nleb RX (p_max_step o) n0); [discriminate H|].
    destruct (validate_tol (p_rtol_is_float o) (p_rtol o) (p_atol o) y0) as [[rtol atol]|]; [|discriminate H].
    destruct (esd_coefs (sc_or (p_sc o) (em_sc m))) as [[[[kb1 kb2] al] g]|]; [|discriminate H].
    destruct (negb (esd_class_ok m)); [discriminate H|].
    destruct (match jac with JacConst J => (J, [], None) | JacFun j => (j 0%nat t0 y0, [(t0, y0)], Some j) end) as [[J0 jcalls] xjac].
    destruct (negb (luok (mat_of (length y0) M))); [discriminate H|].
    destruct (solve (mat_of (length y0) M) (f t0 y0)) as [yp0|]; [|discriminate H].
    match type of H with (match ?x with inl _ => _ | inr _ => _ end) = _ => destruct x as [h|e] eqn:E1; [|discriminate H] end.
    eapply first_acc; exact E1. }
  destruct E' as (h' & ->). eauto.
Qed.

(** An index-1 problem with consistent initial values is accepted, whenever the constructor accepts the same
    arguments without the mass matrix and atol is a number or first_step is given. *)
Theorem C56_index_one_accepted m o d L luok solve f F jac M X U s V e t0 tb y0 c0 s0 J0 :
  esd_args m o t0 tb (FV y0) -> dae_data d L f F jac M X U s V e y0 -> singular d X -> rank_right d L -> solves_regular d L ->
  esd_make m o L luok solve f jac MassNone (Fin t0) (FV y0) (Fin tb) = inl (c0, s0) ->
  jac_at0 jac t0 y0 = FM J0 -> index_one d X J0 -> (forall w, algebraic d X w -> dot d w (F t0 y0) = 0) ->
  (p_first_step o <> None \/ exists a, p_atol o = Scalar a) ->
  exists c st, esd_make m o L luok solve f jac M (Fin t0) (FV y0) (Fin tb) = inl (c, st).
Proof.
  intros HA [Hmass Hsvd Hdec Hgap HF Hjac Hsol He Hroot Ly0] Hsing HR HT H0 EJ HI Hcons Hat.
  destruct (sing_count d X U s V Hdec Hgap Hsing) as ((Hk0 & Hkd) & Hnz & Hz). set (k := small_values d s) in *.
  pose proof Hdec as (SX & OU & OV & Ls & _).
  assert (H1 : esd_init m o luok solve f jac None (Fin t0) (FV y0) (Fin tb) = inl (c0, s0)).
  { unfold esd_make in H0. match type of H0 with (match ?x with inl _ => _ | inr _ => _ end) = _ => destruct x as [[c1 s1]|e1]; [|discriminate H0] end. cbn [handle_M] in H0. exact H0. }
  destruct (no_first_args _ _ _ _ _ HA) as (Hm & Hne & Hy & Hsc & Hms & Hfs).
  destruct (init_again _ _ _ _ _ _ _ _ _ _ _ _ _ H1 (or_intror eq_refl)) as (c1 & s1 & EI).
  destruct (esd_init_good _ _ _ _ _ _ _ _ _ _ _ _ Hm EI Hne Hy Hsc Hms Hfs) as (r & h0 & yp0 & J00 & jc & B1 & B2 & B3 & B4 & B5 & B6 & B7 & B8 & B9 & B10 & B11 & B12 & B13 & B14 & B15 & B16 & B17 & B18 & Es0).
  unfold esd_make. rewrite EI.
  pose proof (handle_M_real L d M X U s V Hmass SX Hsvd) as EH. fold k in EH. rewrite (proj2 (Nat.ltb_lt 0 k) Hk0) in EH.
  rewrite map_length, Ly0. change (num RX) with xr in *. rewrite EH. clear EH. cbv zeta.
  assert (EJ0 : w_J (e_w s1) = jac_at0 jac t0 y0) by (rewrite Es0; cbn [e_w w_J]; destruct jac; exact (proj1 B18)).
  rewrite EJ in EJ0. assert (SJ0 : rshape d J0).
  { assert (HJ0 : exists J0, jac_at0 jac t0 y0 = FM J0 /\ rshape d J0) by (destruct jac as [J|j]; cbn [jac_at0 real_jac] in *; [exact Hjac|apply Hjac; exact Ly0]).
    destruct HJ0 as (J1 & E1 & S1). rewrite EJ in E1. assert (FI : forall A B : list (list R), FM A = FM B -> A = B).
    { induction A as [|x A IH]; intros [|x1 A1] E; try discriminate; [reflexivity|]. injection E as Ea Eb. f_equal; [apply fin_inj; exact Ea|apply IH; exact Eb]. }
    apply FI in E1. subst J1. exact S1. }
  destruct (HF t0 y0 Ly0) as (LF0 & EF0). change (num RX) with xr in *. rewrite B14, EF0, EJ0.
  pose proof B1 as (E1 & E2 & E3 & E4). destruct E4 as (_ & _ & _ & _ & _ & _ & _ & _ & _ & _ & _ & HMS). rewrite B13 in HMS. cbn [no_first p_max_step] in HMS.
  destruct (look_ahead t0 tb (cd r) (p_max_step o) Hne E3 B3 HMS) as (b & Eb & Hb). rewrite E2. change (num RX) with xr in *. rewrite Eb. clear Eb.
  assert (Hbt : b <> t0) by (intros ->; lra).
  pose proof (index_regular d X U s V (d - k) J0 Hdec ltac:(lia) Hnz Hz SJ0 HI) as Hreg. replace (d - (d - k))%nat with k in Hreg by lia.
  pose proof (bvv_shape d (d - k) _ (rconj_shape d U J0 V (proj1 OU))) as SB. replace (d - (d - k))%nat with k in SB by lia.
  assert (Er : l_rank L (FM (bvv (d - k) (rconj d U J0 V))) = k) by (apply HR; [exact Hkd|exact SB|exact Hreg]).
  pose proof (small_alg d X U s V (d - k) (F t0 y0) Hdec Hz Hcons) as Hs0.
  pose proof (consistent_y_acc d k L U V F f ltac:(lia) OU OV HF t0 y0 J0 (fun y => match jac with JacConst J => J | JacFun j => j 1%nat (Fin t0) y end) Ly0 SJ0 Er) as EC.
  change (num RX) with xr in *. rewrite EC by (intros l Hl; rewrite (Hs0 l Hl), Rabs_R0; lra). clear EC.
  destruct (h_start_T_real d F f t0 b y0 HF Ly0 Hbt) as (da & Hda & ET). change (num RX) with xr in *. rewrite ET. clear ET.
  destruct (consistent_yp_acc d k L U V ltac:(lia) OU OV s y0 (F t0 y0) J0 (FV (firstn (d - k) (rvec d (rmv d V y0))))
    (rvec d (fun q => (nth q (F (t0 + da) y0) 0 - nth q (F t0 y0) 0) / da)) (Hsol k) Ls Hnz Ly0 LF0 SJ0 (rvec_len d _)) as (ri & EP).
  { intros b0 Lb. exact (HT k _ b0 Hkd SB Hreg Lb). }
  change (num RX) with xr in *. rewrite EP.
  match goal with |- exists c st, match ?x with inl _ => _ | inr _ => _ end = _ => assert (EHS : exists h, x = inl h) end.
  { destruct (p_first_step o) as [fs|] eqn:Efs; [eauto|]. destruct Hat as [Hat|(a & Ea)]; [contradiction|].
    assert (Eat : exists a', x_atol c1 = Scalar a').
    { eapply init_atol; [exact EI|exact Ea]. }
    destruct Eat as (a' & Eat). rewrite Eat. unfold hs_JT. cbv zeta. eauto. }
  destruct EHS as (h & EHS). change (num RX) with xr in *. rewrite EHS. eapply init_dae_acc. exact H1.
Qed.

(** ** a concrete case: u' = -u, 0 = u - v, M = diag(1, 0), y0 = (1, 1) *)
Definition ex_f : xr -> list xr -> list xr := fun _ y => match y with [Fin a; Fin b] => [Fin (- a); Fin (a - b)] | _ => [NaN; NaN] end.
Definition ex_F : R -> list R -> list R := fun _ y => [- nth 0 y 0; nth 0 y 0 - nth 1 y 0].
Definition ex_J : list (list R) := [[-1; 0]; [1; -1]].
Definition ex_X : list (list R) := [[1; 0]; [0; 0]].
Definition ex_I : list (list R) := [[1; 0]; [0; 1]].
Definition ex_solve_lin (X : list (list xr)) (b : list xr) : option (list xr) :=
  match X, b with
  | [], [] => Some []
  | [[Fin a]], [Fin x] => if Req_EM_T a 0 then None else Some [Fin (x / a)]
  | _, _ => None
  end.
Definition ex_solve (X : list (list xr)) (b : list xr) : option (list xr) :=
  match X, b with
  | [[Fin a; Fin b]; [Fin c; Fin d]], [Fin x; Fin y] =>
    if Req_EM_T (a * d - b * c) 0 then None else Some [Fin ((d * x - b * y) / (a * d - b * c)); Fin ((a * y - c * x) / (a * d - b * c))]
  | _, _ => None
  end.
Definition ex_rank (X : list (list xr)) : nat := match X with [[Fin a]] => if Req_EM_T a 0 then 0%nat else 1%nat | _ => 0%nat end.
Definition ex_L : Lin RX := {|
  l_svd := fun _ => (FM ex_I, FV [1; 0], FM ex_I); l_rank := ex_rank; l_solve := ex_solve_lin; l_root := fun _ _ _ => None |}.

Lemma lt2 q : (q < 2)%nat -> q = 0%nat \/ q = 1%nat. Proof. lia. Qed.
Ltac two q H := destruct (lt2 q H) as [-> | ->].
Lemma ex_shape a b c e : rshape 2 [[a; b]; [c; e]]. Proof. split; [reflexivity|]. constructor; [reflexivity|constructor; [reflexivity|constructor]]. Qed.
Lemma ex_orth : orthogonal 2 ex_I.
Proof. split; [apply ex_shape|]. split; intros i j Hi Hj; two i Hi; two j Hj; cbn [rsum nth ex_I Nat.eqb]; ring. Qed.
Lemma ex_svd : svd_of 2 ex_X ex_I [1; 0] ex_I.
Proof.
  split; [apply ex_shape|]. split; [apply ex_orth|]. split; [apply ex_orth|]. split; [reflexivity|]. split; [|split].
  - intros i j Hi Hj. two i Hi; two j Hj; cbn [rsum nth ex_I ex_X]; ring.
  - intros i j [H1 H2]. two j H2; [replace i with 0%nat by lia; lra|]. destruct i as [|[|]]; [cbn [nth]; lra|cbn [nth]; lra|lia].
  - intros i Hi. two i Hi; cbn [nth]; lra.
Qed.
Lemma ex_lifts : lifts 2 ex_F ex_f.
Proof. intros t [|a [|b [|]]] Hy; try discriminate Hy. split; reflexivity. Qed.
Lemma ex_lin_exact k : exact_solve k (l_solve ex_L).
Proof.
  intros X b x [HX HR] Hb E. cbn [ex_L l_solve] in E. destruct X as [|[|a [|]] [|]]; cbn [map ex_solve_lin] in E; try discriminate E.
  - destruct b; [|discriminate E]. injection E as <-. exists []. split; [reflexivity|]. split; [exact Hb|]. intros q Hq. cbn [length] in Hb. lia.
  - destruct b as [|b [|]]; cbn [map] in E; try discriminate E. destruct (Req_EM_T a 0); [discriminate E|]. injection E as <-.
    exists [b / a]. split; [reflexivity|]. split; [exact Hb|]. cbn [length] in HX, Hb. intros q Hq. subst k. replace q with 0%nat by lia. unfold rmv. cbn [rsum nth]. field. assumption.
Qed.
Lemma ex_data : dae_data 2 ex_L ex_f ex_F (JacConst (FM ex_J)) (Mass1 (FV [1; 0])) ex_X ex_I [1; 0] ex_I 0 [1; 1].
Proof.
  split.
  - right. exists [1; 0]. split; reflexivity.
  - reflexivity.
  - apply ex_svd.
  - intros i Hi H. two i Hi; cbn [nth] in *; [|reflexivity]. exfalso. unfold cond_lim in H. cbn [nth] in H.
    assert (E : INR (2 * 2) = 4) by (cbn; lra). rewrite E in H. assert (4 * / 2 ^ 52 < 1); [|lra]. apply (Rmult_lt_reg_r (2 ^ 52)); [apply pow_lt; lra|]. rewrite Rmult_assoc, Rinv_l by (apply pow_nonzero; lra). lra.
  - apply ex_lifts.
  - exists ex_J. split; [reflexivity|apply ex_shape].
  - apply ex_lin_exact.
  - lra.
  - intros g jac v0 v E. discriminate E.
  - reflexivity.
Qed.
Lemma ex_alg w : algebraic 2 ex_X w -> nth 0 w 0 = 0.
Proof. intros [_ H]. pose proof (H 0%nat ltac:(lia)) as E. cbn [rsum nth ex_X] in E. lra. Qed.
Lemma ex_alg1 : algebraic 2 ex_X [0; 1].
Proof. split; [reflexivity|]. intros j Hj. two j Hj; cbn [rsum nth ex_X]; ring. Qed.
Lemma ex_singular : singular 2 ex_X.
Proof.
  split; [exists [0; 1], 1%nat; split; [apply ex_alg1|split; [lia|cbn [nth]; lra]]|]. exists 0%nat, 0%nat. split; [lia|split; [lia|cbn [nth ex_X]; lra]].
Qed.
Lemma ex_rank_right : rank_right 2 ex_L.
Proof.
  intros k G Hk HG. destruct HG as [LG RG]. destruct k as [|[|]]; [| |lia].
  - destruct G; [|discriminate LG]. cbn. split; [intros _ v Lv _ q Hq; lia|reflexivity].
  - destruct G as [|r [|]]; try discriminate LG. inversion_clear RG as [|? ? R1 _]. destruct r as [|a [|]]; try discriminate R1. cbn [map ex_L l_rank ex_rank].
    destruct (Req_EM_T a 0) as [->|Ha]; split.
    + discriminate.
    + intros H. exfalso. specialize (H [1] eq_refl). cbn [nth] in H. specialize (H (fun q Hq => ltac:(replace q with 0%nat by lia; unfold rmv; cbn [rsum nth]; ring)) 0%nat ltac:(lia)). cbn [nth] in H. lra.
    + intros _ v Lv Hv q Hq. destruct v as [|x [|]]; try discriminate Lv. replace q with 0%nat by lia. specialize (Hv 0%nat ltac:(lia)). unfold rmv in Hv. cbn [rsum nth] in *. apply (Rmult_eq_reg_l a); [lra|exact Ha].
    + reflexivity.
Qed.
Lemma ex_solves : solves_regular 2 ex_L.
Proof.
  intros k G b Hk [LG RG] Hreg Lb. destruct k as [|[|]]; [| |lia].
  - destruct G; [|discriminate LG]. destruct b; [|discriminate Lb]. exists []. reflexivity.
  - destruct G as [|r [|]]; try discriminate LG. inversion_clear RG as [|? ? R1 _]. destruct r as [|a [|]]; try discriminate R1. destruct b as [|b [|]]; try discriminate Lb. cbn [map ex_L l_solve ex_solve_lin].
    destruct (Req_EM_T a 0) as [->|Ha]; [|eauto]. exfalso. specialize (Hreg [1] eq_refl). cbn [nth] in Hreg.
    specialize (Hreg (fun q Hq => ltac:(replace q with 0%nat by lia; unfold rmv; cbn [rsum nth]; ring)) 0%nat ltac:(lia)). cbn [nth] in Hreg. lra.
Qed.
Lemma ex_index : index_one 2 ex_X ex_J.
Proof.
  intros z Lz Hz Hw q Hq. destruct z as [|a [|b [|]]]; try discriminate Lz. pose proof (Hz 0%nat ltac:(lia)) as E0. unfold rmv in E0. cbn [rsum nth ex_X] in E0.
  pose proof (Hw _ ex_alg1) as E1. unfold dot in E1. cbn [rsum] in E1. rewrite !rvec_nth in E1 by lia. unfold rmv in E1. cbn [rsum nth ex_J] in E1. two q Hq; cbn [nth]; lra.
Qed.
Lemma ex_consistent w : algebraic 2 ex_X w -> dot 2 w (ex_F 0 [1; 1]) = 0.
Proof. intros Hw. pose proof (ex_alg w Hw) as E. unfold dot, ex_F. cbn [rsum nth] in *. rewrite E. lra. Qed.
Lemma ex_env : env_ok 2 ex_f (JacConst (FM ex_J)) lu_r ex_solve.
Proof.
  split; [|split; [|split]].
  - intros t [|[] [|[] [|]]]; reflexivity.
  - split; [reflexivity|]. constructor; [reflexivity|constructor; [reflexivity|constructor]].
  - intros X HX. unfold lu_r in HX. rewrite forallb_forall in HX. apply Forall_forall. intros r Hr. apply Forall_forall. intros x Hx. specialize (HX r Hr). rewrite forallb_forall in HX. specialize (HX x Hx).
    destruct x; try discriminate HX. eexists. reflexivity.
  - intros X b x E. unfold ex_solve in E. destruct X as [|[|[a| | |] [|[a1| | |] [|]]] [|[|[c| | |] [|[c1| | |] [|]]] [|]]]; try discriminate E. destruct b as [|[b| | |] [|[b1| | |] [|]]]; try discriminate E.
    destruct (Req_EM_T (a * c1 - a1 * c) 0); [discriminate E|]. injection E as <-. split; [|reflexivity]. constructor; [eexists; reflexivity|constructor; [eexists; reflexivity|constructor]].
Qed.
Lemma ex_exact : exact_solve 2 ex_solve.
Proof.
  intros X b x [HX HR] Hb E. destruct X as [|r0 [|r1 [|]]]; try discriminate HX. inversion_clear HR as [|? ? H0 H1]. inversion_clear H1 as [|? ? H1' _]. destruct r0 as [|a [|a1 [|]]]; try discriminate H0. destruct r1 as [|c [|c1 [|]]]; try discriminate H1'.
  destruct b as [|b [|b1 [|]]]; try discriminate Hb. cbn [map ex_solve] in E. destruct (Req_EM_T (a * c1 - a1 * c) 0) as [|Hd]; [discriminate E|]. injection E as <-.
  eexists [_; _]. split; [reflexivity|]. split; [reflexivity|]. intros q Hq. two q Hq; unfold rmv; cbn [rsum nth]; field; exact Hd.
Qed.
Lemma ex_args m : In m esd_all -> esd_args m lam_opts 0 1 (FV [1; 1]).
Proof.
  intros Hm. split; [exact Hm|]. split; [lra|]. split; [discriminate|]. split; [|split; [discriminate|intros E; injection E; discriminate]].
  cbn [p_sc lam_opts sc_or]. rewrite (proj2 (proj2 (esd_all_C m Hm))). apply esc_names. auto.
Qed.
Lemma ex_without_mass m : In m esd_all -> exists c s, esd_make m lam_opts ex_L lu_r ex_solve ex_f (JacConst (FM ex_J)) MassNone (Fin 0) (FV [1; 1]) (Fin 1) = inl (c, s).
Proof.
  intros Hm. destruct (ex_args m Hm) as (_ & _ & _ & Hsc & _).
  assert (HI : exists c s, esd_init m lam_opts lu_r ex_solve ex_f (JacConst (FM ex_J)) None (Fin 0) (FV [1; 1]) (Fin 1) = inl (c, s)).
  { assert (HV : exists p, validate_tol true (Fin (1/1000)) (Scalar (Fin (1/1000000))) (FV [1; 1]) = inl p).
    { unfold validate_tol. rewrite n0_RX. cbn [negb nltb RX xltb]. unfold Rltb.
      destruct (Rlt_dec (1/1000000) 0); [lra|]. destruct (Rlt_dec (1/1000) 0); [lra|]. eexists. reflexivity. }
    destruct HV as [[rt at_] HV]. unfold esd_init. cbn [p_max_step p_rtol_is_float p_rtol p_atol lam_opts]. rewrite HV, n0_RX. cbn [nleb RX xleb].
    unfold esc_ok in Hsc. cbv zeta.
    destruct (esd_coefs (sc_or (p_sc lam_opts) (em_sc m))) as [[[[kb1 kb2] al] gg]|]; [|contradiction].
    rewrite (esd_class_ok_all m Hm). cbn [negb option_map].
    assert (EM : @mat_of RX 2 None = [[Fin 1; Fin 0]; [Fin 0; Fin 1]]) by (cbn [mat_of length map]; rewrite eye_fin; reflexivity).
    match goal with |- context [@mat_of RX ?a ?b] => change (@mat_of RX a b) with (@mat_of RX 2 None) end. rewrite EM. cbn [lu_r forallb xfin andb negb map ex_f ex_solve].
    destruct (Req_EM_T (1 * 1 - 0 * 0) 0); [lra|]. unfold esd_first. cbn [p_first_step lam_opts]. rewrite n0_RX. cbn [nleb RX xleb nltb nabs nsub]. unfold xsub. cbn [xopp xadd xabs xltb]. unfold Rleb, Rltb.
    destruct (Rle_dec (1/2) 0); [lra|]. destruct (Rlt_dec (Rabs (1 + - 0)) (1/2)) as [H|H]; [exfalso; rewrite Rabs_pos_eq in H; lra|]. eexists. eexists. reflexivity. }
  destruct HI as (c & s & HI). destruct (init_again _ _ _ _ _ _ _ _ _ _ _ _ _ HI (or_intror eq_refl)) as (c1 & s1 & E). exists c, s. unfold esd_make. rewrite E. cbn [handle_M]. exact HI.
Qed.
(** the premises of C56 hold, the constructor returns, and its steps are those of C29 *)
Example C56_case m : In m esd_all -> exists c st,
  esd_make m lam_opts ex_L lu_r ex_solve ex_f (JacConst (FM ex_J)) (Mass1 (FV [1; 0])) (Fin 0) (FV [1; 1]) (Fin 1) = inl (c, st) /\
  linear_problem m lam_opts ex_f 2 (Some ex_X) ex_J ex_F 0 1 [1; 1] c st /\ e_yp st = FV [-1; -1].
Proof.
  intros Hm. destruct (ex_without_mass m Hm) as (c0 & s0 & E0).
  destruct (C56_index_one_accepted m lam_opts 2 ex_L lu_r ex_solve ex_f ex_F (JacConst (FM ex_J)) (Mass1 (FV [1; 0])) ex_X ex_I [1; 0] ex_I 0 0 1 [1; 1] c0 s0 ex_J
    (ex_args m Hm) ex_data ex_singular ex_rank_right ex_solves E0 eq_refl ex_index ex_consistent) as (c & st & E); [left; discriminate|].
  exists c, st. split; [exact E|]. split.
  - eapply (C56_linear m lam_opts 2 ex_L lu_r ex_solve ex_f ex_F ex_J (Mass1 (FV [1; 0])) ex_X ex_I [1; 0] ex_I 0 0 1 [1; 1] (fun _ _ => 0)).
    + apply ex_args, Hm. + apply ex_data. + apply ex_singular. + apply ex_shape.
    + intros t u q Lu Hq. destruct u as [|a [|b [|]]]; try discriminate Lu. two q Hq; unfold rmv, ex_F; cbn [rsum nth ex_J]; ring.
    + apply ex_env. + apply ex_exact. + apply ex_consistent. + exact E.
  - destruct (C56_consistent_start _ _ _ _ _ _ _ _ _ _ _ _ _ _ _ _ _ _ _ _ (ex_args m Hm) ex_data ex_singular E) as (y & yp & J & da & D1 & D2 & D3 & D4 & D5 & D6 & _ & _ & _ & D10 & D11 & D12).
    destruct (D12 ex_consistent) as [-> D13]. rewrite D3. destruct yp as [|a [|b [|]]]; try discriminate D6. cbn [map].
    pose proof (D13 0%nat ltac:(lia)) as Ea. unfold rmv in Ea. cbn [rsum nth ex_X ex_F] in Ea.
    assert (J = ex_J). { destruct D11 as [[_ D11]|D11]; cbn [jac_at0 jac_at1] in D11; destruct J as [|[|j1 [|j2 [|]]] [|[|j3 [|j4 [|]]] [|]]]; cbn [map ex_J] in D11; try discriminate D11; injection D11 as -> -> -> ->; reflexivity. }
    subst J. destruct D10 as [Hda D10]. pose proof (D10 _ ex_alg1) as Eb. unfold dot in Eb. cbn [rsum] in Eb. rewrite !rvec_nth in Eb by lia. unfold rmv in Eb. cbn [rsum nth ex_J ex_F] in Eb.
    assert (Hz : (1 - 1 - (1 - 1)) / da = 0) by (unfold Rdiv; ring). rewrite Hz in Eb. change (num RX) with xr. f_equal; [f_equal; lra|f_equal; f_equal; lra].
Qed.
