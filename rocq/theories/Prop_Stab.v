(** C24: linear stability of the implicit classes. *)
From Coquelicot Require Import Coquelicot.
From Coq Require Import String Reals Lra Psatz QArith Qreals Bool Lia List Arith.
From Verif Require Import Arith Common Stiff RK HStart RKInit RX Tableaux Classes Dense Ode RKReal RKInitReal Series OrderCheck OrderRK OrderModel RKSpecProofs
  ESDIRK ESDCls ESDGen ESDReal ESDStep ESDInv ESDTop Prop_ESD ESDLin ESDLin2 ESDLin3 ESDLin4 Prop_ESDLin Stab OrderIRK NormReal.
Import ListNotations.
Close Scope string_scope. Open Scope nat_scope. Open Scope R_scope.

(** ** specification
    [stability_value s A b z r] (Stab.v): one step of the method (A, b) for the scalar test equation
    u' = lam u with h lam = z multiplies u by r.
    For a linear system M y' = J y a mode is a complex left eigenvector: w J = lam w M;
    [mode d w M u] is its component w M u in the vector u. *)
Definition mode (d : nat) (w : nat -> C) (g : nat -> R) : C := csum d (fun i => Cmult (w i) (RtoC (g i))).
Definition component (d : nat) (w : nat -> C) (M : option (list (list R))) (u : list R) : C := mode d w (rmv_opt d M u).
Definition eigen_mode (d : nat) (M : option (list (list R))) (J : list (list R)) (w : nat -> C) (lam : C) : Prop :=
  forall u, length u = d -> mode d w (rmv d J u) = Cmult lam (component d w M u).
(** F(t, u) = J u *)
Definition homogeneous (d : nat) (J : list (list R)) (F : R -> list R -> list R) : Prop :=
  forall t u q, length u = d -> (q < d)%nat -> nth q (F t u) 0 = rmv d J u q.

(** ** tables *)
Lemma ast_TRBDF2 : astable_ok 2 TRBDF2_q = true. Proof. vm_cast_no_check (eq_refl true). Qed.
Lemma ast_TRX2 : astable_ok 16 TRX2_q = true. Proof. vm_cast_no_check (eq_refl true). Qed.
Lemma ast_KC3I : astable_ok 7680000 KC3I_q = true. Proof. vm_cast_no_check (eq_refl true). Qed.
Lemma ast_KC4I : astable_ok 3072 KC4I_q = true. Proof. vm_cast_no_check (eq_refl true). Qed.
Lemma ast_KC4Ia : astable_ok 1327625556641941971671236586128322393325925818503359945043863831126182249588007479523106657758975594090672874138178485946920296811422854626933831618611186793761607992033813237615058504908800 KC4Ia_q = true. Proof. vm_cast_no_check (eq_refl true). Qed.
Lemma ast_Kv3I : astable_ok 3000000000000000000000000000000000000000000000 Kv3I_q = true. Proof. vm_cast_no_check (eq_refl true). Qed.
Definition rho_Kv3I : Q := (-955264149458802824883360263) # 248417274358890067592012842670197175116639737.
Lemma lim_TRBDF2 : limit_ok TRBDF2_q p0 = true. Proof. vm_cast_no_check (eq_refl true). Qed.
Lemma lim_TRX2 : limit_ok TRX2_q (1, 0)%Q = true. Proof. vm_cast_no_check (eq_refl true). Qed.
Lemma lim_KC3I : limit_ok KC3I_q p0 = true. Proof. vm_cast_no_check (eq_refl true). Qed.
Lemma lim_KC4I : limit_ok KC4I_q p0 = true. Proof. vm_cast_no_check (eq_refl true). Qed.
Lemma lim_KC4Ia : limit_ok KC4Ia_q p0 = true. Proof. vm_cast_no_check (eq_refl true). Qed.
Lemma lim_Kv3I : limit_ok Kv3I_q (rho_Kv3I, 0)%Q = true. Proof. vm_cast_no_check (eq_refl true). Qed.

Lemma esd_stages_pos m : In m (@esd_all RX) -> (1 <= em_stages m)%nat.
Proof. intros [<-|[<-|[<-|[<-|[<-|[<-|[]]]]]]]; apply Nat.leb_le; reflexivity. Qed.
Lemma esd_tab m : In m (@esd_all RX) -> exists sg T, tab_of (em_stages m) (rA m) (rB m) (rd m) T /\ astable_ok sg T = true.
Proof.
  intros Hm. pose proof (esd_all_real m Hm) as RT. pose proof (esd_stages_pos m Hm) as Hs.
  destruct Hm as [<-|[<-|[<-|[<-|[<-|[<-|[]]]]]]].
  - exact (ex_intro _ _ (ex_intro _ _ (conj (tab_of_class _ _ of_TRBDF2 RT Hs) ast_TRBDF2))).
  - exact (ex_intro _ _ (ex_intro _ _ (conj (tab_of_class _ _ of_TRX2 RT Hs) ast_TRX2))).
  - exact (ex_intro _ _ (ex_intro _ _ (conj (tab_of_class _ _ of_KC3I RT Hs) ast_KC3I))).
  - exact (ex_intro _ _ (ex_intro _ _ (conj (tab_of_class _ _ of_KC4I RT Hs) ast_KC4I))).
  - exact (ex_intro _ _ (ex_intro _ _ (conj (tab_of_class _ _ of_KC4Ia RT Hs) ast_KC4Ia))).
  - exact (ex_intro _ _ (ex_intro _ _ (conj (tab_of_class _ _ of_Kv3I RT Hs) ast_Kv3I))).
Qed.
Lemma esd_d_gt m : In m (@esd_all RX) -> 0 < rd m.
Proof.
  intros Hm. destruct (esd_tab m Hm) as (sg & T & HT & HA). unfold astable_ok in HA. cbv zeta in HA. rewrite !andb_true_iff in HA. destruct HA as ((((Hd & _) & _) & _) & _).
  apply kpos_ok in Hd. pose proof (esd_d_pos m Hm). pose proof (to_g _ _ _ _ _ HT) as E. change (q2v (qd T)) with (kv (qd T)) in E. lra.
Qed.
Lemma esd_denom m z : In m (@esd_all RX) -> fst z <= 0 -> Cminus (RtoC 1) (Cmult z (RtoC (rd m))) <> RtoC 0.
Proof.
  intros Hm Hz. pose proof (esd_d_gt m Hm). intros E. destruct z as [x y]. unfold Cminus, Cplus, Copp, Cmult, RtoC in E. cbn [fst snd] in *. injection E as E1 E2. nra.
Qed.

(** ** C24: A-stability. For every z in the closed left half plane the step of the test equation is
    defined, unique, and does not increase the modulus. *)
Theorem C24_A_stable m z : In m (@esd_all RX) -> fst z <= 0 ->
  exists r, stability_value (em_stages m) (rA m) (rB m) z r /\ (forall r', stability_value (em_stages m) (rA m) (rB m) z r' -> r' = r) /\ Cmod r <= 1.
Proof.
  intros Hm Hz. destruct (esd_tab m Hm) as (sg & T & HT & HA). pose proof (esd_denom m z Hm Hz) as HD.
  destruct (stability_exists _ _ _ _ T z HT HD) as (r & Hr). exists r. split; [exact Hr|]. split.
  - intros r' Hr'. destruct (stability_rational _ _ _ _ T z r HT Hr) as [E1 E2]. destruct (stability_rational _ _ _ _ T z r' HT Hr') as [E1' _].
    assert (N : cev (q_denom T) z <> RtoC 0) by (rewrite E2; apply cpow_nz; exact HD).
    rewrite <- E1 in E1'. assert (E : Cmult (Cinv (cev (q_denom T) z)) (Cmult (cev (q_denom T) z) r') = Cmult (Cinv (cev (q_denom T) z)) (Cmult (cev (q_denom T) z) r)) by (rewrite E1'; reflexivity).
    rewrite !Cmult_assoc, Cinv_l, !Cmult_1_l in E by exact N. exact E.
  - exact (astable sg _ _ _ _ T z r HT HA Hz Hr).
Qed.

(** ** C24: behaviour at infinity *)
Definition limits : list (EMeth RX * R) :=
  [(TRBDF2_m, 0); (TRX2_m, 1); (KC3I_m, 0); (KC4I_m, 0); (KC4Ia_m, 0); (Kv3I_m, Q2R rho_Kv3I)].
Theorem C24_at_infinity m rho : In (m, rho) limits ->
  exists c R0, forall z r, R0 <= Cmod z -> stability_value (em_stages m) (rA m) (rB m) z r -> Cmod (Cminus r (RtoC rho)) <= c / Cmod z.
Proof.
  intros H. assert (Hm : In m (@esd_all RX)).
  { repeat (destruct H as [H|H]; [injection H as <- _; cbn; tauto|]). destruct H. }
  pose proof (esd_all_real m Hm) as RT. pose proof (esd_stages_pos m Hm) as Hs. pose proof (esd_d_gt m Hm) as Hd.
  assert (G : forall T k, of_qtab m T -> limit_ok T k = true -> exists c R0, forall z r, R0 <= Cmod z -> stability_value (em_stages m) (rA m) (rB m) z r -> Cmod (Cminus r (RtoC (kv k))) <= c / Cmod z).
  { intros T k HT HL. exact (at_infinity _ _ _ _ T k (tab_of_class m T HT RT Hs) Hd HL). }
  destruct H as [H|[H|[H|[H|[H|[H|[]]]]]]]; injection H as <- <-.
  - rewrite <- kv_0. exact (G _ _ of_TRBDF2 lim_TRBDF2).
  - rewrite <- kv_1. exact (G _ _ of_TRX2 lim_TRX2).
  - rewrite <- kv_0. exact (G _ _ of_KC3I lim_KC3I).
  - rewrite <- kv_0. exact (G _ _ of_KC4I lim_KC4I).
  - rewrite <- kv_0. exact (G _ _ of_KC4Ia lim_KC4Ia).
  - replace (Q2R rho_Kv3I) with (kv (rho_Kv3I, 0)%Q) by (unfold kv; cbn [cv Q2N fst snd]; rewrite Q2R_0'; ring). exact (G _ _ of_Kv3I lim_Kv3I).
Qed.
(** Kv3I: its coefficients are rounded to 15 digits; the limit is not 0 but tiny *)
Theorem C24_Kv3I_limit : Q2R rho_Kv3I <> 0 /\ Rabs (Q2R rho_Kv3I) <= 4 / 10 ^ 18.
Proof.
  split.
  - replace 0 with (Q2R 0) by apply Q2R_0'. intros E. apply eqR_Qeq in E. apply Qeq_bool_iff in E. vm_compute in E. discriminate.
  - rewrite <- OrderIRK.Q2R_abs. replace (4 / 10 ^ 18) with (Q2R (4 # 1000000000000000000)) by (unfold Q2R; cbn [Qnum Qden]; lra). apply Qle_Rle, Qle_bool_iff. vm_compute. reflexivity.
Qed.
(** TRX2 is not L-stable: very stiff modes are not damped *)
Theorem C24_TRX2_no_damping_refuted : exists R0, forall z r, R0 <= Cmod z -> stability_value (em_stages (@TRX2_m RX)) (rA TRX2_m) (rB TRX2_m) z r -> 1 / 2 <= Cmod r.
Proof.
  destruct (C24_at_infinity TRX2_m 1 ltac:(cbn; tauto)) as (c & R0 & H). exists (Rmax R0 (2 * Rabs c + 1)). intros z r Hz HV.
  assert (H1 := Rmax_l R0 (2 * Rabs c + 1)). assert (H2 := Rmax_r R0 (2 * Rabs c + 1)). specialize (H z r ltac:(lra) HV). pose proof (Rabs_pos c). pose proof (Rle_abs c).
  assert (c / Cmod z <= 1 / 2). { apply Rmult_le_reg_r with (Cmod z); [lra|]. unfold Rdiv. rewrite Rmult_assoc, Rinv_l by lra. lra. }
  assert (Cmod (RtoC 1) <= Cmod r + Cmod (Cminus r (RtoC 1))).
  { replace (RtoC 1) with (Cplus r (Copp (Cminus r (RtoC 1)))) at 1 by ring. eapply Rle_trans; [apply Cmod_triangle|]. rewrite Cmod_opp. lra. }
  rewrite Cmod_1 in *. lra.
Qed.

(** ** the step of a linear system, mode by mode *)
Lemma csum_plus n f g : csum n (fun i => Cplus (f i) (g i)) = Cplus (csum n f) (csum n g).
Proof. induction n as [|n IH]; cbn [csum]; [ring|]. rewrite IH. ring. Qed.
Lemma component_lin d w M u v x a b : (forall l, (l < d)%nat -> nth l x 0 = a * nth l u 0 + b * nth l v 0) ->
  component d w M x = Cplus (Cmult (RtoC a) (component d w M u)) (Cmult (RtoC b) (component d w M v)).
Proof.
  intros H. unfold component, mode. rewrite <- !csum_scal, <- csum_plus. apply csum_ext. intros i Hi. rewrite (rmv_opt_lin d M u v x a b i Hi H), RtoC_add, !RtoC_mul. ring.
Qed.
Lemma component_point d w M y h (wt : nat -> R) ks : forall s,
  component d w M (rpoint d y h (lcomb s wt ks)) = Cplus (component d w M y) (Cmult (RtoC h) (csum s (fun l => Cmult (RtoC (wt l)) (component d w M (nth l ks []))))).
Proof.
  induction s as [|s IH].
  - rewrite (component_lin d w M y y _ 1 0); [cbn [csum]; ring|]. intros l Hl. rewrite rpoint_nth by exact Hl. unfold lcomb. cbn [rsum]. ring.
  - rewrite (component_lin d w M (rpoint d y h (lcomb s wt ks)) (nth s ks []) _ 1 (h * wt s)); [rewrite IH; cbn [csum]; rewrite RtoC_mul; ring|].
    intros l Hl. rewrite !rpoint_nth by exact Hl. unfold lcomb. cbn [rsum]. ring.
Qed.
Lemma mode_ext d w f g : (forall q, (q < d)%nat -> f q = g q) -> mode d w f = mode d w g.
Proof. intros H. apply csum_ext. intros i Hi. rewrite H by exact Hi. reflexivity. Qed.

(** One step multiplies the component of the mode with eigenvalue lam by the stability value at
    h lam (whenever the stages of the test equation are determined, in particular for
    Re (h lam) <= 0). *)
Theorem C24_step m d M J F w lam t h y ks y' r : In m (@esd_all RX) ->
  irk_step (em_stages m) d (rA m) (rB m) (rC m) M F t h y ks y' -> homogeneous d J F -> eigen_mode d M J w lam ->
  Cminus (RtoC 1) (Cmult (Cmult (RtoC h) lam) (RtoC (rd m))) <> RtoC 0 ->
  stability_value (em_stages m) (rA m) (rB m) (Cmult (RtoC h) lam) r ->
  component d w M y' = Cmult r (component d w M y).
Proof.
  intros Hm (Lk & HS & Hy') HF HE HD (k & Hk & Hr). pose proof (esd_all_real m Hm) as RT. set (s := em_stages m) in *. set (z := Cmult (RtoC h) lam) in *. set (Y := component d w M y).
  set (kc := fun i => component d w M (nth i ks [])).
  assert (K1 : forall i, (i < s)%nat -> kc i = Cmult lam (Cplus Y (Cmult (RtoC h) (csum s (fun l => Cmult (RtoC (rA m i l)) (kc l)))))).
  { intros i Hi. destruct (HS i Hi) as [Li Hi2]. unfold kc at 1, component. rewrite (mode_ext d w _ (rmv d J (rpoint d y h (lcomb s (rA m i) ks)))).
    - rewrite HE by apply rpoint_len. rewrite component_point. reflexivity.
    - intros q Hq. rewrite Hi2 by exact Hq. apply HF; [apply rpoint_len|exact Hq]. }
  assert (K2 : forall i, (i < s)%nat -> Cmult (RtoC h) (kc i) = Cmult (k i) Y).
  { intros i. induction i as [i IH] using (well_founded_induction lt_wf). intros Hi.
    assert (S1 : forall f : nat -> C, csum s (fun l => Cmult (RtoC (rA m i l)) (f l)) = Cplus (csum i (fun l => Cmult (RtoC (rA m i l)) (f l))) (Cmult (RtoC (rA m i i)) (f i))).
    { intros f. rewrite (csum_tail0 (S i)); [reflexivity|lia|]. intros l Hl. rewrite (rt_low m RT) by lia. ring. }
    pose proof (K1 i Hi) as E1. pose proof (Hk i Hi) as E2. rewrite S1 in E1, E2.
    assert (E3 : Cmult (RtoC h) (csum i (fun l => Cmult (RtoC (rA m i l)) (kc l))) = Cmult (csum i (fun l => Cmult (RtoC (rA m i l)) (k l))) Y).
    { rewrite <- csum_scal. rewrite (Cmult_comm _ Y), <- csum_scal. apply csum_ext. intros l Hl. pose proof (IH l Hl ltac:(lia)) as E. replace (Cmult (RtoC h) (Cmult (RtoC (rA m i l)) (kc l))) with (Cmult (RtoC (rA m i l)) (Cmult (RtoC h) (kc l))) by ring. rewrite E. ring. }
    set (a := RtoC (rA m i i)) in *. set (S2 := csum i (fun l => Cmult (RtoC (rA m i l)) (kc l))) in *. set (S3 := csum i (fun l => Cmult (RtoC (rA m i l)) (k l))) in *.
    assert (N : Cminus (RtoC 1) (Cmult z a) <> RtoC 0).
    { unfold a. destruct i as [|i]; [rewrite (rt_00 m RT)|rewrite (rt_diag m RT) by lia; exact HD]. replace (Cminus (RtoC 1) (Cmult z (RtoC 0))) with (RtoC 1) by ring. intros E; injection E; lra. }
    set (u := kc i) in *. set (v := k i) in *. clearbody u v S2 S3 a Y.
    assert (P1 : Cmult (Cminus (RtoC 1) (Cmult z a)) (Cmult (RtoC h) u) = Cmult z (Cplus Y (Cmult (RtoC h) S2))).
    { replace (Cmult (Cminus (RtoC 1) (Cmult z a)) (Cmult (RtoC h) u)) with (Cminus (Cmult (RtoC h) u) (Cmult (RtoC h) (Cmult z (Cmult a u)))) by ring. rewrite E1 at 1. unfold z. ring. }
    assert (P2 : Cmult (Cminus (RtoC 1) (Cmult z a)) (Cmult v Y) = Cmult z (Cplus Y (Cmult S3 Y))).
    { replace (Cmult (Cminus (RtoC 1) (Cmult z a)) (Cmult v Y)) with (Cmult (Cminus v (Cmult z (Cmult a v))) Y) by ring. rewrite E2 at 1. ring. }
    rewrite E3, <- P2 in P1. set (p := Cminus (RtoC 1) (Cmult z a)) in *. clearbody p.
    assert (E : Cmult (Cinv p) (Cmult p (Cmult (RtoC h) u)) = Cmult (Cinv p) (Cmult p (Cmult v Y))) by (rewrite P1; reflexivity). rewrite !Cmult_assoc, Cinv_l, !Cmult_1_l in E by exact N.
    rewrite <- E. ring. }
  rewrite Hy', component_point, Hr. fold Y. rewrite Cmult_plus_distr_r, Cmult_1_l. f_equal. rewrite <- csum_scal. rewrite (Cmult_comm _ Y), <- csum_scal. apply csum_ext. intros l Hl. pose proof (K2 l Hl) as E.
  replace (Cmult (RtoC h) (Cmult (RtoC (rB m l)) (component d w M (nth l ks [])))) with (Cmult (RtoC (rB m l)) (Cmult (RtoC h) (kc l))) by (unfold kc; ring). rewrite E. ring.
Qed.

(** ** the solver *)
(** Every successful step() on M y' = J y multiplies the component of a mode with
    Re lam (tb - t0) <= 0 by the stability value of h lam, so it never grows: whatever the step size
    control does. *)
Theorem C24_solver_step m o f d M J F t0 tb y0 c n v k v' w lam :
  linear_after m o f d M J F t0 tb y0 c n v -> esd_step m c k v = OOk v' -> (forall msg, ostat v' <> OFailed msg) ->
  homogeneous d J F -> eigen_mode d M J w lam -> fst lam * (tb - t0) <= 0 ->
  exists t h y y' r, e_t (ost v) = Fin t /\ e_y (ost v) = map Fin y /\ e_t (ost v') = Fin (t + h) /\ e_y (ost v') = map Fin y' /\
    stability_value (em_stages m) (rA m) (rB m) (Cmult (RtoC h) lam) r /\
    component d w M y' = Cmult r (component d w M y) /\ Cmod r <= 1.
Proof.
  intros HA HS Hst HF HE Hl. destruct (C29_linear_step _ _ _ _ _ _ _ _ _ _ _ _ _ _ _ HA HS Hst) as (t & h & y & ks & y' & E1 & E2 & Hh & E3 & E4 & _ & HI & _).
  assert (Hm : In m (@esd_all RX)) by (destruct HA as ((Hm & _) & _); exact Hm).
  assert (HAf : esd_after m o f t0 tb (map Fin y0) c n v) by (destruct HA as (HA & s & HP & HH); split; [exact HA|exists s; split; [eapply linear_built; exact HP|exact HH]]).
  destruct (C46_step _ _ _ _ _ _ _ _ _ _ _ HAf HS) as (dd & x & Hd & Hd2 & _ & Ex & _ & [(x' & Ex' & Hx & _)|(Hf & _)]); [|exfalso; exact (Hst _ Hf)].
  rewrite E1 in Ex. rewrite E3 in Ex'. injection Ex as <-. injection Ex' as <-.
  assert (Hz : fst (Cmult (RtoC h) lam) <= 0).
  { pose proof sqrt_tiny_pos. unfold Cmult, RtoC. cbn [fst snd]. assert (0 < dd * h) by lra. destruct Hd as [-> | ->]; nra. }
  destruct (C24_A_stable m (Cmult (RtoC h) lam) Hm Hz) as (r & Hr & _ & Hr1).
  exists t, h, y, y', r. do 4 (split; [assumption|]). split; [exact Hr|]. split; [|exact Hr1].
  apply (C24_step m d M J F w lam t h y ks y' r Hm HI HF HE); [apply esd_denom; assumption|exact Hr].
Qed.

Lemma map_Fin_inj (u v : list R) : map Fin u = map Fin v -> u = v.
Proof. revert v. induction u as [|a u IH]; intros [|b v] H; try discriminate H; [reflexivity|]. injection H as E H. f_equal; auto. Qed.
(** ... and hence over a whole integration: the component never exceeds its initial modulus
    (y1 is the initial value the solver starts with: y0, or the consistent one for a DAE). *)
Theorem C24_solver m o f d M J F t0 tb y0 c n v w lam :
  linear_after m o f d M J F t0 tb y0 c n v -> (ostat v = ORunning \/ ostat v = OFinished) ->
  homogeneous d J F -> eigen_mode d M J w lam -> fst lam * (tb - t0) <= 0 ->
  exists s y1 y, linear_problem m o f d M J F t0 tb y0 c s /\ e_y s = map Fin y1 /\ e_y (ost v) = map Fin y /\ Cmod (component d w M y) <= Cmod (component d w M y1).
Proof.
  intros (HA & s & HP & HH) Hst HF HE Hl. exists s. destruct (linear_setup _ _ _ _ _ _ _ _ _ _ _ _ HA HP) as (_ & _ & _ & y1 & yp & HS1). pose proof HS1 as (_ & Ey1 & _). exists y1.
  remember (onew s) as v0. revert Heqv0 Hst. induction HH as [v|v n v1 v2 k HH IH HS]; intros -> Hst.
  - exists y1. cbn [onew ost]. repeat (split; [assumption|]). lra.
  - assert (R1 : ostat v1 = ORunning) by (unfold ostep in HS; destruct (ostat v1); [reflexivity|discriminate|discriminate]).
    destruct (IH eq_refl (or_introl R1)) as (y & _ & _ & Ey & Hy).
    destruct (C24_solver_step m o f d M J F t0 tb y0 c n v1 k v2 w lam) as (t & h & ya & yb & r & _ & E2 & _ & E4 & _ & Hc & Hr); auto.
    + split; [exact HA|exists s; split; assumption].
    + intros msg E. rewrite E in Hst. destruct Hst; discriminate.
    + exists yb. do 3 (split; [assumption|]). rewrite Ey in E2. apply map_Fin_inj in E2. subst ya. rewrite Hc, Cmod_mult. pose proof (Cmod_ge_0 (component d w M y)). nra.
Qed.

(** ** the hypotheses are met *)
(** the plane rotation with damping has the complex mode u_0 + i u_1 *)
Example C24_case_rotation (a b : R) : eigen_mode 2 None [[a; - b]; [b; a]] (fun i => match i with O => RtoC 1 | _ => Ci end) (a, b).
Proof.
  intros [|u0 [|u1 [|]]] L; try discriminate L. unfold eigen_mode, component, mode, rmv_opt, rmv. cbn [csum rsum nth]. unfold Ci, RtoC, Cplus, Cmult. cbn [fst snd]. f_equal; ring.
Qed.
Example C24_case m lam : In m (@esd_all RX) -> lam <= 0 -> exists c s,
  linear_after m lam_opts (lam_x lam) 1 None [[lam]] (lam_r lam) 0 1 [1] c 0 (onew s) /\ homogeneous 1 [[lam]] (lam_r lam) /\
  eigen_mode 1 None [[lam]] (fun _ => RtoC 1) (RtoC lam) /\ fst (RtoC lam) * (1 - 0) <= 0 /\ component 1 (fun _ => RtoC 1) None [1] = RtoC 1.
Proof.
  intros Hm Hl. destruct (C29_case m lam Hm) as (c & s & HA & HP). exists c, s. split; [split; [exact HA|exists s; split; [exact HP|constructor]]|]. split; [|split; [|split]].
  - intros t u q Lu Hq. destruct u as [|a [|]]; try discriminate Lu. replace q with 0%nat by lia. unfold rmv, lam_r. cbn [rsum nth]. ring.
  - intros [|u0 [|]] L; try discriminate L. unfold component, mode, rmv_opt, rmv. cbn [csum rsum nth]. unfold RtoC, Cplus, Cmult. cbn [fst snd]. f_equal; ring.
  - cbn [fst RtoC]. lra.
  - unfold component, mode, rmv_opt. cbn [csum rsum nth]. unfold RtoC, Cplus, Cmult. cbn [fst snd]. f_equal; ring.
Qed.
