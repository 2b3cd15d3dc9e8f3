(** C53: step size control and acceptance of the implicit solvers, along whole runs. *)
From Coq Require Import String Reals Lra Psatz ZArith QArith Qreals Bool List Lia.
From Verif Require Import Arith Common RX QX RK RKInit RKInitReal RKReal Ode ESDIRK ESDCls ESDGen ESDReal ESDTop SpecCtl SpecESD ESDCtl Prop_Ctl Prop_ESD.
Import ListNotations.
Close Scope string_scope.
Open Scope nat_scope.

(** ** specification: the plans of a whole run *)
Definition one_step {A : Arith} (m : EMeth A) (c : ECfg A) (k : nat) (v : OSolver A (ES A)) := ostep eview (x_tb c) (x_dir c) (estep_impl m c k) v.
Definition esteps {A : Arith} (m : EMeth A) (c : ECfg A) (s0 : ES A) := ohist eview (x_tb c) (x_dir c) (fun k => estep_impl m c k) (onew s0).
Inductive efollows {A : Arith} (L : Law A) (m : EMeth A) (c : ECfg A) (s0 : ES A) : nat -> Plan A -> OSolver A (ES A) -> Prop :=
| efollows0 : efollows L m c s0 0 {| size := e_habs s0; past := None; cap := lit 10 |} (onew s0)
| efollowsS j p v k v' p' : efollows L m c s0 j p v -> one_step m c k v = OOk v' -> eplanned L m c p (ost v) (ost v') p' -> efollows L m c s0 (S j) p' v'.
(** something is left to integrate *)
Definition unfinished {A : Arith} (c : ECfg A) (v : OSolver A (ES A)) : Prop := length (e_y (ost v)) <> 0 /\ neqb A (e_t (ost v)) (x_tb c) = false.
(** every running state of a run has a plan, made from the plans before it; its size is the attribute h_abs;
    the next successful step follows it *)
Definition econtrolled {A : Arith} (L : Law A) (m : EMeth A) (c : ECfg A) (s0 : ES A) : Prop :=
  forall j v, esteps m c s0 j v -> ostat v = ORunning ->
  exists p, efollows L m c s0 j p v /\ size p = e_habs (ost v) /\
    forall k v', one_step m c k v = OOk v' -> (forall msg, ostat v' <> OFailed msg) -> unfinished c v ->
      exists p', eplanned L m c p (ost v) (ost v') p' /\ size p' = e_habs (ost v').
Definition elaw_of {A : Arith} (m : EMeth A) (kb1 kb2 a g : num A) : Law A :=
  {| l_q := Nat.min (em_order2 m) (em_order m); l_kb1 := kb1; l_kb2 := kb2; l_a := a; l_g := g |}.

(** ** proofs *)
Lemma econtrol_core {A : Arith} (L : Law A) (m : EMeth A) (c : ECfg A) (s0 : ES A) : (1 <= em_stages m)%nat -> elawful c L ->
  plan_is {| size := e_habs s0; past := None; cap := lit 10 |} s0 -> ctl_inv m c s0 -> econtrolled L m c s0.
Proof.
  intros Hm HL HP HI.
  assert (G : forall j v, esteps m c s0 j v -> ostat v = ORunning -> exists p, efollows L m c s0 j p v /\ plan_is p (ost v) /\ ctl_inv m c (ost v)).
  { intros j v Hh. unfold esteps in Hh. remember (onew s0) as v0 eqn:E0. induction Hh as [v|v n v1 v2 k Hh IH HS]; intros Hr; subst v.
    - eexists. split; [constructor|]. split; [exact HP|exact HI].
    - pose proof HS as HS'. unfold ostep in HS. destruct (ostat v1) eqn:E1; try discriminate. destruct (IH eq_refl eq_refl) as (p & F1 & F2 & F3). clear IH.
      destruct (_ || _) in HS; [injection HS as <-; discriminate Hr|].
      destruct (estep_impl m c k (ost v1)) as [s'|s' msg|e|] eqn:EI; try discriminate; injection HS as <-; [|discriminate Hr]. cbn [ost] in *.
      destruct (impl_eplan m c L (ost v1) Hm HL k s' p F2 F3 EI) as (p' & G1 & G2 & G3).
      exists p'. split; [econstructor; [exact F1|exact HS'|exact G1]|]. split; [exact G2|exact G3]. }
  intros j v Hh Hr. destruct (G j v Hh Hr) as (p & F1 & F2 & F3). exists p. split; [exact F1|]. split; [apply F2|].
  intros k v' HS Hnf (Hn & Ht). unfold one_step, ostep in HS. rewrite Hr in HS. cbn [eview v_n v_t] in HS. rewrite Ht in HS.
  destruct (Nat.eqb (length (e_y (ost v))) 0) eqn:E0; [apply Nat.eqb_eq in E0; contradiction|]. cbn [orb] in HS.
  destruct (estep_impl m c k (ost v)) as [s'|s' msg|e|] eqn:EI; try discriminate; injection HS as <-; [|exfalso; exact (Hnf msg eq_refl)]. cbn [ost].
  destruct (impl_eplan m c L (ost v) Hm HL k s' p F2 F3 EI) as (p' & G1 & G2 & _). exists p'. split; [exact G1|apply G2].
Qed.

(** C53: problems with or without a mass matrix *)
Theorem C53_controller (A : Arith) (m : EMeth A) o luok solve f jac M t0 y0 tb c s0 kb1 kb2 a g : In m esd_all ->
  esd_init m o luok solve f jac M t0 y0 tb = inl (c, s0) -> esd_coefs (sc_or (p_sc o) (em_sc m)) = inl (kb1, kb2, a, g) ->
  econtrolled (elaw_of m kb1 kb2 a g) m c s0.
Proof.
  intros Hm HI HS. destruct (einit_law m o luok solve f jac M t0 y0 tb c s0 kb1 kb2 a g HI HS) as (L1 & L2 & L3).
  apply econtrol_core; auto. clear - Hm. unfold esd_all in Hm. cbn [In] in Hm. repeat (destruct Hm as [<-|Hm]; [apply Nat.leb_le; reflexivity|]). contradiction.
Qed.
(** differential-algebraic problems *)
Theorem C53_controller_dae (A : Arith) (m : EMeth A) o luok solve f jac M U nAE t0 y0 tb ics c s0 kb1 kb2 a g : In m esd_all ->
  esd_init_dae m o luok solve f jac M U nAE t0 y0 tb ics = inl (c, s0) -> esd_coefs (sc_or (p_sc o) (em_sc m)) = inl (kb1, kb2, a, g) ->
  econtrolled (elaw_of m kb1 kb2 a g) m c s0.
Proof.
  intros Hm HI HS. destruct (einit_law_dae m o luok solve f jac M U nAE t0 y0 tb ics c s0 kb1 kb2 a g HI HS) as (L1 & L2 & L3).
  apply econtrol_core; auto. clear - Hm. unfold esd_all in Hm. cbn [In] in Hm. repeat (destruct Hm as [<-|Hm]; [apply Nat.leb_le; reflexivity|]). contradiction.
Qed.

(** ** the values of sc_params: (kb1, kb2, a, g) *)
Open Scope R_scope.
Definition edocumented (name : string) : option (R * R * R * R) :=
  if String.eqb name "G" then Some (2, - (1), - (1), 8/10) else
  if String.eqb name "standard" then Some (1, 0, 0, 8/10) else None.
Theorem C53_names : (forall name kb1 kb2 a g, edocumented name = Some (kb1, kb2, a, g) -> @esd_coefs RX (ScName name) = inl (Fin kb1, Fin kb2, Fin a, Fin g)) /\
  (forall kb1 kb2 a g, @esd_coefs RX (ScTuple [kb1; kb2; a; g]) = inl (kb1, kb2, a, g)) /\
  (forall m, In m (@esd_all RX) -> sc_or ScNone (em_sc m) = ScName "G").
Proof.
  split; [|split; [reflexivity|]].
  - intros name kb1 kb2 a g. unfold edocumented, esd_coefs.
    assert (E1 : @lit RX 2 = Fin 2) by litR. assert (E2 : @lit RX (-1) = Fin (- (1))) by litR. assert (E3 : @lit RX (8#10) = Fin (8/10)) by litR. rewrite E1, E2, E3, n0_RX, n1_RX.
    destruct (String.eqb name "G"); [intros E; injection E as <- <- <- <-; reflexivity|].
    destruct (String.eqb name "S") eqn:ES; [apply String.eqb_eq in ES; subst name; intros E; discriminate E|].
    destruct (String.eqb name "standard"); [intros E; injection E as <- <- <- <-; reflexivity|]. intros E. discriminate E.
  - intros m H. destruct (esd_all_C m H) as (_ & _ & ->). reflexivity.
Qed.
(** the documentation gives "S" as (0.6, -0.2, 0, 0.8), the code uses (1.1, -0.7, -1, 0.8) *)
Theorem C53_soederlind_refuted : @esd_coefs RX (ScName "S") <> inl (Fin (6/10), Fin (- (2/10)), Fin 0, Fin (8/10)) /\
  @esd_coefs RX (ScName "S") = inl (Fin (11/10), Fin (- (7/10)), Fin (- (1)), Fin (8/10)).
Proof.
  assert (E : @esd_coefs RX (ScName "S") = inl (Fin (11/10), Fin (- (7/10)), Fin (- (1)), Fin (8/10))).
  { unfold esd_coefs. cbn [String.eqb Ascii.eqb Bool.eqb]. assert (E1 : @lit RX (11#10) = Fin (11/10)) by litR. assert (E2 : @lit RX (-7#10) = Fin (- (7/10))) by litR.
    assert (E3 : @lit RX (8#10) = Fin (8/10)) by litR. assert (E4 : @lit RX (-1) = Fin (- (1))) by litR. rewrite E1, E2, E3, E4. reflexivity. }
  split; [|exact E]. rewrite E. intros F. injection F as F _ _. lra.
Qed.

(** a run of y' = -y^2, y(0) = 1 with TRX2 and first_step = 20: in the first step two trials are given up by
    Newton's iteration and one is refused for its error; the third step follows the second law *)
Close Scope R_scope.
Definition square : num QX -> list (num QX) -> list (num QX) := fun _ y => map (fun a => q_opp (nmul QX a a)) y.
Definition square_jac : nat -> num QX -> list (num QX) -> list (list (num QX)) := fun _ _ y => [map (fun a => nmul QX (QF (-2)) a) y].
Definition ctl_eo : EOpts QX := eo QPInf (QF (1#100)) (QF (1#1000)) (Some (QF 20)).
Definition chk_einit (m : EMeth QX) o f jac t0 y0 tb (P : ECfg QX -> ES QX -> bool) : bool :=
  match esd_init m o lu1 solve1 f jac None t0 y0 tb with inl (c, s) => P c s | inr _ => false end.
Definition chk_one (k : nat) (m : EMeth QX) (c : ECfg QX) (v : OSolver QX (ES QX)) (P : OSolver QX (ES QX) -> bool) : bool :=
  match one_step m c k v with OOk v' => P v' | _ => false end.
Lemma chk_einit_spec m o f jac t0 y0 tb P : chk_einit m o f jac t0 y0 tb P = true ->
  exists c s, esd_init m o lu1 solve1 f jac None t0 y0 tb = inl (c, s) /\ P c s = true.
Proof. unfold chk_einit. destruct (esd_init _ _ _ _ _ _ _ _ _ _) as [[c s]|]; [|discriminate]. eauto. Qed.
Lemma chk_one_spec k m c v P : chk_one k m c v P = true -> exists v', one_step m c k v = OOk v' /\ P v' = true.
Proof. unfold chk_one. destruct (one_step m c k v) as [v'| |]; try discriminate. eauto. Qed.
Definition is_orun (x : ostatus) : bool := match x with ORunning => true | _ => false end.
Example C53_case : exists c s v1 v2 v3,
  esd_init TRX2_m ctl_eo lu1 solve1 square (@JacFun QX square_jac) None (QF 0) [QF 1] (QF 40) = inl (c, s) /\ In TRX2_m (@esd_all QX) /\
  esd_coefs (sc_or (p_sc ctl_eo) (em_sc (@TRX2_m QX))) = inl (lit 2, lit (-1), lit (-1), lit (8#10)) /\
  esteps TRX2_m c s 1 v1 /\ esteps TRX2_m c s 2 v2 /\ ostat v2 = ORunning /\ one_step TRX2_m c 9 v2 = OOk v3 /\ (forall msg, ostat v3 <> OFailed msg) /\ unfinished c v2 /\
  w_nfs (e_w (ost v1)) = 1 /\ w_nfi (e_w (ost v1)) = 2 /\ w_std (e_w (ost v2)) = false.
Proof.
  destruct (chk_einit_spec TRX2_m ctl_eo square (@JacFun QX square_jac) (QF 0) [QF 1] (QF 40)
    (fun c s => chk_one 9 TRX2_m c (onew s) (fun v1 => Nat.eqb (w_nfs (e_w (ost v1))) 1 && (Nat.eqb (w_nfi (e_w (ost v1))) 2 &&
       chk_one 9 TRX2_m c v1 (fun v2 => is_orun (ostat v2) && (negb (w_std (e_w (ost v2))) && (negb (Nat.eqb (length (e_y (ost v2))) 0) && (negb (neqb QX (e_t (ost v2)) (x_tb c)) &&
       chk_one 9 TRX2_m c v2 (fun v3 => is_orun (ostat v3)))))))))) as (c & s & HI & HC).
  { vm_compute. reflexivity. }
  destruct (chk_one_spec _ _ _ _ _ HC) as (v1 & H1 & HP). clear HC. apply andb_true_iff in HP. destruct HP as (P1 & HP). apply andb_true_iff in HP. destruct HP as (P2 & HP).
  destruct (chk_one_spec _ _ _ _ _ HP) as (v2 & H2 & HQ). clear HP. apply andb_true_iff in HQ. destruct HQ as (P3 & HP). apply andb_true_iff in HP. destruct HP as (P4 & HP).
  apply andb_true_iff in HP. destruct HP as (P5 & HP). apply andb_true_iff in HP. destruct HP as (P6 & HP).
  destruct (chk_one_spec _ _ _ _ _ HP) as (v3 & H3 & P7). clear HP.
  exists c, s, v1, v2, v3. split; [exact HI|]. split; [right; left; reflexivity|]. split; [reflexivity|].
  assert (T1 : esteps TRX2_m c s 1 v1) by (econstructor; [constructor|exact H1]). split; [exact T1|]. split; [econstructor; [exact T1|exact H2]|].
  split; [destruct (ostat v2); [reflexivity|discriminate P3|discriminate P3]|]. split; [exact H3|].
  split; [intros msg E; rewrite E in P7; discriminate P7|]. split.
  { split; [apply Nat.eqb_neq, negb_true_iff; exact P5|apply negb_true_iff; exact P6]. }
  split; [apply Nat.eqb_eq; exact P1|]. split; [apply Nat.eqb_eq; exact P2|]. apply negb_true_iff; exact P4.
Qed.
