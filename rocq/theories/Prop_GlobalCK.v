(** C59: convergence of CKdisc, the variable order method (cash.py). *)
From Coq Require Import String ZArith Reals Lra Psatz QArith Qreals Bool Lia List Arith.
From Verif Require Import Arith Common Stiff RK RKGen RKHist RX RKReal HStart RKInit RKInitReal RKStep RKBuilt RKMore RKTop NormReal SpecRK
  Tableaux Classes Dense Ode CK CKGen CKReal Series Trees OrderThm OrderCheck OrderRK OrderModel OrderPair CKOrder CKTop DenseReal DenseStep DenseAcc DenseJoin DenseJoin2 Smooth
  GOrder UOrder UOrder2 GlobalRK GlobalPoly GlobalRun GlobalEst GlobalDense GlobalAny GlobalCK RKEx Prop_CK.
From Verif Require Prop_Global.
Import ListNotations.
Close Scope string_scope.
Open Scope nat_scope.
Open Scope R_scope.

(** ** specification *)
(** calls of step() whose accepted steps are at most H, with order_accepted in ords; max_step is not
    below the minimum step *)
Inductive ck_short (c : Cfg RX) (ords : list nat) (H : R) (v0 : OSolver RX (CKst RX)) : OSolver RX (CKst RX) -> Prop :=
| csh_start : ck_short c ords H v0 v0
| csh_step v1 v2 k : ck_short c ords H v0 v1 -> xleb (code_min_step c (ckb (ost v1))) (max_step c) = true -> ck_step c k v1 = OOk v2 ->
    (ok_step v2 -> In (ckord (ost v2)) ords) ->
    (forall x1 x2, t (ckb (ost v1)) = Fin x1 -> t (ckb (ost v2)) = Fin x2 -> Rabs (x2 - x1) <= H) -> ck_short c ords H v0 v2.
(** the same without conditions on the steps *)
Inductive ck_run (c : Cfg RX) (v0 : OSolver RX (CKst RX)) : OSolver RX (CKst RX) -> Prop :=
| crn_start : ck_run c v0 v0
| crn_step v1 v2 k : ck_run c v0 v1 -> xleb (code_min_step c (ckb (ost v1))) (max_step c) = true -> ck_step c k v1 = OOk v2 -> ck_run c v0 v2.
(** the solver is within [bound] of Y in all components, between t0 and tb, and at tb when it is finished *)
Definition ck_tracked (d : nat) (Y : R -> list R) (t0 tb : R) (v : OSolver RX (CKst RX)) (bound : R) : Prop :=
  exists x yr, t (ckb (ost v)) = Fin x /\ y (ckb (ost v)) = map Fin yr /\ length yr = d /\ within t0 tb x /\
    (ostat v = OFinished -> x = tb) /\ close d yr (Y x) bound.
(** values of order_accepted, and the order of the lowest of their members *)
Definition ck_families : list (list nat * nat) := [([4; 2; 1], 2); ([4; 2], 3); ([4], 5)]%nat.

(** ** runs *)
Lemma ck_short_after o g t0 tb y0 c s ords H v : ck_built o g t0 tb y0 c s -> ck_short c ords H (onew s) v -> exists n, ck_after o g t0 tb y0 c n v.
Proof.
  intros HB HS. induction HS as [|v1 v2 k HS (n & s1 & HB1 & IH) _ E _ _]; [exists 0%nat, s; split; [exact HB|constructor]|].
  exists (S n), s1. split; [exact HB1|]. econstructor; [exact IH|exact E].
Qed.
Lemma ck_failed_or (v : OSolver RX (CKst RX)) : (exists msg, ostat v = OFailed msg) \/ ok_step v.
Proof. unfold ok_step. destruct (ostat v) eqn:E; [right; intros; discriminate|right; intros; discriminate|left; eauto]. Qed.
Lemma ck_same (v : OSolver RX (CKst RX)) c k v2 : ck_step c k v = OOk v2 -> ck_failed v2 -> t (ckb (ost v2)) = t (ckb (ost v)) /\ y (ckb (ost v2)) = y (ckb (ost v)).
Proof. intros E (msg & Hf). destruct (C40_failure RX c _ _ k v v2 msg E Hf) as (A & B & _). auto. Qed.

(** an accepted step is a move *)
Lemma ck_step_move d F g o t0 tb y0 c n v k v' x u x' : lifts d F g -> (0 < d)%nat -> ck_after o g t0 tb y0 c n v -> ck_step c k v = OOk v' -> ok_step v' ->
  t (ckb (ost v)) = Fin x -> y (ckb (ost v)) = map Fin u -> length u = d -> t (ckb (ost v')) = Fin x' ->
  exists u', y (ckb (ost v')) = map Fin u' /\ length u' = d /\ ck_move F d [ckord (ost v')] x u (x' - x) u' /\ In (ckord (ost v')) [4; 2; 1]%nat.
Proof.
  intros HL Hd HA HS Hok Ex Eu Lu Ex'.
  assert (Hne : y (ckb (ost v)) <> []) by (rewrite Eu; destruct u; [simpl in Lu; lia|discriminate]).
  destruct (C40_step _ _ _ _ _ _ _ _ _ _ HA HS Hok Hne) as (ord & j & H0 & H & x0 & x1 & sgn & ks & B). cbv zeta in B.
  destruct B as (B1 & B2 & B3 & B4 & B5 & B6 & B7 & B8 & _).
  rewrite Ex in B3. injection B3 as <-. rewrite Ex' in B4. injection B4 as <-.
  assert (Eln : length (y (ckb (ost v))) = d) by (rewrite Eu, map_length; exact Lu).
  rewrite Eln, Ex, Eu in B8. rewrite B2.
  assert (C0 : nth 0 (firstn (mb_stages (ck_member ord)) CKdisc_C) 0%Q = 0%Q) by (destruct B1 as [<-|[<-|[<-|[]]]]; reflexivity).
  unfold mb_tab in B8.
  destruct (textbook_real d F g _ _ _ _ _ x u _ ks _ _ HL Lu C0 B8) as (_ & _ & E).
  exists (ck_point F d ord x u (sgn * H)). split; [rewrite E; reflexivity|]. split; [apply ck_point_len|]. split; [|exact B1].
  exists ord, (sgn * H). split; [left; reflexivity|]. split; [rewrite B7; ring|reflexivity].
Qed.
Lemma ck_move_in F d ords ord t y h y' : In ord ords -> ck_move F d [ord] t y h y' -> ck_move F d ords t y h y'.
Proof. intros Hi (o & H & [<-|[]] & A & B). exists ord, H. auto. Qed.

Lemma ck_path d F g lo hi Y o t0 tb c s ords H v : lifts d F g -> solution_on d F lo hi Y -> ck_built o g t0 tb (map Fin (Y t0)) c s ->
  lo <= t0 <= hi -> lo <= tb <= hi -> ck_short c ords H (onew s) v ->
  exists x yr, t (ckb (ost v)) = Fin x /\ y (ckb (ost v)) = map Fin yr /\ length yr = d /\ spath lo hi Y (ck_move F d ords) H t0 x yr /\
    ((t0 < tb /\ t0 <= x <= tb) \/ (tb < t0 /\ tb <= x <= t0)) /\ (ostat v = OFinished -> x = tb).
Proof.
  intros HL HY HB Hlo Hhi HS. pose proof (Y_len d F lo hi Y HY _ Hlo) as LY.
  assert (Hd : (0 < d)%nat). { pose proof (cb_y _ _ _ _ _ _ _ HB) as Hn. destruct (Y t0); [contradiction|simpl in LY; lia]. }
  induction HS as [|v1 v2 k HS IH HM E Ho Hsm].
  - destruct (ck_built_good _ _ _ _ _ _ _ HB) as (r & _ & _ & _ & _ & _ & Et & Ey & _).
    exists t0, (Y t0). cbn [ost onew ostat]. split; [exact Et|]. split; [exact Ey|]. split; [exact LY|]. split; [constructor|]. split; [|discriminate].
    pose proof (cb_ne _ _ _ _ _ _ _ HB). destruct (Rlt_le_dec t0 tb); lra.
  - destruct IH as (x & yr & E1 & E2 & Ly & HP & Hx & _). destruct (ck_short_after _ _ _ _ _ _ _ _ _ _ HB HS) as (n & HA).
    destruct (ck_failed_or v2) as [(msg & Hf)|Hok].
    + destruct (ck_same v1 c k v2 E (ex_intro _ msg Hf)) as (Q1 & Q2). exists x, yr. rewrite Q1, Q2. split; [exact E1|]. split; [exact E2|]. split; [exact Ly|]. split; [exact HP|]. split; [exact Hx|]. intros Q. congruence.
    + assert (Hne : y (ckb (ost v1)) <> []) by (rewrite E2; destruct yr; [simpl in Ly; lia|discriminate]).
      destruct (C40_monotone _ _ _ _ _ _ _ _ _ _ HA E Hok Hne HM) as (x0 & x' & M1 & M2 & M3 & _ & _ & M4).
      rewrite E1 in M1. injection M1 as <-.
      destruct (ck_step_move d F g _ _ _ _ _ _ _ _ _ x yr x' HL Hd HA E Hok E1 E2 Ly M2) as (u' & U1 & U2 & U3 & _).
      exists x', u'. split; [exact M2|]. split; [exact U1|]. split; [exact U2|].
      assert (Bx : (t0 < tb /\ t0 <= x' <= tb /\ 0 <= x' - x) \/ (tb < t0 /\ tb <= x' <= t0 /\ x' - x <= 0)) by (unfold advances in M3; lra).
      split; [|split; [lra|apply M4]].
      replace x' with (x + (x' - x)) by ring. econstructor; [exact HP| | | |exact (ck_move_in _ _ _ _ _ _ _ _ (Ho Hok) U3)].
      * lra.
      * destruct Bx as [(Q1 & Q2 & Q3)|(Q1 & Q2 & Q3)]; nra.
      * exact (Hsm _ _ E1 M2).
Qed.

(** ** the theorems *)
Lemma ck_family_ok ords p : In (ords, p) ck_families -> Forall (fun ord => In ord [4; 2; 1]%nat /\ (p <= mb_p (ck_member ord))%nat) ords /\ (0 < p)%nat.
Proof. intros H. repeat (destruct H as [E|H]; [injection E as <- <-; split; [repeat constructor; simpl; auto; lia|lia]|]). destruct H. Qed.

(** F smooth and Lipschitz along Y: whatever the options, tolerances, rejections and direction, a run whose accepted
    steps are at most H and have orders in ords has errors of at most C H^p, p the lowest order of the members used:
    2 in general, 5 when all steps are accepted at full order. *)
Theorem C59_global_error ords p d F g lo hi Y : In (ords, p) ck_families -> lifts d F g -> solution_on d F lo hi Y -> smooth_along p d F lo hi Y -> lipschitz_along d F lo hi Y ->
  exists C del, 0 <= C /\ 0 < del /\ forall H, 0 <= H < del -> forall o t0 tb c s v,
    ck_built o g t0 tb (map Fin (Y t0)) c s -> lo <= t0 <= hi -> lo <= tb <= hi ->
    ck_short c ords H (onew s) v -> ck_tracked d Y t0 tb v (C * H ^ p).
Proof.
  intros Hp HL HY HS HLip. destruct (ck_family_ok _ _ Hp) as (Ho & Hp0).
  destruct (ck_global d F lo hi Y p HY HS ords Ho Hp0 HLip) as (C & del & HC & Hd & H1). exists C, del. split; [auto|]. split; [auto|].
  intros H HH o t0 tb c s v HB Hlo Hhi Hv.
  destruct (ck_path _ _ _ _ _ _ _ _ _ _ _ _ _ _ HL HY HB Hlo Hhi Hv) as (x & yr & Q1 & Q2 & Q3 & Q4 & Q5 & Q6).
  destruct (H1 H t0 x yr HH Hlo Q4) as (_ & _ & Hcl). exists x, yr. split; [exact Q1|]. split; [exact Q2|]. split; [exact Q3|]. split; [unfold within; lra|]. split; [exact Q6|exact Hcl].
Qed.

Lemma ck_run_after o g t0 tb y0 c s v : ck_built o g t0 tb y0 c s -> ck_run c (onew s) v -> exists n, ck_after o g t0 tb y0 c n v.
Proof.
  intros HB HS. induction HS as [|v1 v2 k HS (n & s1 & HB1 & IH) _ E]; [exists 0%nat, s; split; [exact HB|constructor]|].
  exists (S n), s1. split; [exact HB1|]. econstructor; [exact IH|exact E].
Qed.
Lemma ck_max_short d F g o t0 tb y0 c s H v : lifts d F g -> length y0 = d -> o_max_step o = Fin H -> 0 <= H ->
  ck_built o g t0 tb (map Fin y0) c s -> ck_run c (onew s) v ->
  ck_short c [4; 2; 1]%nat H (onew s) v /\ exists x u, t (ckb (ost v)) = Fin x /\ y (ckb (ost v)) = map Fin u /\ length u = d.
Proof.
  intros HL Ly EM HH HB HS.
  assert (Hd : (0 < d)%nat). { pose proof (cb_y _ _ _ _ _ _ _ HB) as Hn. destruct y0; [contradiction|simpl in Ly; lia]. }
  destruct (ck_built_good _ _ _ _ _ _ _ HB) as (r & _ & _ & _ & _ & _ & Et & Ey & _ & Em & _). rewrite EM in Em.
  induction HS as [|v1 v2 k HS IH HM E].
  - split; [constructor|]. exists t0, y0. auto.
  - destruct IH as (IH & x & u & E1 & E2 & Lu). destruct (ck_run_after _ _ _ _ _ _ _ _ HB HS) as (n & HA).
    destruct (ck_failed_or v2) as [(msg & Hf)|Hok].
    + destruct (ck_same v1 c k v2 E (ex_intro _ msg Hf)) as (Q1 & Q2). split; [|exists x, u; rewrite Q1, Q2; auto].
      econstructor; [exact IH|exact HM|exact E|intros Hk; elim (Hk msg Hf)|]. intros x1 x2 X1 X2. rewrite Q1, X1 in X2. injection X2 as <-. rewrite Rminus_diag_eq, Rabs_R0 by auto. exact HH.
    + assert (Hne : y (ckb (ost v1)) <> []) by (rewrite E2; destruct u; [simpl in Lu; lia|discriminate]).
      destruct (C40_monotone _ _ _ _ _ _ _ _ _ _ HA E Hok Hne HM) as (x0 & x' & M1 & M2 & _ & M5 & _).
      rewrite E1 in M1. injection M1 as <-.
      destruct (ck_step_move d F g _ _ _ _ _ _ _ _ _ x u x' HL Hd HA E Hok E1 E2 Lu M2) as (u' & U1 & U2 & _ & U4).
      split; [|exists x', u'; auto]. econstructor; [exact IH|exact HM|exact E|intros _; exact U4|].
      intros x1 x2 X1 X2. rewrite E1 in X1. injection X1 as <-. rewrite M2 in X2. injection X2 as <-. rewrite Em in M5. cbn [xleb] in M5. apply Rleb_true in M5. exact M5.
Qed.
(** choosing max_step = H bounds the error by C H^2 *)
Theorem C59_max_step d F g lo hi Y : lifts d F g -> solution_on d F lo hi Y -> smooth_along 2 d F lo hi Y -> lipschitz_along d F lo hi Y ->
  exists C del, 0 <= C /\ 0 < del /\ forall H, 0 <= H < del -> forall o t0 tb c s v, o_max_step o = Fin H ->
    ck_built o g t0 tb (map Fin (Y t0)) c s -> lo <= t0 <= hi -> lo <= tb <= hi ->
    ck_run c (onew s) v -> ck_tracked d Y t0 tb v (C * H ^ 2).
Proof.
  intros HL HY HS HLip. destruct (C59_global_error [4; 2; 1]%nat 2 d F g lo hi Y ltac:(simpl; auto) HL HY HS HLip) as (C & del & HC & Hd & H1).
  exists C, del. split; [auto|]. split; [auto|]. intros H HH o t0 tb c s v EM HB Hlo Hhi Hv.
  apply (H1 H HH o t0 tb c s v HB Hlo Hhi). apply (ck_max_short d F g o t0 tb (Y t0) c s H v HL (Y_len d F lo hi Y HY _ Hlo) EM (proj1 HH) HB Hv).
Qed.
(** any accuracy is reached by making the steps short enough *)
Theorem C59_convergence d F g lo hi Y : lifts d F g -> solution_on d F lo hi Y -> smooth_along 2 d F lo hi Y -> lipschitz_along d F lo hi Y ->
  forall acc, 0 < acc -> exists del, 0 < del /\ forall H, 0 <= H < del -> forall o t0 tb c s v, o_max_step o = Fin H ->
    ck_built o g t0 tb (map Fin (Y t0)) c s -> lo <= t0 <= hi -> lo <= tb <= hi ->
    ck_run c (onew s) v -> ck_tracked d Y t0 tb v acc.
Proof.
  intros HL HY HS HLip acc Ha. destruct (C59_max_step d F g lo hi Y HL HY HS HLip) as (C & del & HC & Hd & H1).
  exists (Rmin del (Rmin 1 (acc / (C + 1)))). split. { repeat apply Rmin_case; try lra. apply Rdiv_lt_0_compat; lra. }
  intros H (H0 & HH) o t0 tb c s v EM HB Hlo Hhi Hv.
  assert (A1 : H < del) by (eapply Rlt_le_trans; [exact HH|apply Rmin_l]).
  assert (A2 : H < 1) by (eapply Rlt_le_trans; [exact HH|eapply Rle_trans; [apply Rmin_r|apply Rmin_l]]).
  assert (A3 : H < acc / (C + 1)) by (eapply Rlt_le_trans; [exact HH|eapply Rle_trans; [apply Rmin_r|apply Rmin_r]]).
  destruct (H1 H (conj H0 A1) o t0 tb c s v EM HB Hlo Hhi Hv) as (x & yr & Q1 & Q2 & Q3 & Q4 & Q5 & Q6). exists x, yr. repeat (split; [assumption|]).
  eapply close_le; [exact Q6|]. apply Rmult_lt_compat_r with (r := C + 1) in A3; [|lra]. unfold Rdiv in A3. rewrite Rmult_assoc, Rinv_l, Rmult_1_r in A3 by lra. nra.
Qed.
(** F polynomial: smoothness and the Lipschitz condition follow *)
Theorem C59_polynomial ords p d F g lo hi Y : In (ords, p) ck_families -> lifts d F g -> polynomial d F -> solution_on d F lo hi Y ->
  exists C del, 0 <= C /\ 0 < del /\ forall H, 0 <= H < del -> forall o t0 tb c s v,
    ck_built o g t0 tb (map Fin (Y t0)) c s -> lo <= t0 <= hi -> lo <= tb <= hi ->
    ck_short c ords H (onew s) v -> ck_tracked d Y t0 tb v (C * H ^ p).
Proof.
  intros Hp HL HP HY. apply (C59_global_error ords p d F); auto; [apply polynomial_smooth_along; auto|apply polynomial_lipschitz_along; auto].
Qed.

(** ** dense output *)
Lemma ck_interp4 F t y h th q : ck_interp F 4 t y h th q =
  nth q y 0 + h * lcomb 7 (pw QN 1 (qcols CKdisc_P) CKdisc_P th) (rstages F (mq (extA CKdisc_A CKdisc_B [])) (vq (extC CKdisc_C [])) t y h 7) q.
Proof.
  unfold ck_interp, point. cbv zeta. change (mb_stages (ck_member 4)) with 6%nat. change (ck_dP 4) with CKdisc_P. cbn [length Nat.add].
  replace (ck_dA 4) with CKdisc_A by (vm_compute; reflexivity). replace (ck_db 4) with CKdisc_B by (vm_compute; reflexivity). replace (ck_dc 4) with CKdisc_C by (vm_compute; reflexivity).
  reflexivity.
Qed.
Lemma ck_dense_value d F g o t0 tb y0 c n v k v' x0 u0 x1 : lifts d F g -> length u0 = d -> u0 <> [] ->
  ck_after o g t0 tb y0 c n v -> ck_step c k v = OOk v' -> ok_step v' ->
  t (ckb (ost v)) = Fin x0 -> y (ckb (ost v)) = map Fin u0 -> t (ckb (ost v')) = Fin x1 ->
  exists D, ot_old v' = Some (Fin x0) /\ ck_dense (Fin x0) (ost v') = Some D /\ x1 <> x0 /\
    forall th, reals d (call D (Fin (x0 + th * (x1 - x0)))) (fun q => ck_interp F (ckord (ost v')) x0 u0 (x1 - x0) th q).
Proof.
  intros HL Hu Hne HA HS Hok E0 Eu E1.
  assert (Hne' : y (ckb (ost v)) <> []) by (rewrite Eu; destruct u0; [contradiction|discriminate]).
  destruct (ck_step_accepted _ _ _ _ _ _ _ _ _ _ HA HS Hok Hne') as (r & HG & Etb & Hd & Ed & Em & Ef & Hb & HI & HP & HD & HI' & Ho & _).
  assert (Hnz : dir r * (RKReal.tb r - tval (ckb (ost v))) <> 0) by (rewrite Etb; lra).
  destruct (ck_accepted c r k _ _ HG HI Hnz HD) as (j & H & ord & q & ks & B). cbv zeta in B. rewrite Ef in B.
  destruct B as (B1 & B2 & B3 & B4 & _ & B6 & B7 & B8 & B9 & B10 & B11 & B12 & _).
  assert (Eln : length (y (ckb (ost v))) = d) by (rewrite Eu, map_length; exact Hu).
  rewrite Eln, E0, Eu in B4. change (nadd RX (Fin x0) (Fin (dir r * H))) with (Fin (x0 + dir r * H)) in B4.
  unfold tval in B6. rewrite E0, E1 in B6.
  assert (Dn : dir r * H <> 0) by (destruct HG as (_ & ([D|D] & _) & _); rewrite D; lra).
  assert (Hx : x1 <> x0).
  { assert (0 < Q2R (mb_theta (ck_member ord))) by (rewrite <- ck_theta_Q by auto; pose proof (theta_pos ord); lra).
    intros E. rewrite E in B6. destruct HG as (_ & ([D|D] & _) & _); rewrite D in B6; nra. }
  assert (G : y (ckb (ost v')) = map Fin (ck_point F d ord x0 u0 (dir r * H))).
  { assert (C0 : nth 0 (firstn (mb_stages (ck_member ord)) CKdisc_C) 0%Q = 0%Q) by (destruct B1 as [<-|[<-|[<-|[]]]]; reflexivity).
    unfold mb_tab in B4. destruct (textbook_real d F g _ _ _ _ _ x0 u0 _ ks _ _ HL Hu C0 B4) as (_ & _ & E). exact E. }
  set (u1 := ck_point F d ord x0 u0 (dir r * H)) in *. assert (L1 : length u1 = d) by apply ck_point_len.
  destruct (HL x0 u0 Hu) as (LF0 & G0). destruct (HL x1 u1 L1) as (LF1 & G1).
  unfold ck_dense. rewrite B8, B2, E1, G, map_length, L1, Eu. cbv zeta.
  eexists. split; [rewrite Ho, E0; reflexivity|]. split; [reflexivity|]. split; [exact Hx|]. intros th.
  destruct (Nat.eqb ord 4) eqn:E4.
  - apply Nat.eqb_eq in E4. rewrite B12 by exact E4. clear B9 B10 B11 B12. rewrite E4 in *.
    assert (Eth : Q2R (mb_theta (ck_member 4)) = 1) by (cbn; unfold Q2R; simpl; lra). rewrite Eth, Rmult_1_l in B6.
    destruct (ck4_stages d F g HL x0 u0 _ ks _ _ Hu B4) as (ur & E & L & _ & EK & _ & _).
    replace (dir r * H) with (x1 - x0) in EK by lra. replace (x0 + (x1 - x0)) with x1 in EK by ring.
    rewrite B7, E1, EK.
    pose proof (ck4_horner d F g x0 u0 x1 HL Hu Hx th) as HR. cbv zeta in HR.
    destruct HR as (rr & Er & Lr & Nr). exists rr. split; [exact Er|]. split; [exact Lr|]. intros q' Hq. rewrite Nr by auto. symmetry. apply ck_interp4.
  - assert (Ho2 : In ord [2; 1]%nat) by (destruct B1 as [<-|B1]; [discriminate E4|exact B1]).
    rewrite B10, B11, B7, E0, E1, Eu, G, G0, G1.
    pose proof (call_cubic d x0 x1 _ _ _ _ _ _ _ _ (x0 + th * (x1 - x0)) Hx (reals_intro d u0 Hu) (reals_intro d u1 L1) (reals_intro d _ LF0) (reals_intro d _ LF1)) as XX.
    destruct XX as (l & EL & Ll & Vl). exists l. split; [exact EL|]. split; [exact Ll|]. intros q' Hq. rewrite (Vl q' Hq).
    pose proof (ck_cubic_interp d F g ord x0 u0 (dir r * H) th q' HL Hu Hq Ho2 Dn) as Z. cbv zeta in Z. fold u1 in Z.
    replace (Q2R (mb_theta (ck_member ord)) * (dir r * H)) with (x1 - x0) in Z by lra. replace (x0 + (x1 - x0)) with x1 in Z by ring. exact Z.
Qed.

(** dense_output() of the step from v to v' exists and is within [bound] of Y everywhere in the step *)
Definition ck_dense_within (d : nat) (Y : R -> list R) (v v' : OSolver RX (CKst RX)) (bound : R) : Prop :=
  exists x x1 D, t (ckb (ost v)) = Fin x /\ t (ckb (ost v')) = Fin x1 /\ ot_old v' = Some (Fin x) /\ ck_dense (Fin x) (ost v') = Some D /\
    forall th, 0 <= th <= 1 -> exists r, call D (Fin (x + th * (x1 - x))) = map Fin r /\ length r = d /\ close d r (Y (x + th * (x1 - x))) bound.
(** the dense output is as accurate as the solution: C H^p between the points of the run too *)
Theorem C59_dense ords p d F g lo hi Y : In (ords, p) ck_families -> lifts d F g -> solution_on d F lo hi Y -> smooth_along p d F lo hi Y -> lipschitz_along d F lo hi Y ->
  exists C del, 0 <= C /\ 0 < del /\ forall H, 0 <= H < del -> forall o t0 tb c s v v' k,
    ck_built o g t0 tb (map Fin (Y t0)) c s -> lo <= t0 <= hi -> lo <= tb <= hi ->
    ck_short c ords H (onew s) v -> ck_step c k v = OOk v' -> ok_step v' -> In (ckord (ost v')) ords ->
    (forall x1 x2, t (ckb (ost v)) = Fin x1 -> t (ckb (ost v')) = Fin x2 -> Rabs (x2 - x1) <= H) ->
    ck_dense_within d Y v v' (C * H ^ p).
Proof.
  intros Hp HL HY HS HLip. pose proof HLip as (L & r & HLr). assert (Hr : 0 < r) by apply HLr. destruct (ck_family_ok _ _ Hp) as (Ho & Hp0).
  destruct (C59_global_error ords p d F g lo hi Y Hp HL HY HS HLip) as (C & del & HC & Hd & H1).
  destruct (ck_dense_all d F lo hi Y p HY HS L r HLr ords Hp0 Ho) as (C2 & del2 & HC2 & Hd2 & H2).
  set (z := r / 4 / (C + 1)). assert (Hz : 0 < z) by (apply Rdiv_lt_0_compat; lra).
  assert (HCz : C * z <= r / 4). { apply Rle_trans with ((C + 1) * z); [nra|]. unfold z. right. field. lra. }
  exists (C2 * (C + 1)), (Rmin (Rmin del del2) (Rmin 1 z)). split; [apply Rmult_le_pos; lra|]. split; [repeat apply Rmin_case; auto; lra|].
  intros H (H0 & HH) o t0 tb c s v v' k HB Hlo Hhi Hv HSt Hok Hin Hsh.
  assert (B1 : H < del) by (eapply Rlt_le_trans; [exact HH|eapply Rle_trans; [apply Rmin_l|apply Rmin_l]]).
  assert (B2 : H < del2) by (eapply Rlt_le_trans; [exact HH|eapply Rle_trans; [apply Rmin_l|apply Rmin_r]]).
  assert (B3 : H < 1) by (eapply Rlt_le_trans; [exact HH|eapply Rle_trans; [apply Rmin_r|apply Rmin_l]]).
  assert (B4 : H < z) by (eapply Rlt_le_trans; [exact HH|eapply Rle_trans; [apply Rmin_r|apply Rmin_r]]).
  destruct (H1 H (conj H0 B1) o t0 tb c s v HB Hlo Hhi Hv) as (x & yr & Q1 & Q2 & Q3 & Q4 & Q5 & Hcl).
  assert (Hd0 : (0 < d)%nat). { pose proof (Y_len d F lo hi Y HY _ Hlo) as LY. pose proof (cb_y _ _ _ _ _ _ _ HB) as Hn. destruct (Y t0); [contradiction|simpl in LY; lia]. }
  assert (Hne : yr <> []) by (destruct yr; [simpl in Q3; lia|discriminate]).
  destruct (ck_short_after _ _ _ _ _ _ _ _ _ _ HB Hv) as (n & HA).
  assert (Hne' : y (ckb (ost v)) <> []) by (rewrite Q2; destruct yr; [contradiction|discriminate]).
  destruct (C40_step _ _ _ _ _ _ _ _ _ _ HA HSt Hok Hne') as (ord & j & H00 & HH0 & x0 & x1 & sgn & ks & B). cbv zeta in B.
  destruct B as (_ & _ & T1 & T2 & _). rewrite Q1 in T1. injection T1 as <-.
  destruct (ck_dense_value d F g _ _ _ _ _ _ _ _ _ x yr x1 HL Q3 Hne HA HSt Hok Q1 Q2 T2) as (D & V1 & V2 & V3 & V4).
  exists x, x1, D. split; [exact Q1|]. split; [exact T2|]. split; [exact V1|]. split; [exact V2|]. intros th Hth.
  destruct (V4 th) as (rr & Er & Lr & Nr). exists rr. split; [exact Er|]. split; [exact Lr|]. intros q Hq. rewrite Nr by auto.
  specialize (Hsh _ _ Q1 T2).
  assert (HHp : 0 <= H ^ p) by (apply pow_le; auto).
  assert (HHz : H ^ p <= H). { clear - Hp0 H0 B3. revert Hp0. generalize p as m. intros [|m] Hp0; [lia|]. simpl. apply Rle_trans with (H * 1); [|lra]. apply Rmult_le_compat_l; [auto|]. replace 1 with (1 ^ m) by apply pow1. apply pow_incr. lra. }
  assert (HE : 0 <= C * H ^ p <= r / 4). { split; [apply Rmult_le_pos; auto|]. apply Rle_trans with (C * z); [apply Rmult_le_compat_l; lra|exact HCz]. }
  eapply Rle_trans; [apply (H2 (ckord (ost v')) x yr (x1 - x) th (C * H ^ p) Hin); auto; [unfold within in Q4; lra|lra]|].
  rewrite Rmult_assoc. apply Rmult_le_compat_l; [auto|]. assert (Rabs (x1 - x) ^ p <= H ^ p) by (apply pow_incr; split; [apply Rabs_pos|exact Hsh]). lra.
Qed.

(** The hypotheses are met: y' = y^2 on [0, 1/2] from y(0) = 1, whose solution 1/(1 - t) is not a polynomial, with the
    default options: the solver can be constructed, step() returns, and whatever step() returns is a short run. *)
Example C59_case : exists c s, ck_built (opts None PInf 0) Prop_Order.riccati_x 0 (1/2) (map Fin [/ (1 - 0)]) c s /\
  lifts 1 Prop_Order.riccati Prop_Order.riccati_x /\ polynomial 1 Prop_Order.riccati /\ solution_on 1 Prop_Order.riccati 0 (1/2) (fun t => [/ (1 - t)]) /\
  (exists k v, ck_step c k (onew s) = OOk v) /\
  forall k v, ck_step c k (onew s) = OOk v -> ck_short c [4; 2; 1]%nat (1/2) (onew s) v.
Proof.
  destruct Prop_Global.C49_case as (HL & HP & HY & _).
  destruct (C40_builds Prop_Order.riccati_x 0 (1/2) (map Fin [/ (1 - 0)]) ltac:(lra) ltac:(discriminate)) as (c & s & HB).
  exists c, s. split; [exact HB|]. split; [exact HL|]. split; [exact HP|]. split; [exact HY|].
  assert (HA : ck_after (opts None PInf 0) Prop_Order.riccati_x 0 (1/2) (map Fin [/ (1 - 0)]) c 0 (onew s)) by (exists s; split; [exact HB|constructor]).
  split.
  - destruct (C40_bound_exists (Rabs (1/2 - 0))) as (N & N1 & N2).
    destruct (C40_terminates _ _ _ _ _ _ _ _ N HA eq_refl N2 N1 (S N) ltac:(lia)) as (T & _).
    exists (S N). destruct (ck_step c (S N) (onew s)) as [v|e|] eqn:E; [eauto|elim (C40_no_exception _ _ _ _ _ _ _ _ _ _ HA eq_refl E)|contradiction].
  - intros k v E.
    destruct (ck_built_good _ _ _ _ _ _ _ HB) as (r & HG & HLv & _ & _ & _ & Et & Ey & _ & Em & _).
    assert (HM : xleb (code_min_step c (ckb (ost (onew (A := RX) s)))) (max_step c) = true).
    { rewrite Em. cbn [ost onew]. rewrite (code_min_step_val c r) by (auto; apply HLv). reflexivity. }
    assert (Ey1 : y (ckb (ost (onew (A := RX) s))) = map Fin [/ (1 - 0)]) by exact Ey. assert (Et1 : t (ckb (ost (onew (A := RX) s))) = Fin 0) by exact Et.
    destruct (ck_failed_or v) as [(msg & Hf)|Hok].
    + destruct (ck_same _ c k v E (ex_intro _ msg Hf)) as (Q1 & _). econstructor; [constructor|exact HM|exact E|intros Hk; elim (Hk msg Hf)|].
      intros x1 x2 X1 X2. rewrite Q1, X1 in X2. injection X2 as <-. rewrite Rminus_diag_eq, Rabs_R0 by auto. lra.
    + destruct (C40_monotone _ _ _ _ _ _ _ _ _ _ HA E Hok ltac:(rewrite Ey1; discriminate) HM) as (x0 & x' & M1 & M2 & M3 & _).
      destruct (ck_step_move 1 _ _ _ _ _ _ _ _ _ _ _ x0 _ x' HL ltac:(lia) HA E Hok M1 Ey1 eq_refl M2) as (u' & _ & _ & _ & U4).
      econstructor; [constructor|exact HM|exact E|intros _; exact U4|]. intros x1 x2 X1 X2. rewrite M1 in X1. injection X1 as <-. rewrite M2 in X2. injection X2 as <-.
      rewrite Et1 in M1. injection M1 as <-. unfold advances in M3. apply Rabs_le. lra.
Qed.
