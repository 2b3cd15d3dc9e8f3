(** C52 for the Nystrom classes: accuracy of the dense output of Fi4N, Fi5N, MR6NN and Mu5Nmb along whole runs on
    second order problems x'' = G(t, x, x'). The specification is that of Prop_GlobalDense.v, for positions and
    velocities together. *)
From Coq Require Import String Reals Lra Psatz QArith Qreals Lia List Arith Bool.
From Verif Require Import Arith Common RK RKGen RKHist RX SpecRK RKSpecProofs RKReal RKInit RKStep RKBuilt RKMore RKTop Classes Tableaux Series Trees OrderThm OrderCheck
  OrderRK OrderRKN OrderModel OrderPair OrderPairN Dense DenseReal DenseStep DenseAcc DenseAccN DenseNear DenseNearN Smooth Prop_Order Prop_DenseNear GOrder GDense Balls BallTab NearPair
  Prop_Near UOrder UOrder2 UDense GlobalRK GlobalPoly GlobalRun Prop_Global GlobalEst GlobalDense Prop_GlobalDense GlobalN GlobalRunN Prop_GlobalN GlobalDenseN.
Import ListNotations.
Close Scope string_scope.
Open Scope nat_scope.
Open Scope R_scope.

(** ** specification *)
(** the interpolant after every successful step of every run as in C49_nystrom *)
Definition sols_track_n (T : TabN RX) (impl : dimpl RX) (n : nat) (g : num RX -> list (num RX) -> list (num RX)) (lo hi : R) (Y : R -> list R) (H bound : R) : Prop :=
  forall m k vi o t0 tb c s0 v1 v2 kk, uses_tabn m T n -> ordinary k o t0 tb (map Fin (Y t0)) ->
    rkn_init k vi o g (Fin t0) (map Fin (Y t0)) (Fin tb) = inl (c, s0) -> lo <= t0 <= hi -> lo <= tb <= hi ->
    steps_below m c H (new_solver s0) v1 -> limits_consistent c v1 -> ode_step kk m c v1 = StepOk v2 -> ~ is_failed v2 ->
    (forall x1 x2, t (st v1) = Fin x1 -> t (st v2) = Fin x2 -> Rabs (x2 - x1) <= H) ->
    sol_tracked impl c (n + n) Y v1 v2 bound.
(** every point of the interval a run has covered *)
Definition sols_cover_n (T : TabN RX) (impl : dimpl RX) (n : nat) (g : num RX -> list (num RX) -> list (num RX)) (lo hi : R) (Y : R -> list R) (H bound : R) : Prop :=
  forall m k vi o t0 tb c s0 v xe x, uses_tabn m T n -> ordinary k o t0 tb (map Fin (Y t0)) ->
    rkn_init k vi o g (Fin t0) (map Fin (Y t0)) (Fin tb) = inl (c, s0) -> lo <= t0 <= hi -> lo <= tb <= hi ->
    steps_below m c H (new_solver s0) v -> t (st v) = Fin xe -> between t0 xe x -> x <> t0 ->
    exists v1 v2 x1 x2, step_of m c (new_solver s0) v v1 v2 /\ t (st v1) = Fin x1 /\ t (st v2) = Fin x2 /\ between x1 x2 x /\
      sol_tracked impl c (n + n) Y v1 v2 bound.
(** with the option max_step *)
Definition max_step_sols_n (T : TabN RX) (impl : dimpl RX) (n : nat) (g : num RX -> list (num RX) -> list (num RX)) (lo hi : R) (Y : R -> list R) (H bound : R) : Prop :=
  forall m k vi o t0 tb c s0 v xe x, uses_tabn m T n -> ordinary k o t0 tb (map Fin (Y t0)) -> o_max_step o = Fin H ->
    rkn_init k vi o g (Fin t0) (map Fin (Y t0)) (Fin tb) = inl (c, s0) -> lo <= t0 <= hi -> lo <= tb <= hi ->
    consistent_run m c (new_solver s0) v -> t (st v) = Fin xe -> between t0 xe x -> x <> t0 ->
    exists v1 v2 x1 x2, step_of m c (new_solver s0) v v1 v2 /\ t (st v1) = Fin x1 /\ t (st v2) = Fin x2 /\ between x1 x2 x /\
      sol_tracked impl c (n + n) Y v1 v2 bound.
Definition sols_accurate_n (T : TabN RX) (impl : dimpl RX) (n : nat) (g : num RX -> list (num RX) -> list (num RX)) (lo hi : R) (Y : R -> list R) (H bound : R) : Prop :=
  sols_track_n T impl n g lo hi Y H bound /\ sols_cover_n T impl n g lo hi Y H bound /\ max_step_sols_n T impl n g lo hi Y H bound.

(** the interpolants: tableau, may the acceleration depend on the velocity?, _dense_output_impl, order *)
Definition dense_nystrom (n : nat) : list (TabN RX * bool * dimpl RX * nat) :=
  [(Fi4N_tab, true, dense_quintic n, 4%nat); (Fi5N_tab, true, dense_fi5n 0 n, 4%nat); (Fi5N_tab, true, dense_fi5n 1 n, 5%nat);
   (Fi5N_tab, true, dense_fi5n 2 n, 5%nat); (MR6NN_tab, false, dense_rkn n (lm MR6NN_P) (lm MR6NN_Pp), 5%nat)].

(** ** one step that starts within e of Y *)
Lemma sol_core_n T impl vel n G g lo hi Y q eps L r : (0 < n)%nat -> lifts (n + n) (sys2 n G) g -> (vel = false -> velocity_free n G) -> solution2_on n G lo hi Y ->
  smooth2_along q n G lo hi Y -> lipschitz2_near n G lo hi Y L r -> dense_ready vel T impl n q eps ->
  exists C del, 0 <= C /\ 0 < del /\ forall H e, 0 <= H < del -> 0 <= e <= r / 4 ->
    runs_track_n T n g lo hi Y H e -> sols_track_n T impl n g lo hi Y H (C * (e + eps * H + H ^ S q)).
Proof.
  intros Hn HF Hvf HY HS HL (N & A & Ap & c & w & wp & HA & HAp & Hw & Hwp & He & Hq & HU & HV & HD).
  destruct (dense_close2 vel n q N G lo hi Y Hvf HY HS A Ap c w wp eps HA HAp Hw Hwp He Hq HU HV L r HL) as (C & del & HC & Hdel & H1).
  exists C, del. split; [auto|]. split; [auto|]. intros H e HH Her HR m k vi o t0 tb cf s0 v1 v2 kk HUs HOr HI Hlo Hhi Hsb Hlim Hst Hnf Hsm.
  destruct (HR m k vi o t0 tb cf s0 v1 HUs HOr HI Hlo Hhi Hsb) as (x1 & yr & E1 & Ey & Ly & Hin & _ & Hcl).
  assert (HE : explicit m) by (eapply ex_tabn; eauto).
  destruct (steps_below_history _ _ _ _ _ Hsb) as (j & Hj).
  assert (HB : built o g t0 tb (map Fin (Y t0)) cf s0) by (right; eauto).
  pose proof (Y_len2 n G lo hi Y HY _ Hlo) as LY.
  destruct (rkn_init_start _ _ _ _ _ _ _ _ _ HI) as (Eg & _).
  rewrite map_length, LY in Eg. replace (Nat.div (n + n) 2) with n in Eg by (replace (n + n)%nat with (n * 2)%nat by lia; rewrite Nat.div_mul; auto).
  pose proof (accel_lifts n G g HF) as HG.
  destruct (step_made m o g t0 tb _ cf s0 v1 v2 kk j x1 HE HB Hj Hlim Hst Hnf) as (HM & x2 & E2 & Hx); [rewrite Ey; destruct yr; [simpl in Ly; lia|discriminate]|exact E1|].
  destruct (HD G _ m cf v1 v2 x1 yr x2 HG Ly HUs HM Eg E1 Ey E2 ltac:(lra)) as (D & s' & ED & HC2).
  exists x1, x2, D, s'. split; [exact E1|]. split; [exact E2|]. split; [exact ED|]. intros x Hbt.
  set (th := (x - x1) / (x2 - x1)).
  assert (Hne : x2 - x1 <> 0) by lra.
  assert (Eth : x1 + th * (x2 - x1) = x) by (unfold th; field; exact Hne).
  assert (Hth : 0 <= th <= 1).
  { unfold between in Hbt. assert (Et : th * (x2 - x1) = x - x1) by lra. clearbody th. clear - Et Hx Hbt.
    destruct (Rtotal_order x1 x2) as [Hlt|[->|Hgt]]; [|lra|]; split; destruct (Rle_lt_dec 0 th), (Rle_lt_dec th 1); auto; try lra; exfalso; nra. }
  destruct (HC2 th) as (rr & Er & Lr & Nr). rewrite Eth in Er. exists rr. split; [exact Er|]. split; [exact Lr|].
  intros i Hi. rewrite Nr by auto.
  assert (Hh := Hsm x1 x2 E1 E2).
  assert (Hx1 : lo <= x1 <= hi) by (unfold within in Hin; lra).
  specialize (H1 i x1 yr (x2 - x1) th e Hi Hx1 Ly Hth ltac:(lra) Her Hcl). rewrite Eth in H1.
  eapply Rle_trans; [exact H1|]. apply Rmult_le_compat_l; [auto|]. apply Rplus_le_compat; [apply Rplus_le_compat_l, Rmult_le_compat_l; auto|].
  apply pow_incr. split; [apply Rabs_pos|auto].
Qed.

(** the covered interval *)
Lemma cover_core_n T impl n g lo hi Y H bound e : (0 < n)%nat -> runs_track_n T n g lo hi Y H e -> sols_track_n T impl n g lo hi Y H bound -> sols_cover_n T impl n g lo hi Y H bound.
Proof.
  intros Hn HR HT m k vi o t0 tb c s0 v xe x HU HO HI Hlo Hhi HS. revert xe.
  assert (HE : explicit m) by (eapply ex_tabn; eauto). pose proof (explicit_min m HE) as Hmin.
  assert (HB : built o g t0 tb (map Fin (Y t0)) c s0) by (right; eauto).
  destruct (rkn_init_start _ _ _ _ _ _ _ _ _ HI) as (_ & Et & _).
  induction HS as [|v1 v2 kk HS IH HL Hst Hsm]; intros xe Ex Hb Hne.
  - cbn [st new_solver] in Ex. rewrite Et in Ex. injection Ex as <-. unfold between in Hb. lra.
  - destruct (HR m k vi o t0 tb c s0 v1 HU HO HI Hlo Hhi HS) as (x1 & yr & E1 & Ey & Ly & Hin & _ & _).
    destruct (steps_below_history _ _ _ _ _ HS) as (j & Hj).
    assert (OLD : between t0 x1 x -> exists a b xa xb, step_of m c (new_solver s0) v2 a b /\ t (st a) = Fin xa /\ t (st b) = Fin xb /\ between xa xb x /\ sol_tracked impl c (n + n) Y a b bound).
    { intros Hb1. destruct (IH x1 E1 Hb1 Hne) as (a & b & xa & xb & (i & jj & k2 & G1 & G2 & G3) & G4).
      exists a, b, xa, xb. split; [|exact G4]. exists i, (S jj), k2. split; [auto|]. split; [auto|]. econstructor; eauto. }
    destruct (failed_or v2) as [(msg & Hf)|Hnf].
    + destruct (failure_clean m c kk v1 v2 msg HE Hst Hf) as (E2 & _). rewrite E2, E1 in Ex. injection Ex as <-. auto.
    + destruct (step_made m o g t0 tb _ c s0 v1 v2 kk j x1 HE HB Hj HL Hst Hnf) as (_ & x2 & E2 & Hx); [rewrite Ey; destruct yr; [simpl in Ly; lia|discriminate]|exact E1|].
      rewrite E2 in Ex. injection Ex as <-.
      assert (C : between t0 x1 x \/ between x1 x2 x).
      { unfold between, within in *. destruct (Rle_lt_dec x x1), (Rle_lt_dec x1 x); lra. }
      destruct C as [C|C]; [auto|]. exists v1, v2, x1, x2. split; [exists j, 0%nat, kk; split; [auto|]; split; [auto|]; constructor|].
      split; [auto|]. split; [auto|]. split; [auto|]. exact (HT m k vi o t0 tb c s0 v1 v2 kk HU HO HI Hlo Hhi HS HL Hst Hnf Hsm).
Qed.
Lemma max_below_n T n g lo hi Y H bound : (0 < n)%nat -> runs_track_n T n g lo hi Y H bound ->
  forall m k vi o t0 tb c s0 v, uses_tabn m T n -> ordinary k o t0 tb (map Fin (Y t0)) -> o_max_step o = Fin H ->
    rkn_init k vi o g (Fin t0) (map Fin (Y t0)) (Fin tb) = inl (c, s0) -> lo <= t0 <= hi -> lo <= tb <= hi ->
    consistent_run m c (new_solver s0) v -> steps_below m c H (new_solver s0) v.
Proof.
  intros Hn HR m k vi o t0 tb c s0 v HU HO HM HI Hlo Hhi HC.
  assert (HE : explicit m) by (eapply ex_tabn; eauto). pose proof (explicit_min m HE) as Hmin.
  assert (HB : built o g t0 tb (map Fin (Y t0)) c s0) by (right; eauto).
  assert (EM : max_step c = Fin H) by (destruct (built_good _ _ _ _ _ _ _ HB) as (r & HX); rewrite <- HM; apply HX).
  induction HC as [|v1 v2 kk HC IH HL HS]; [constructor|].
  econstructor; [exact IH|exact HL|exact HS|]. intros x1 x2 E1 E2.
  destruct (HR m k vi o t0 tb c s0 v1 HU HO HI Hlo Hhi IH) as (x & yr & Ex & Ey & Ly & Hw & _).
  destruct (steps_below_history _ _ _ _ _ IH) as (j & Hj).
  assert (HA : after m o g t0 tb (map Fin (Y t0)) c j v1) by (exists s0; auto).
  destruct (failed_or v2) as [(msg & Hf)|Hnf].
  - destruct (failure_clean m c kk v1 v2 msg HE HS Hf) as (Et & _). rewrite Et, E1 in E2. injection E2 as <-.
    rewrite Rminus_diag_eq, Rabs_R0 by auto.
    clear - HM EM HB. destruct (built_good _ _ _ _ _ _ _ HB) as (r & HG & _). destruct HG as (_ & _ & [E|(M & E & HP)]); rewrite EM in E; [discriminate|].
    injection E as <-. lra.
  - destruct (monotone m o g t0 tb _ c j v1 kk v2 HE HA HL HS Hnf) as (a & a' & F1 & F2 & _ & F3).
    rewrite E1 in F1. injection F1 as <-. rewrite E2 in F2. injection F2 as <-.
    destruct F3 as (F3 & _); [rewrite Ey; destruct yr; [simpl in Ly; lia|discriminate]|]. rewrite EM in F3. apply Rleb_true in F3. exact F3.
Qed.
Lemma max_sols_n T impl n g lo hi Y H bound e : (0 < n)%nat -> runs_track_n T n g lo hi Y H e -> sols_cover_n T impl n g lo hi Y H bound -> max_step_sols_n T impl n g lo hi Y H bound.
Proof.
  intros Hn HR HC m k vi o t0 tb c s0 v xe x HU HO HM HI Hlo Hhi HS. apply (HC m k vi o t0 tb c s0 v xe x HU HO HI Hlo Hhi). eapply max_below_n; eauto.
Qed.
Lemma sols_le_n T impl n g lo hi Y H b b' : b <= b' -> sols_track_n T impl n g lo hi Y H b -> sols_track_n T impl n g lo hi Y H b'.
Proof. intros Hb HT m k vi o t0 tb c s0 v1 v2 kk H1 H2 H3 H4 H5 H6 H7 H8 H9 H10. eapply sol_le; [exact Hb|]. exact (HT m k vi o t0 tb c s0 v1 v2 kk H1 H2 H3 H4 H5 H6 H7 H8 H9 H10). Qed.
Lemma sols_all_n T impl n g lo hi Y H b e : (0 < n)%nat -> runs_track_n T n g lo hi Y H e -> sols_track_n T impl n g lo hi Y H b -> sols_accurate_n T impl n g lo hi Y H b.
Proof. intros Hn HR HT. split; [exact HT|]. split; [eapply cover_core_n; eauto|]. eapply max_sols_n; eauto. eapply cover_core_n; eauto. Qed.

Lemma dense_nystrom_ready T vel impl q n : In (T, vel, impl, q) (dense_nystrom n) -> dense_ready vel T impl n q 0.
Proof.
  intros H.
  destruct H as [E|H]; [injection E as <- <- <- <-; apply (quintic_ready Fi4N_n_stages Fi4N_A Fi4N_Ap Fi4N_B Fi4N_Bp Fi4N_C Fi4N_E Fi4N_Ep); [apply Nat.ltb_lt; reflexivity|exact interpn_quin_Fi4N]|].
  destruct H as [E|H]; [injection E as <- <- <- <-; apply (quintic_ready Fi5N_n_stages Fi5N_A Fi5N_Ap Fi5N_B Fi5N_Bp Fi5N_C Fi5N_E Fi5N_Ep); [apply Nat.ltb_lt; reflexivity|exact interpn_quin_Fi5N]|].
  destruct H as [E|H]; [injection E as <- <- <- <-; exact (nystrom_ready _ _ _ _ _ _ _ Fi5N_E Fi5N_Ep _ _ _ _ _ _ n _ interpn_Fi5N_1 (nystrom_impl_fi5n 1 n ltac:(lia)))|].
  destruct H as [E|H]; [injection E as <- <- <- <-; exact (nystrom_ready _ _ _ _ _ _ _ Fi5N_E Fi5N_Ep _ _ _ _ _ _ n _ interpn_Fi5N_2 (nystrom_impl_fi5n 2 n ltac:(lia)))|].
  destruct H as [E|H]; [injection E as <- <- <- <-; exact (nystrom_ready _ _ _ _ _ _ _ MR6NN_E MR6NN_Ep _ _ _ _ _ _ n _ interpn_MR6NN (nystrom_impl_free n MR6NN_P MR6NN_Pp))|].
  destruct H.
Qed.
Lemma nystrom_pos T vel p pe : In (T, vel, p, pe) exact_nystrom_pairs -> (0 < p)%nat.
Proof. intros HT. repeat (destruct HT as [E|HT]; [injection E as _ _ <- _; vm_compute; lia|]). destruct HT. Qed.

(** ** theorems *)
Lemma nystrom_sols T vel p pe impl q eps n G g lo hi Y : In (T, vel, p, pe) exact_nystrom_pairs -> dense_ready vel T impl n q eps -> 0 <= eps -> (0 < n)%nat ->
  lifts (n + n) (sys2 n G) g -> (vel = false -> velocity_free n G) -> solution2_on n G lo hi Y -> smooth2_along (max p q) n G lo hi Y -> lipschitz2_along n G lo hi Y ->
  exists C del, 0 <= C /\ 0 < del /\ forall H, 0 <= H < del -> sols_accurate_n T impl n g lo hi Y H (C * (H ^ p + eps * H + H ^ S q)).
Proof.
  intros HT HI He Hn HF Hvf HY HS HLa. pose proof HLa as HLa'. destruct HLa' as (L & r & HL).
  destruct (C49_nystrom T vel p pe n G g lo hi Y HT Hn HF Hvf HY (smooth2_weaken _ _ _ _ _ _ _ (Nat.le_max_l p q) HS) HLa) as (C1 & d1 & HC1 & Hd1 & H1).
  destruct (sol_core_n T impl vel n G g lo hi Y q eps L r Hn HF Hvf HY (smooth2_weaken _ _ _ _ _ _ _ (Nat.le_max_r p q) HS) HL HI) as (C2 & d2 & HC2 & Hd2 & H2).
  pose proof (nystrom_pos T vel p pe HT) as Hp.
  assert (Hr : 0 < r / 4) by (destruct HL as (_ & Hr & _); lra).
  destruct (pow_small C1 p (r / 4) HC1 Hr Hp) as (d3 & Hd3 & H3).
  exists (C2 * (C1 + 1)), (Rmin d1 (Rmin d2 d3)). split; [apply Rmult_le_pos; lra|]. split; [repeat apply Rmin_case; lra|]. intros H (H0 & HH).
  assert (B1 : H < d1) by (eapply Rlt_le_trans; [exact HH|apply Rmin_l]).
  assert (B2 : H < d2) by (eapply Rlt_le_trans; [exact HH|eapply Rle_trans; [apply Rmin_r|apply Rmin_l]]).
  assert (B3 : H < d3) by (eapply Rlt_le_trans; [exact HH|eapply Rle_trans; [apply Rmin_r|apply Rmin_r]]).
  assert (Q1 : 0 <= H ^ p) by (apply pow_le; auto). assert (Q2 : 0 <= H ^ S q) by (apply pow_le; auto).
  assert (Q3 : 0 <= eps * H) by (apply Rmult_le_pos; auto).
  pose proof (H1 H (conj H0 B1)) as HR. apply (sols_all_n T impl n g lo hi Y H _ (C1 * H ^ p) Hn HR).
  eapply sols_le_n; [|apply (H2 H (C1 * H ^ p) (conj H0 B2)); [split; [apply Rmult_le_pos; auto|apply H3; auto]|exact HR]].
  rewrite Rmult_assoc. apply Rmult_le_compat_l; [auto|]. set (a := H ^ p) in *. set (b := H ^ S q) in *. set (z := eps * H) in *.
  assert (0 <= C1 * (z + b)) by (apply Rmult_le_pos; lra). clearbody a b z. clear - H4 Q1 Q2 Q3. lra.
Qed.
Theorem C52_nystrom T vel p pe impl q n G g lo hi Y : In (T, vel, p, pe) exact_nystrom_pairs -> In (T, vel, impl, q) (dense_nystrom n) -> (0 < n)%nat ->
  lifts (n + n) (sys2 n G) g -> (vel = false -> velocity_free n G) -> solution2_on n G lo hi Y -> smooth2_along (max p q) n G lo hi Y -> lipschitz2_along n G lo hi Y ->
  exists C del, 0 <= C /\ 0 < del /\ forall H, 0 <= H < del -> sols_accurate_n T impl n g lo hi Y H (C * (H ^ p + H ^ S q)).
Proof.
  intros HT HI Hn HF Hvf HY HS HL.
  destruct (nystrom_sols T vel p pe impl q 0 n G g lo hi Y HT (dense_nystrom_ready _ _ _ _ _ HI) (Rle_refl 0) Hn HF Hvf HY HS HL) as (C & del & HC & Hdel & H1).
  exists C, del. split; [auto|]. split; [auto|]. intros H HH. specialize (H1 H HH). rewrite Rmult_0_l, Rplus_0_r in H1. exact H1.
Qed.
(** every interpolant of the list is as accurate as the solution points: the error of both is at most C H^p *)
Theorem C52_nystrom_same_order T vel p pe impl q n G g lo hi Y : In (T, vel, p, pe) exact_nystrom_pairs -> In (T, vel, impl, q) (dense_nystrom n) -> (0 < n)%nat ->
  lifts (n + n) (sys2 n G) g -> (vel = false -> velocity_free n G) -> solution2_on n G lo hi Y -> smooth2_along (max p q) n G lo hi Y -> lipschitz2_along n G lo hi Y ->
  exists C del, 0 <= C /\ 0 < del /\ forall H, 0 <= H < del -> sols_accurate_n T impl n g lo hi Y H (C * H ^ p).
Proof.
  intros HT HI Hn HF Hvf HY HS HL.
  destruct (C52_nystrom T vel p pe impl q n G g lo hi Y HT HI Hn HF Hvf HY HS HL) as (C & del & HC & Hdel & H1).
  destruct (C49_nystrom T vel p pe n G g lo hi Y HT Hn HF Hvf HY (smooth2_weaken _ _ _ _ _ _ _ (Nat.le_max_l p q) HS) HL) as (C1 & d1 & HC1 & Hd1 & HR).
  assert (Hpq : (p <= S q)%nat).
  { assert (X : forall a b, In a exact_nystrom_pairs -> In b (dense_nystrom n) -> fst (fst a) = fst (fst b) -> (snd (fst a) <= S (snd b))%nat).
    { intros a b Ha Hb.
      unfold exact_nystrom_pairs in Ha. unfold dense_nystrom in Hb. cbn [In] in Ha, Hb.
      decompose [or] Ha; try contradiction; subst a; decompose [or] Hb; try contradiction; subst b; intros E; cbn [fst snd] in *;
        first [apply Nat.leb_le; reflexivity|exfalso; clear - E; apply (f_equal snd) in E; discriminate E]. }
    exact (X _ _ HT HI eq_refl). }
  exists (2 * C), (Rmin del (Rmin 1 d1)). split; [lra|]. split; [repeat apply Rmin_case; lra|]. intros H (H0 & HH).
  assert (B1 : H < del) by (eapply Rlt_le_trans; [exact HH|apply Rmin_l]).
  assert (B2 : H < 1) by (eapply Rlt_le_trans; [exact HH|eapply Rle_trans; [apply Rmin_r|apply Rmin_l]]).
  assert (B3 : H < d1) by (eapply Rlt_le_trans; [exact HH|eapply Rle_trans; [apply Rmin_r|apply Rmin_r]]).
  destruct (H1 H (conj H0 B1)) as (HA & _).
  assert (Hle : H ^ S q <= H ^ p).
  { replace (S q) with (p + (S q - p))%nat by lia. rewrite pow_add. rewrite <- (Rmult_1_r (H ^ p)) at 2. apply Rmult_le_compat_l; [apply pow_le; auto|].
    rewrite <- (pow1 (S q - p)). apply pow_incr. lra. }
  apply (sols_all_n T impl n g lo hi Y H _ (C1 * H ^ p) Hn (HR H (conj H0 B3))).
  eapply sols_le_n; [|exact HA]. assert (C * H ^ S q <= C * H ^ p) by (apply Rmult_le_compat_l; auto). lra.
Qed.
Theorem C52_nystrom_polynomial T vel p pe impl q n G g lo hi Y : In (T, vel, p, pe) exact_nystrom_pairs -> In (T, vel, impl, q) (dense_nystrom n) -> (0 < n)%nat ->
  lifts (n + n) (sys2 n G) g -> (vel = false -> velocity_free n G) -> polynomial2 n G -> solution2_on n G lo hi Y ->
  exists C del, 0 <= C /\ 0 < del /\ forall H, 0 <= H < del -> sols_accurate_n T impl n g lo hi Y H (C * H ^ p).
Proof.
  intros HT HI Hn HF Hvf HP HY. apply (C52_nystrom_same_order T vel p pe impl q n G g lo hi Y HT HI Hn HF Hvf HY); [apply polynomial2_smooth_along; auto|apply polynomial2_lipschitz_along; auto].
Qed.
(** the fourth interpolant of Fi5N has decimal coefficients *)
Theorem C52_nystrom_decimal n G g lo hi Y : (0 < n)%nat ->
  lifts (n + n) (sys2 n G) g -> solution2_on n G lo hi Y -> smooth2_along Fi5N_order n G lo hi Y -> lipschitz2_along n G lo hi Y ->
  exists C del, 0 <= C /\ 0 < del /\ forall H, 0 <= H < del -> sols_accurate_n Fi5N_tab (dense_fi5n 3 n) n g lo hi Y H (C * (H ^ 5 + Q2R (1 # 10 ^ 12) * H + H ^ 5)).
Proof.
  intros Hn HF HY HS HL. assert (He : 0 <= Q2R (1 # 10 ^ 12)) by (apply Q2R_frac; lia).
  apply (nystrom_sols Fi5N_tab true 5 Fi5N_order_secondary (dense_fi5n 3 n) 4 _ n G g lo hi Y); auto; [right; left; reflexivity| |discriminate].
  exact (nystrom_ready_near _ _ _ _ _ _ _ Fi5N_E Fi5N_Ep _ _ _ _ _ _ _ n _ interpn_near_Fi5N_3 He (nystrom_impl_fi5n 3 n ltac:(lia))).
Qed.
(** Mu5Nmb, whose coefficients are rounded decimals: both interpolants *)
Theorem C52_nystrom_near free n G g lo hi Y : (0 < n)%nat -> lifts (n + n) (sys2 n G) g ->
  solution2_on n G lo hi Y -> smooth2_along Mu5Nmb_order n G lo hi Y -> lipschitz2_global n G ->
  exists C del, 0 <= C /\ 0 < del /\ forall H, 0 <= H < del ->
    sols_accurate_n Mu5Nmb_tab (dense_mu5 free n) n g lo hi Y H (C * (Q2R (1 # 1000000000000000000) + H ^ 5 + Q2R (1 # 10 ^ 16) * H + H ^ 5)).
Proof.
  intros Hn HF HY HS HL.
  assert (He : 0 <= Q2R (1 # 1000000000000000000)) by (apply Q2R_frac; lia). assert (Heq : 0 <= Q2R (1 # 10 ^ 16)) by (apply Q2R_frac; lia).
  assert (HI : dense_ready true Mu5Nmb_tab (dense_mu5 free n) n 4 (Q2R (1 # 10 ^ 16))).
  { destruct free.
    - apply (quintic_ready_near 100 Mu5Nmb_n_stages Mu5Nmb_A Mu5Nmb_Ap Mu5Nmb_B Mu5Nmb_Bp Mu5Nmb_C Mu5Nmb_E Mu5Nmb_Ep); [apply Nat.ltb_lt; reflexivity|exact interpn_near_quin_Mu5|exact Heq].
    - exact (nystrom_ready_near _ _ _ _ _ _ _ Mu5Nmb_E Mu5Nmb_Ep _ _ _ _ _ _ _ n _ interpn_near_Mu5 Heq (nystrom_impl_mu5 n)). }
  destruct (C49_nystrom_near n G g lo hi Y Hn HF HY HS HL) as (C1 & d1 & HC1 & Hd1 & H1).
  change Mu5Nmb_order with 5%nat in *. set (eps := Q2R (1 # 1000000000000000000)) in *. set (eq := Q2R (1 # 10 ^ 16)) in *.
  set (r := 4 * (C1 * (eps + 1)) + 1).
  assert (Hr0 : 0 <= C1 * (eps + 1)) by (apply Rmult_le_pos; lra).
  assert (HL2 : exists L, lipschitz2_near n G lo hi Y L r).
  { destruct HL as (L & HL0 & HL). exists L. split; [auto|]. split; [unfold r; lra|]. intros t s u v e _ _ Lu Lv _ _ Huv. apply HL; auto. }
  destruct HL2 as (L & HL2).
  destruct (sol_core_n Mu5Nmb_tab (dense_mu5 free n) true n G g lo hi Y 4 eq L r Hn HF ltac:(discriminate) HY (smooth2_weaken 5 4 _ _ _ _ _ ltac:(lia) HS) HL2 HI) as (C2 & d2 & HC2 & Hd2 & H2).
  exists (C2 * (C1 + 1)), (Rmin d1 (Rmin d2 1)). split; [apply Rmult_le_pos; lra|]. split; [repeat apply Rmin_case; lra|]. intros H (H0 & HH).
  assert (B1 : H < d1) by (eapply Rlt_le_trans; [exact HH|apply Rmin_l]).
  assert (B2 : H < d2) by (eapply Rlt_le_trans; [exact HH|eapply Rle_trans; [apply Rmin_r|apply Rmin_l]]).
  assert (B3 : H < 1) by (eapply Rlt_le_trans; [exact HH|eapply Rle_trans; [apply Rmin_r|apply Rmin_r]]).
  assert (Q1 : 0 <= H ^ 5) by (apply pow_le; auto).
  assert (Q3 : H ^ 5 <= 1) by (rewrite <- (pow1 5); apply pow_incr; lra).
  assert (Q4 : 0 <= eq * H) by (apply Rmult_le_pos; auto).
  pose proof (H1 H (conj H0 B1)) as HR. apply (sols_all_n _ _ n g lo hi Y H _ (C1 * (eps + H ^ 5)) Hn HR).
  eapply sols_le_n; [|apply (H2 H (C1 * (eps + H ^ 5)) (conj H0 B2)); [split; [apply Rmult_le_pos; lra|]|exact HR]].
  - rewrite Rmult_assoc. apply Rmult_le_compat_l; [auto|]. set (a := H ^ 5) in *. set (z := eq * H) in *.
    assert (0 <= C1 * (z + a)) by (apply Rmult_le_pos; lra). clearbody a z. lra.
  - unfold r. assert (C1 * (eps + H ^ 5) <= C1 * (eps + 1)) by (apply Rmult_le_compat_l; lra). lra.
Qed.

(** the hypotheses are met: x'' = -x with solution sin, MR6NN with its interpolant, and Fi5N with interpolant 1 *)
Example C52_nystrom_case lo hi : In (MR6NN_tab, false, 6%nat, 4%nat) exact_nystrom_pairs /\ In (Fi5N_tab, true, 5%nat, 4%nat) exact_nystrom_pairs /\
  In (MR6NN_tab, false, dense_rkn 1 (lm MR6NN_P) (lm MR6NN_Pp), 5%nat) (dense_nystrom 1) /\ In (Fi5N_tab, true, dense_fi5n 1 1, 5%nat) (dense_nystrom 1) /\
  lifts (1 + 1) (sys2 1 spring) spring_sys /\ solution2_on 1 spring lo hi (fun t => [sin t; cos t]) /\
  (exists C del, 0 <= C /\ 0 < del /\ forall H, 0 <= H < del -> sols_accurate_n MR6NN_tab (dense_rkn 1 (lm MR6NN_P) (lm MR6NN_Pp)) 1 spring_sys lo hi (fun t => [sin t; cos t]) H (C * H ^ 6)) /\
  (exists C del, 0 <= C /\ 0 < del /\ forall H, 0 <= H < del -> sols_accurate_n Fi5N_tab (dense_fi5n 1 1) 1 spring_sys lo hi (fun t => [sin t; cos t]) H (C * H ^ 5)).
Proof.
  destruct (C49_nystrom_case lo hi) as (H1 & H2 & H3 & _ & H4 & _).
  assert (A1 : In (MR6NN_tab, false, 6%nat, 4%nat) exact_nystrom_pairs) by (right; right; left; reflexivity).
  assert (A2 : In (Fi5N_tab, true, 5%nat, 4%nat) exact_nystrom_pairs) by (right; left; reflexivity).
  assert (A3 : In (MR6NN_tab, false, dense_rkn 1 (lm MR6NN_P) (lm MR6NN_Pp), 5%nat) (dense_nystrom 1)) by (right; right; right; right; left; reflexivity).
  assert (A4 : In (Fi5N_tab, true, dense_fi5n 1 1, 5%nat) (dense_nystrom 1)) by (right; right; left; reflexivity).
  split; [exact A1|]. split; [exact A2|]. split; [exact A3|]. split; [exact A4|]. split; [exact H1|]. split; [exact H4|]. split.
  - exact (C52_nystrom_polynomial _ _ _ _ _ _ _ _ _ _ _ _ A1 A3 ltac:(lia) H1 (fun _ => H2) H3 H4).
  - exact (C52_nystrom_polynomial _ _ _ _ _ _ _ _ _ _ _ _ A2 A4 ltac:(lia) H1 (fun E => ltac:(discriminate)) H3 H4).
Qed.
