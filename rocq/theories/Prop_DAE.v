(** C56: the implicit classes with a mass matrix M, M y' = f(t, y), start from consistent values.
    C57: which mass matrices are recognised as singular.  (common.py 1778-2006)

    Vocabulary (DAEReal.v, DAEMake.v): [mass_is M X]: the argument M, one- or two-dimensional,
    stands for the real matrix X; [rmv d X y q]: component q of X y; [algebraic d X w]:
    w^T X = 0, so that w^T f(t, y) = 0 is an algebraic equation of the problem;
    [dot d w v] = w^T v.  The numerical linear algebra is an oracle [Lin]; the premises of
    [dae_data] say that the singular value decomposition of this X and the linear solves are
    exact and that root, when it reports success, has residuals at most e. *)
From Coq Require Import String Reals Lra QArith Qreals Bool Lia List Arith.
From Verif Require Import Arith Common Stiff RK HStart RKInit RX Tableaux Classes Dense Ode RKReal HStartReal RKInitReal Series OrderRK OrderModel RKSpecProofs OrderPairN GlobalAccept
  ESDIRK ESDCls ESDGen ESDReal ESDTop ESDInv ESDLin ESDLin2 Prop_ESDLin DAE DAEReal DAETop DAEMake.
Import ListNotations.
Close Scope string_scope. Open Scope nat_scope. Open Scope R_scope.

(** the Jacobian argument yields real d x d matrices *)
Definition real_jac (d : nat) (jac : jac_arg RX) : Prop :=
  match jac with
  | JacConst J => exists X, J = FM X /\ rshape d X
  | JacFun j => forall k t y, length y = d -> exists X, j k (Fin t) (FV y) = FM X /\ rshape d X
  end.

Record dae_data (d : nat) (L : Lin RX) (f : xr -> list xr -> list xr) (F : R -> list R -> list R) (jac : jac_arg RX) (M : mass_arg RX)
  (X U : list (list R)) (s : list R) (V : list (list R)) (e : R) (y0 : list R) : Prop := {
  dd_mass : mass_is M X;
  dd_svd : l_svd L (FM X) = (FM U, FV s, FM V);
  dd_dec : svd_of d X U s V;
  (* a singular value below the threshold of the code is zero *)
  dd_gap : forall i, (i < d)%nat -> nth i s 0 < cond_lim d s -> nth i s 0 = 0;
  dd_fun : lifts d F f;
  dd_jac : real_jac d jac;
  dd_solve : forall k, exact_solve k (l_solve L);
  dd_e : 0 <= e;
  dd_root : root_within e (l_root L);
  dd_len : length y0 = d }.

(** X is singular but not zero *)
Definition singular (d : nat) (X : list (list R)) : Prop :=
  (exists w i, algebraic d X w /\ (i < d)%nat /\ nth i w 0 <> 0) /\
  exists i j, (i < d)%nat /\ (j < d)%nat /\ nth j (nth i X []) 0 <> 0.

(** the Jacobian at the initial values *)
Definition jac_at0 (jac : jac_arg RX) (t0 : R) (y0 : list R) : list (list xr) :=
  match jac with JacConst J => J | JacFun j => j 0%nat (Fin t0) (FV y0) end.
Definition jac_at1 (jac : jac_arg RX) (t0 : R) (y : list R) : list (list xr) :=
  match jac with JacConst J => J | JacFun j => j 1%nat (Fin t0) (FV y) end.

(** ** proofs *)
Lemma sing_count d X U s V : svd_of d X U s V -> (forall i, (i < d)%nat -> nth i s 0 < cond_lim d s -> nth i s 0 = 0) -> singular d X ->
  let k := small_values d s in (0 < k < d)%nat /\ (forall l, (l < d - k)%nat -> nth l s 0 <> 0) /\ forall l, (d - k <= l < d)%nat -> nth l s 0 = 0.
Proof.
  intros HS Hgap ((w & i & Hw & Hi & Hwi) & (p & q & Hp & Hq & Hpq)). pose proof HS as (SX & OU & OV & Ls & HX & Hdec & Hpos).
  assert (Hd : (0 < d)%nat) by lia.
  (* s_0 > 0 *)
  assert (H0 : 0 < nth 0 s 0).
  { destruct (Rle_lt_or_eq_dec _ _ (Hpos 0%nat Hd)) as [H|H]; [exact H|]. exfalso. apply Hpq. rewrite HX by assumption. apply rsum_zero. intros l Hl.
    pose proof (Hdec 0%nat l ltac:(lia)) as B1. pose proof (Hpos l Hl) as B2. replace (nth l s 0) with 0 by lra. ring. }
  assert (Hlim : 0 < cond_lim d s).
  { unfold cond_lim. apply Rmult_lt_0_compat; [apply Rmult_lt_0_compat; [exact H0|apply lt_0_INR; nia]|apply Rinv_0_lt_compat, pow_lt; lra]. }
  (* some s_l = 0 *)
  assert (Hz : exists l, (l < d)%nat /\ nth l s 0 = 0).
  { assert (D : forall n, (n <= d)%nat -> (exists l, (l < n)%nat /\ nth l s 0 = 0) \/ forall l, (l < n)%nat -> nth l s 0 <> 0).
    { induction n as [|n IH]; intros Hn; [right; intros; lia|]. destruct (IH ltac:(lia)) as [(l & A & B)|B]; [left; exists l; split; [lia|exact B]|].
      destruct (Req_EM_T (nth n s 0) 0) as [E|E]; [left; exists n; split; [lia|exact E]|]. right. intros l Hl. destruct (Nat.eq_dec l n) as [->|]; [exact E|apply B; lia]. }
    destruct (D d (Nat.le_refl d)) as [H|H]; [exact H|]. exfalso. apply Hwi.
    rewrite <- (orth_out d U w i OU Hi). unfold rmv at 1. apply rsum_zero. intros l Hl. rewrite rvec_nth by exact Hl.
    pose proof (svd_algebraic d X U s V HS w Hw l Hl) as E. apply Rmult_integral in E. destruct E as [E|E]; [exfalso; exact (H l Hl E)|rewrite E; ring]. }
  destruct (filter_sorted (cond_lim d s) s) as (B1 & B2 & B3); [rewrite Ls; exact Hdec|]. fold (small_values d s) in B1, B2, B3. rewrite Ls in B1, B2, B3.
  set (k := small_values d s) in *. cbn zeta. clearbody k. destruct Hz as (l0 & Hl0 & Hz). split.
  - split.
    + destruct k; [|lia]. exfalso. pose proof (B2 l0 ltac:(lia)). lra.
    + destruct (Nat.eq_dec k d) as [->|]; [|lia]. exfalso. pose proof (B3 0%nat ltac:(lia)) as B. pose proof (Hgap 0%nat Hd B). lra.
  - split; [intros l Hl; pose proof (B2 l Hl); lra|intros l Hl; apply Hgap; [lia|apply B3, Hl]].
Qed.

Lemma no_first_args m o t0 tb y0 : esd_args m o t0 tb y0 -> esd_args m (no_first o) t0 tb y0.
Proof. intros (A & B & C & D & E & G). repeat (split; [assumption|]). discriminate. Qed.

(** what a returned DAE constructor went through *)
Lemma make_dae m o d L luok solve f F jac M X U s V e t0 tb y0 c st :
  esd_args m o t0 tb (FV y0) -> dae_data d L f F jac M X U s V e y0 -> singular d X ->
  esd_make m o L luok solve f jac M (Fin t0) (FV y0) (Fin tb) = inl (c, st) ->
  let k := small_values d s in
  exists y J J0 da yp z h (u : list R),
    jac_at0 jac t0 y0 = FM J0 /\ rshape d J0 /\ length y = d /\ rshape d J /\ length yp = d /\ h <> 0 /\ length u = (d - k)%nat /\ 0 < da * (tb - t0) /\
    l_rank L (FM (bvv (d - k) (rconj d U J0 V))) = k /\
    (forall l, (l < d - k)%nat -> rmv d V y l = rmv d V y0 l) /\
    (forall l, (d - k <= l < d)%nat -> Rabs (rmv d (rtr d U) (F t0 y) l) <= Rmax e (1 / 100000000)) /\
    ((y = y0 /\ J = J0) \/ (FM J = jac_at1 jac t0 y /\ forall l, (d - k <= l < d)%nat -> Rabs (rmv d (rtr d U) (F t0 y) l) <= e)) /\
    ((forall l, (d - k <= l < d)%nat -> Rabs (rmv d (rtr d U) (F t0 y0) l) <= 1 / 100000000) -> y = y0 /\ J = J0) /\
    (forall l, (l < d)%nat -> nth l yp 0 = rmv d (rtr d V) z l) /\
    (forall l, (l < d - k)%nat -> nth l z 0 = rmv d (rtr d U) (F t0 y) l / nth l s 0) /\
    (forall l, (d - k <= l < d)%nat -> rmv d (rtr d U) (rvec d (fun q => (nth q (F (t0 + da) y) 0 - nth q (F t0 y) 0) / da)) l + rmv d (rtr d U) (rvec d (rmv d J yp)) l = 0) /\
    esd_init_dae m o luok solve f jac (FM X) (FM U) k (Fin t0) (FV y0) (Fin tb) (FV y, FV yp, FM J, Fin h) = inl (c, st).
Proof.
  intros HA [Hmass Hsvd Hdec Hgap HF Hjac Hsol He Hroot Ly0] Hsing H k.
  destruct (sing_count d X U s V Hdec Hgap Hsing) as ((Hk0 & Hkd) & Hnz & Hz). fold k in Hk0, Hkd, Hnz, Hz.
  pose proof Hdec as (SX & OU & OV & Ls & _).
  destruct (no_first_args _ _ _ _ _ HA) as (Hm & Hne & Hy & Hsc & Hms & Hfs).
  unfold esd_make in H.
  match type of H with (match ?x with inl _ => _ | inr _ => _ end) = _ => destruct x as [[c0 s0]|e0] eqn:EI; [|discriminate H] end.
  destruct (esd_init_good _ _ _ _ _ _ _ _ _ _ _ _ Hm EI Hne Hy Hsc Hms Hfs) as (r & h0 & yp0 & J00 & jc & B1 & B2 & B3 & B4 & B5 & B6 & B7 & B8 & B9 & B10 & B11 & B12 & B13 & B14 & B15 & B16 & B17 & B18 & Es0).
  pose proof (handle_M_real L d M X U s V Hmass SX Hsvd) as EH. fold k in EH. rewrite (proj2 (Nat.ltb_lt 0 k) Hk0) in EH.
  rewrite map_length, Ly0 in H. change (num RX) with xr in *. rewrite EH in H. clear EH. cbv zeta in H.
  assert (EJ0 : w_J (e_w s0) = jac_at0 jac t0 y0) by (rewrite Es0; cbn [e_w w_J]; destruct jac; exact (proj1 B18)).
  assert (HJ0 : exists J0, jac_at0 jac t0 y0 = FM J0 /\ rshape d J0) by (destruct jac as [J|j]; cbn [jac_at0 real_jac] in *; [exact Hjac|apply Hjac; exact Ly0]).
  destruct HJ0 as (J0 & EJ & SJ0). rewrite EJ in EJ0. change (num RX) with xr in *.
  destruct (HF t0 y0 Ly0) as (LF0 & EF0). change (num RX) with xr in *. rewrite B14, EF0, EJ0 in H. clear EJ0.
  destruct B1 as (E1 & E2 & E3 & E4). destruct E4 as (_ & _ & _ & _ & _ & _ & _ & _ & _ & _ & _ & HMS). rewrite B13 in HMS. cbn [no_first p_max_step] in HMS.
  destruct (look_ahead t0 tb (cd r) (p_max_step o) Hne E3 B3 HMS) as (b & Eb & Hb). rewrite E2 in H. change (num RX) with xr in *. rewrite Eb in H. clear Eb.
  assert (Hbt : b <> t0) by (intros ->; lra).
  match type of H with (match consistent_y ?a1 ?a2 ?a3 ?a4 ?a5 ?a6 ?a7 ?a8 ?a9 ?a10 with inl _ => _ | inr _ => _ end) = _ =>
    destruct (consistent_y a1 a2 a3 a4 a5 a6 a7 a8 a9 a10) as [[[[y1 f1] J1] u1]|e1] eqn:EC; [|discriminate H] end.
  apply (consistent_y_real d k L U V F f ltac:(lia) OU OV HF e t0 y0 J0 _ y1 f1 J1 u1 He Hroot Ly0 SJ0) in EC.
  2:{ intros y Ly. destruct jac as [J|j]; cbn [real_jac] in Hjac; [exact Hjac|apply Hjac; exact Ly]. }
  destruct EC as (y & J & u & -> & Ly & -> & -> & SJ & -> & Lu & Er & C1 & C2 & C3 & C4).
  destruct (h_start_T_real d F f t0 b y HF Ly Hbt) as (da & Hda & ET). change (num RX) with xr in *. rewrite ET in H. clear ET.
  match type of H with (match consistent_yp ?a1 ?a2 ?a3 ?a4 ?a5 ?a6 ?a7 ?a8 ?a9 ?a10 with inl _ => _ | inr _ => _ end) = _ =>
    destruct (consistent_yp a1 a2 a3 a4 a5 a6 a7 a8 a9 a10) as [ri|e1] eqn:EP; [|discriminate H] end.
  destruct (HF t0 y Ly) as (LF & _).
  apply (consistent_yp_real d k L U V ltac:(lia) OU OV s y (F t0 y) J (FV u) _ ri (Hsol k) Ls Hnz Ly LF SJ (rvec_len d _)) in EP.
  destruct EP as (yp & z & Ey & EJ2 & Eu & Eyp & Lyp & Lz & P1 & P2 & P3).
  rewrite Ey, Eyp, EJ2, Eu in H.
  assert (Hh : exists h, h <> 0 /\ esd_init_dae m o luok solve f jac (FM X) (FM U) k (Fin t0) (FV y0) (Fin tb) (FV y, FV yp, FM J, Fin h) = inl (c, st)).
  { destruct (p_first_step o) as [fs|] eqn:Efs.
    - exists 1. split; [lra|]. unfold esd_init_dae in H |- *.
      match type of H with (match ?x with inl _ => _ | inr _ => _ end) = _ => destruct x as [[c1 s1]|e1] eqn:EI1; [|discriminate H] end.
      cbv zeta in H |- *. unfold esd_first in H |- *. rewrite Efs in H |- *. exact H.
    - match type of H with (match hs_JT ?a1 ?a2 ?a3 ?a4 ?a5 ?a6 ?a7 ?a8 ?a9 with inl _ => _ | inr _ => _ end) = _ => destruct (hs_JT a1 a2 a3 a4 a5 a6 a7 a8 a9) as [h1|e1] eqn:EH; [|discriminate H] end.
      apply hs_JT_fin in EH; [|lra|destruct u; [exfalso; cbn [length] in Lu; lia|discriminate]]. destruct EH as (h' & -> & Hh). exists h'. split; [exact Hh|exact H]. }
  destruct Hh as (h & Hh & Hini).
  exists y, J, J0, da, yp, z, h, u. split; [exact EJ|]. split; [exact SJ0|]. split; [exact Ly|]. split; [exact SJ|]. split; [exact Lyp|]. split; [exact Hh|]. split; [exact Lu|].
  split. { destruct E3 as [E3|E3]; rewrite E3 in *; nra. }
  split; [exact Er|]. split; [exact C1|]. split; [exact C2|]. split; [exact C3|]. split; [exact C4|]. split; [exact P1|]. split; [exact P2|]. split; [exact P3|]. exact Hini.
Qed.

Lemma dot_mass d X w v : rshape d X -> algebraic d X w -> dot d w (rvec d (rmv d X v)) = 0.
Proof.
  intros HX [Lw Hw]. unfold dot. rewrite (rsum_ext d _ (fun i => rsum d (fun j => nth i w 0 * nth j (nth i X []) 0 * nth j v 0))).
  2:{ intros i Hi. rewrite rvec_nth by exact Hi. unfold rmv. rewrite <- rsum_scal. apply rsum_ext. intros j Hj. ring. }
  rewrite rsum_swap. apply rsum_zero. intros j Hj. rewrite rsum_scal_r, (Hw j Hj). ring.
Qed.
Lemma dot_plus d w u v : dot d w (rvec d (fun q => nth q u 0 + nth q v 0)) = dot d w u + dot d w v.
Proof. unfold dot. rewrite <- rsum_plus. apply rsum_ext. intros i Hi. rewrite rvec_nth by exact Hi. ring. Qed.

(** ** C56: consistent values *)
(** The values y, y' the constructor starts from satisfy M y' = f(t0, y) up to d max(e, 1e-8), and so every
    algebraic equation; M y = M y0: the differential part of y0 is kept; the derivative of every algebraic
    equation along (1, y') vanishes: w^T (df/dt + J y') = 0, df/dt being a difference quotient and J the
    Jacobian at (t0, y); and a consistent y0 is kept, with M y' = f(t0, y0) exactly. *)
Theorem C56_consistent_start m o d L luok solve f F jac M X U s V e t0 tb y0 c st :
  esd_args m o t0 tb (FV y0) -> dae_data d L f F jac M X U s V e y0 -> singular d X ->
  esd_make m o L luok solve f jac M (Fin t0) (FV y0) (Fin tb) = inl (c, st) ->
  exists y yp J da,
    e_t st = Fin t0 /\ e_y st = FV y /\ e_yp st = FV yp /\ w_J (e_w st) = FM J /\ length y = d /\ length yp = d /\
    (forall q, (q < d)%nat -> Rabs (rmv d X yp q - nth q (F t0 y) 0) <= INR d * Rmax e (1 / 100000000)) /\
    (forall w, algebraic d X w -> Rabs (dot d w (F t0 y)) <= rsum d (fun i => Rabs (nth i w 0)) * (INR d * Rmax e (1 / 100000000))) /\
    (forall q, (q < d)%nat -> rmv d X y q = rmv d X y0 q) /\
    (0 < da * (tb - t0) /\ forall w, algebraic d X w ->
       dot d w (rvec d (fun q => (nth q (F (t0 + da) y) 0 - nth q (F t0 y) 0) / da)) + dot d w (rvec d (rmv d J yp)) = 0) /\
    ((y = y0 /\ FM J = jac_at0 jac t0 y0) \/ FM J = jac_at1 jac t0 y) /\
    ((forall w, algebraic d X w -> dot d w (F t0 y0) = 0) -> y = y0 /\ forall q, (q < d)%nat -> rmv d X yp q = nth q (F t0 y0) 0).
Proof.
  intros HA HD Hsing H. destruct (make_dae _ _ _ _ _ _ _ _ _ _ _ _ _ _ _ _ _ _ _ _ HA HD Hsing H) as
    (y & J & J0 & da & yp & z & h & u & EJ & SJ0 & Ly & SJ & Lyp & Hh & Lu & Hda & Er & C1 & C2 & C3 & C4 & P1 & P2 & P3 & EI).
  pose proof (dd_dec _ _ _ _ _ _ _ _ _ _ _ _ HD) as HS. pose proof (dd_gap _ _ _ _ _ _ _ _ _ _ _ _ HD) as HG.
  destruct (sing_count d X U s V HS HG Hsing) as ((Hk0 & Hkd) & Hnz & Hz). set (k := small_values d s) in *.
  destruct (init_dae_fields _ _ _ _ _ _ _ _ _ _ _ _ _ _ _ _ _ _ EI) as (A1 & A2 & A3 & A4 & A5 & A6 & A7 & A8 & _).
  pose proof (dd_e _ _ _ _ _ _ _ _ _ _ _ _ HD) as He.
  assert (B0 : 0 <= Rmax e (1 / 100000000)) by (eapply Rle_trans; [exact He|apply Rmax_l]).
  assert (R1 : forall q, (q < d)%nat -> Rabs (rmv d X yp q - nth q (F t0 y) 0) <= INR d * Rmax e (1 / 100000000)).
  { intros q Hq. eapply Rle_trans; [apply (residual_bound d X U s V HS (d - k) ltac:(lia) Hnz Hz z (F t0 y) yp (Rmax e (1 / 100000000)) q Hq P1 P2 C2)|].
    apply Rmult_le_compat_r; [exact B0|apply le_INR; lia]. }
  exists y, yp, J, da. split; [exact A5|]. split; [exact A6|]. split; [exact A7|]. split; [exact A8|]. split; [exact Ly|]. split; [exact Lyp|]. split; [exact R1|].
  split; [|split; [|split; [|split]]].
  - intros w Hw. replace (dot d w (F t0 y)) with (- rsum d (fun q => nth q w 0 * (rmv d X yp q - nth q (F t0 y) 0))).
    + rewrite Rabs_Ropp. eapply Rle_trans; [apply rsum_abs'|]. rewrite <- rsum_scal_r. apply rsum_mono. intros q Hq. rewrite Rabs_mult.
      apply Rmult_le_compat_l; [apply Rabs_pos|apply R1, Hq].
    + pose proof (dot_mass d X w yp (proj1 HS) Hw) as E. unfold dot in E |- *. rewrite (rsum_ext d _ (fun q => nth q w 0 * nth q (rvec d (rmv d X yp)) 0 - nth q w 0 * nth q (F t0 y) 0)).
      2:{ intros q Hq. rewrite rvec_nth by exact Hq. ring. }
      rewrite ESDLin.rsum_minus. rewrite E. ring.
  - intros q Hq. apply (same_mass d X U s V HS (d - k) ltac:(lia) Hz); [exact Hq|exact C1].
  - split; [exact Hda|]. intros w Hw. rewrite <- dot_plus. apply (alg_dot d X U s V HS (d - k) Hnz w _ Hw). intros l Hl. refine (eq_trans _ (P3 l Hl)).
    unfold rmv at 1 3 4. rewrite <- rsum_plus. apply rsum_ext. intros q Hq. rewrite !rvec_nth by exact Hq. ring.
  - destruct C3 as [[-> ->]|[E _]]; [left; split; [reflexivity|symmetry; exact EJ]|right; exact E].
  - intros Hc. assert (Z : forall l, (d - k <= l < d)%nat -> rmv d (rtr d U) (F t0 y0) l = 0).
    { intros l Hl. rewrite <- (ucol_dot d X U s V HS l) by lia. apply Hc. apply (ucol_algebraic d X U s V HS); [lia|apply Hz; exact Hl]. }
    destruct C4 as [-> _]. { intros l Hl. rewrite (Z l Hl), Rabs_R0. lra. }
    split; [reflexivity|]. intros q Hq.
    pose proof (residual_bound d X U s V HS (d - k) ltac:(lia) Hnz Hz z (F t0 y0) yp 0 q Hq P1 P2) as B.
    assert (B' : Rabs (rmv d X yp q - nth q (F t0 y0) 0) <= 0). { eapply Rle_trans; [apply B; intros l Hl; rewrite (Z l Hl), Rabs_R0; lra|]. rewrite Rmult_0_r. lra. }
    pose proof (Rabs_pos (rmv d X yp q - nth q (F t0 y0) 0)) as B2. assert (E0 : Rabs (rmv d X yp q - nth q (F t0 y0) 0) = 0) by lra. destruct (Req_dec (rmv d X yp q - nth q (F t0 y0) 0) 0) as [E|E]; [lra|]. apply Rabs_no_R0 in E. contradiction.
Qed.

(** np.linalg.matrix_rank decides whether a square matrix is regular *)
Definition rank_right (d : nat) (L : Lin RX) : Prop :=
  forall k G, (k < d)%nat -> rshape k G -> (l_rank L (FM G) = k <-> forall v, length v = k -> (forall q, (q < k)%nat -> rmv k G v q = 0) -> forall q, (q < k)%nat -> nth q v 0 = 0).

(** A constructor that returns was given a problem of index 1: no direction z <> 0 with M z = 0 is invisible to
    the algebraic equations; for a problem of higher index it raises. *)
Theorem C56_index_one m o d L luok solve f F jac M X U s V e t0 tb y0 c st J0 :
  esd_args m o t0 tb (FV y0) -> dae_data d L f F jac M X U s V e y0 -> singular d X -> rank_right d L ->
  esd_make m o L luok solve f jac M (Fin t0) (FV y0) (Fin tb) = inl (c, st) -> jac_at0 jac t0 y0 = FM J0 ->
  forall z, length z = d -> (forall q, (q < d)%nat -> rmv d X z q = 0) ->
    (forall w, algebraic d X w -> dot d w (rvec d (rmv d J0 z)) = 0) -> forall q, (q < d)%nat -> nth q z 0 = 0.
Proof.
  intros HA HD Hsing HR H EJ0 z Lz Hk HJz. destruct (make_dae _ _ _ _ _ _ _ _ _ _ _ _ _ _ _ _ _ _ _ _ HA HD Hsing H) as
    (y & J & J1 & da & yp & z1 & h & u & EJ & SJ0 & Ly & SJ & Lyp & Hh & Lu & Hda & Er & _).
  assert (J1 = J0). { rewrite EJ0 in EJ. clear -EJ. revert J1 EJ. induction J0 as [|r R IH]; intros [|r1 R1] E; try discriminate; [reflexivity|]. injection E as E1 E2. f_equal; [apply fin_inj; symmetry; exact E1|apply IH; exact E2]. }
  subst J1.
  pose proof (dd_dec _ _ _ _ _ _ _ _ _ _ _ _ HD) as HS. pose proof (dd_gap _ _ _ _ _ _ _ _ _ _ _ _ HD) as HG.
  destruct (sing_count d X U s V HS HG Hsing) as ((Hk0 & Hkd) & Hnz & Hz). set (k := small_values d s) in *. clearbody k.
  pose proof HS as (SX & OU & OV & _).
  pose proof (rconj_shape d U J0 V (proj1 OU)) as SG. set (G := rconj d U J0 V) in *.
  pose proof (bvv_shape d (d - k) G SG) as SB. replace (d - (d - k))%nat with k in SB by lia.
  pose proof (proj1 (HR k (bvv (d - k) G) Hkd SB) Er) as Hinj.
  pose proof (kernel_V d X U s V HS (d - k) ltac:(lia) Hnz z Hk) as HV0.
  set (v := skipn (d - k) (rvec d (rmv d V z))).
  assert (Lv : length v = k) by (unfold v; rewrite skipn_length, rvec_len; lia).
  assert (Evz : forall l, (l < d)%nat -> nth l (repeat 0 (d - k) ++ v) 0 = rmv d V z l).
  { intros l Hl. destruct (Nat.lt_ge_cases l (d - k)) as [B|B].
    - rewrite app_nth1 by (rewrite repeat_length; exact B). rewrite nth_repeat. symmetry. apply HV0, B.
    - rewrite app_nth2 by (rewrite repeat_length; exact B). rewrite repeat_length. unfold v. rewrite nth_skipn. replace (d - k + (l - (d - k)))%nat with l by lia. apply rvec_nth. exact Hl. }
  assert (HV1 : forall q, (q < k)%nat -> nth q v 0 = 0).
  { apply Hinj; [exact Lv|]. intros q Hq.
    pose proof (block_mv d (d - k) G (repeat 0 (d - k)) v q ltac:(lia) SG (repeat_length _ _) ltac:(lia) ltac:(lia)) as E.
    replace (d - (d - k))%nat with k in E by lia. rewrite (rsum_zero (d - k)) in E by (intros l Hl; rewrite nth_repeat; ring). rewrite Rplus_0_l in E. rewrite <- E. clear E.
    unfold G. rewrite rconj_mv by (first [apply OU|lia]).
    rewrite <- (ucol_dot d X U s V HS) by lia. transitivity (dot d (ucol d U (d - k + q)) (rvec d (rmv d J0 z))).
    - unfold dot. apply rsum_ext. intros i Hi. rewrite !rvec_nth by exact Hi. f_equal. apply rmv_ext. intros l Hl. rewrite rvec_nth by exact Hl.
      rewrite <- (orth_in d V z l OV Hl). apply rmv_ext. intros p Hp. rewrite rvec_nth by exact Hp. apply Evz, Hp.
    - apply HJz. apply (ucol_algebraic d X U s V HS); [lia|apply Hz; lia]. }
  intros q Hq. rewrite <- (orth_in d V z q OV Hq). unfold rmv at 1. apply rsum_zero. intros l Hl. rewrite rvec_nth by exact Hl. rewrite <- (Evz l Hl).
  destruct (Nat.lt_ge_cases l (d - k)) as [B|B]; [rewrite app_nth1, nth_repeat by (rewrite repeat_length; exact B); ring|].
  rewrite app_nth2 by (rewrite repeat_length; exact B). rewrite HV1; [ring|rewrite repeat_length; lia].
Qed.

Lemma make_built_dae m o d L luok solve f F jac M X U s V e t0 tb y0 c st :
  esd_args m o t0 tb (FV y0) -> dae_data d L f F jac M X U s V e y0 -> singular d X -> env_ok d f jac luok solve ->
  esd_make m o L luok solve f jac M (Fin t0) (FV y0) (Fin tb) = inl (c, st) -> esd_built m o f t0 tb (FV y0) c st.
Proof.
  intros HA HD Hsing HE H. destruct (make_dae _ _ _ _ _ _ _ _ _ _ _ _ _ _ _ _ _ _ _ _ HA HD Hsing H) as
    (y & J & J0 & da & yp & z & h & u & EJ & SJ0 & Ly & SJ & Lyp & Hh & Lu & Hda & Er & C1 & C2 & C3 & C4 & P1 & P2 & P3 & EI).
  pose proof (dd_dec _ _ _ _ _ _ _ _ _ _ _ _ HD) as (SX & OU & _). pose proof (dd_len _ _ _ _ _ _ _ _ _ _ _ _ HD) as L0.
  apply (EB_dae m o f t0 tb (FV y0) luok solve jac (FM X) (FM U) (small_values d s) (FV y) (FV yp) (FM J) h); rewrite ?map_length, ?L0; auto using mshape_fin.
  apply mshape_fin, OU.
Qed.

(** ** the regular case *)
(** no singular value below the threshold of the code: the condition number is at most 2^52/d^2 *)
Lemma regular_count d X U s V : svd_of d X U s V -> (forall i, (i < d)%nat -> cond_lim d s <= nth i s 0) -> small_values d s = 0%nat.
Proof.
  intros (_ & _ & _ & Ls & _ & Hdec & _) H. destruct (filter_sorted (cond_lim d s) s) as (B1 & _ & B3); [rewrite Ls; exact Hdec|]. fold (small_values d s) in B1, B3. rewrite Ls in B1, B3.
  destruct (small_values d s) as [|k]; [reflexivity|]. exfalso. pose proof (B3 (d - 1)%nat ltac:(lia)) as B. pose proof (H (d - 1)%nat ltac:(lia)). lra.
Qed.
Lemma make_ode m o d L luok solve f jac M X U s V t0 tb y0 c st :
  length y0 = d -> mass_is M X -> svd_of d X U s V -> l_svd L (FM X) = (FM U, FV s, FM V) -> small_values d s = 0%nat ->
  esd_make m o L luok solve f jac M (Fin t0) (FV y0) (Fin tb) = inl (c, st) ->
  esd_init m o luok solve f jac (Some (FM X)) (Fin t0) (FV y0) (Fin tb) = inl (c, st).
Proof.
  intros Ly HM HS ES Hk H. unfold esd_make in H.
  match type of H with (match ?x with inl _ => _ | inr _ => _ end) = _ => destruct x as [[c0 s0]|e0]; [|discriminate H] end.
  pose proof (handle_M_real L d M X U s V HM (proj1 HS) ES) as EH. rewrite Hk in EH. cbn [Nat.ltb Nat.leb] in EH.
  rewrite map_length, Ly in H. change (num RX) with xr in *. rewrite EH in H. exact H.
Qed.

(** C57: a mass matrix whose condition number is at most 2^52/d^2 is not taken for singular: the solver starts
    from y0 itself with the y' of M y' = f(t0, y0). *)
Theorem C57_regular m o d L luok solve f F jac M X U s V t0 tb y0 c st :
  esd_args m o t0 tb (FV y0) -> length y0 = d -> mass_is M X -> svd_of d X U s V -> l_svd L (FM X) = (FM U, FV s, FM V) ->
  (forall i, (i < d)%nat -> nth 0 s 0 * INR (d * d) * / 2 ^ 52 <= nth i s 0) -> lifts d F f -> exact_solve d solve ->
  esd_make m o L luok solve f jac M (Fin t0) (FV y0) (Fin tb) = inl (c, st) ->
  x_dae c = None /\ e_y st = FV y0 /\ exists yp, e_yp st = FV yp /\ length yp = d /\ forall q, (q < d)%nat -> rmv d X yp q = nth q (F t0 y0) 0.
Proof.
  intros (Hm & Hne & Hy & Hsc & Hms & Hfs) Ly HM HS ES Hc HF HX H.
  apply (make_ode _ _ d _ _ _ _ _ _ X U s V _ _ _ _ _ Ly HM HS ES (regular_count d X U s V HS Hc)) in H.
  destruct (esd_init_good _ _ _ _ _ _ _ _ _ _ _ _ Hm H Hne Hy Hsc Hms Hfs) as (r & h0 & yp0 & J00 & jc & B1 & B2 & B3 & B4 & B5 & B6 & B7 & B8 & B9 & B10 & B11 & B12 & B13 & B14 & B15 & B16 & B17 & B18 & Es0).
  destruct (HF t0 y0 Ly) as (LF & EF). cbn [mat_of] in B15. change (num RX) with xr in *. rewrite EF in B15.
  destruct (HX X (F t0 y0) yp0 (proj1 HS) LF B15) as (yp & -> & Lyp & N). split; [exact B10|]. rewrite Es0. cbn [e_y e_yp]. split; [reflexivity|]. exists yp. auto.
Qed.

(** C57 fails for M = 0: the purely algebraic system 0 = f(t, y) is not recognised as a DAE, and the constructor
    cannot return unless f(t0, y0) = 0 happens to hold. *)
Theorem C57_zero_mass_refuted m o d L luok solve f F jac M X U s V t0 tb y0 c st :
  esd_args m o t0 tb (FV y0) -> length y0 = d -> mass_is M X -> svd_of d X U s V -> l_svd L (FM X) = (FM U, FV s, FM V) ->
  (forall i j, (i < d)%nat -> (j < d)%nat -> nth j (nth i X []) 0 = 0) -> lifts d F f -> exact_solve d solve ->
  esd_make m o L luok solve f jac M (Fin t0) (FV y0) (Fin tb) = inl (c, st) ->
  x_dae c = None /\ forall q, (q < d)%nat -> nth q (F t0 y0) 0 = 0.
Proof.
  intros HA Ly HM HS ES HX0 HF HX H. pose proof HS as (SX & OU & OV & Ls & _).
  assert (Z : forall l, (l < d)%nat -> nth l s 0 = 0).
  { intros l Hl. set (el := rvec d (fun i => if Nat.eqb l i then 1 else 0)).
    pose proof (svd_ut_mv d X U s V HS (rvec d (rmv d (rtr d V) el)) l Hl) as E. rewrite orth_out in E by assumption. unfold el in E at 2. rewrite rvec_nth, Nat.eqb_refl in E by exact Hl.
    rewrite Rmult_1_r in E. rewrite <- E. unfold rmv at 1. apply rsum_zero. intros q Hq. rewrite rvec_nth by exact Hq. unfold rmv at 1.
    rewrite rsum_zero; [ring|]. intros j Hj. rewrite HX0 by assumption. ring. }
  assert (HA' := HA). destruct HA' as (Hm & Hne & Hy & _). assert (Hd : (0 < d)%nat) by (destruct y0; [exfalso; apply Hy; reflexivity|cbn [length] in Ly; lia]).
  destruct (C57_regular m o d L luok solve f F jac M X U s V t0 tb y0 c st HA Ly HM HS ES) as (A1 & A2 & yp & A3 & A4 & A5); auto.
  { intros i Hi. rewrite (Z 0%nat Hd), (Z i Hi). lra. }
  split; [exact A1|]. intros q Hq. rewrite <- (A5 q Hq). unfold rmv. apply rsum_zero. intros j Hj. rewrite HX0 by assumption. ring.
Qed.

(** every solver the constructor returns, with any mass matrix, is one the theorems on runs (C30-C33, C46, C53,
    C54) speak about *)
Theorem C57_runs m o d L luok solve f F jac M X U s V e t0 tb y0 c st :
  esd_args m o t0 tb (FV y0) -> dae_data d L f F jac M X U s V e y0 -> env_ok d f jac luok solve ->
  (singular d X \/ forall i, (i < d)%nat -> nth 0 s 0 * INR (d * d) * / 2 ^ 52 <= nth i s 0) ->
  esd_make m o L luok solve f jac M (Fin t0) (FV y0) (Fin tb) = inl (c, st) -> esd_built m o f t0 tb (FV y0) c st.
Proof.
  intros HA HD HE [Hs|Hr] H; [exact (make_built_dae _ _ _ _ _ _ _ _ _ _ _ _ _ _ _ _ _ _ _ _ HA HD Hs HE H)|].
  pose proof (dd_dec _ _ _ _ _ _ _ _ _ _ _ _ HD) as HS. pose proof (dd_len _ _ _ _ _ _ _ _ _ _ _ _ HD) as L0.
  apply (make_ode _ _ d _ _ _ _ _ _ X U s V _ _ _ _ _ L0 (dd_mass _ _ _ _ _ _ _ _ _ _ _ _ HD) HS (dd_svd _ _ _ _ _ _ _ _ _ _ _ _ HD) (regular_count d X U s V HS Hr)) in H.
  apply (EB_ode m o f t0 tb (FV y0) luok solve jac (Some (FM X))); [exact H|rewrite map_length, L0; exact HE|].
  intros M' E. injection E as <-. rewrite map_length, L0. apply mshape_fin, HS.
Qed.

(** C56 for linear problems M y' = J y + g(t): with a consistent y0 the constructor's solver is one of C29, so
    every step solves the stage equations of the DAE exactly. *)
Theorem C56_linear m o d L luok solve f F J M X U s V e t0 tb y0 g c st :
  esd_args m o t0 tb (FV y0) -> dae_data d L f F (JacConst (FM J)) M X U s V e y0 -> singular d X -> rshape d J -> linear_rhs d J g F ->
  env_ok d f (JacConst (FM J)) luok solve -> exact_solve d solve ->
  (forall w, algebraic d X w -> dot d w (F t0 y0) = 0) ->
  esd_make m o L luok solve f (JacConst (FM J)) M (Fin t0) (FV y0) (Fin tb) = inl (c, st) ->
  linear_problem m o f d (Some X) J F t0 tb y0 c st.
Proof.
  intros HA HD Hsing SJ HR HE HX Hc H. destruct (make_dae _ _ _ _ _ _ _ _ _ _ _ _ _ _ _ _ _ _ _ _ HA HD Hsing H) as
    (y & J1 & J0 & da & yp & z & h & u & EJ & SJ0 & Ly & SJ1 & Lyp & Hh & Lu & Hda & Er & C1 & C2 & C3 & C4 & P1 & P2 & P3 & EI).
  assert (FI : forall A B : list (list R), FM A = FM B -> A = B).
  { induction A as [|r R IH]; intros [|r1 R1] E; try discriminate; [reflexivity|]. injection E as E1 E2. f_equal; [apply fin_inj; exact E1|apply IH; exact E2]. }
  cbn [jac_at0 jac_at1] in EJ, C3. apply FI in EJ. subst J0. assert (J1 = J) by (destruct C3 as [[_ E]|[E _]]; [exact E|apply FI; exact E]). subst J1.
  destruct (C56_consistent_start _ _ _ _ _ _ _ _ _ _ _ _ _ _ _ _ _ _ _ _ HA HD Hsing H) as (y2 & yp2 & J2 & da2 & D1 & D2 & D3 & D4 & D5 & D6 & _ & _ & _ & _ & _ & D7).
  destruct (init_dae_fields _ _ _ _ _ _ _ _ _ _ _ _ _ _ _ _ _ _ EI) as (A1 & A2 & A3 & A4 & A5 & A6 & A7 & A8 & _).
  assert (y2 = y) by (apply fin_inj; rewrite <- D2; exact A6). assert (yp2 = yp) by (apply fin_inj; rewrite <- D3; exact A7). subst y2 yp2. destruct (D7 Hc) as [-> D8].
  pose proof (dd_dec _ _ _ _ _ _ _ _ _ _ _ _ HD) as (SX & OU & _ & Ls & _ & Hdec & _).
  eapply (LP_dae m o f d (Some X) J F t0 tb y0 luok solve g X U (small_values d s) y0 yp h c st EI eq_refl Hh HE HX OU); auto.
  - destruct (filter_sorted (cond_lim d s) s) as (B1 & _); [rewrite Ls; exact Hdec|]. fold (small_values d s) in B1. lia.
  - exact (dd_fun _ _ _ _ _ _ _ _ _ _ _ _ HD).
Qed.
