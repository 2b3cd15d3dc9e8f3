(** C48: dense output of SWAG (shampine.py 482-610).
    [swag_dense c v] is dense_output() of the solver v, [swag_sol D g ts] the value of the
    returned object at the points ts; g is the uninitialised work array it allocates
    ([work_ok]: of the right length, any contents). *)
From Coquelicot Require Import Coquelicot.
From Coq Require Import String ZArith Reals Lra Psatz QArith Qreals Bool Lia List Arith.
From Verif Require Import Arith Common Stiff RK HStart RKInit Ode RX RKReal RKInitReal NormReal Series OrderModel DenseReal Swag SwagArr SwagCo SwagGen SwagTop SwagReal Adams SwagHist Prop_SWAG SwagDense SwagDenseGen SwagDenseReal SwagDenseHist.
Import ListNotations.
Close Scope string_scope. Open Scope nat_scope.

(** ** no exception, in every arithmetic *)
Definition dready {A : Arith} (kmax : nat) (s : SSt A) : Prop := s_kold s = 0 \/ dense_ready kmax s.
Lemma accept_ready {A : Arith} (c : SCfg A) s i ms s' : kmax_ok c -> sinv c s -> swag_trial c s i ms = inl (SAccept s') -> dense_ready (s_kmax c) s'.
Proof.
  intros K SI T. destruct (trial_accept _ _ _ _ _ K SI T) as (co & phi & p & yp & wt & e & knew & TD & _ & SI' & AS & _). destruct (si_co _ _ SI) as (_ & Hk & _).
  constructor; rewrite ?(as_kold _ _ _ _ _ _ _ _ _ _ _ _ AS); [exact Hk|exact (si_phi _ _ SI')|]. rewrite (as_co _ _ _ _ _ _ _ _ _ _ _ _ AS). exact (td_done _ _ _ _ _ _ _ _ _ TD).
Qed.
Lemma call_ready {A : Arith} (c : SCfg A) fuel v v' : kmax_ok c -> vinv c v -> dready (s_kmax c) (ost v) -> swag_call c fuel v = OOk v' ->
  (forall m, ostat v' <> OFailed m) -> dready (s_kmax c) (ost v') /\ ot_old v' = Some (s_t (ost v)).
Proof.
  intros K [_ V] R E NF. unfold swag_call, ostep in E. destruct (ostat v) eqn:Es; try discriminate. specialize (V eq_refl).
  destruct (_ || _); [injection E as <-; split; [destruct R as [R|[R1 R2 R3]]; [left; exact R|right; constructor; assumption]|reflexivity]|]. unfold swag_impl in E.
  destruct (step_cases c (ost v) fuel K V) as [(B & S)|(B & [(msg & S)|(_ & [S|[(s1 & i1 & s' & R1 & T & S)|(s1 & i1 & s' & R1 & T & S)]])])]; rewrite S in E; try discriminate; injection E as <-; cbn [ost ot_old ostat] in *; try (exfalso; eapply NF; reflexivity).
  - split; [left; unfold extrapolated; destruct (kle4_step c (ost v)); reflexivity|reflexivity].
  - split; [right|reflexivity]. eapply accept_ready; [exact K| |exact T]. eapply rejects_inv; [exact K|exact R1|]. apply started_inv. exact V.
Qed.
Lemma after_ready {A : Arith} o fun_ (t0 : num A) y0 tb c n v : swag_after o fun_ t0 y0 tb c n v -> finite_bound c -> ostat v = ORunning -> dready (s_kmax c) (ost v).
Proof.
  intros (j & s & J & I & H) F. destruct (init_inv _ _ _ _ _ _ _ _ I J) as (K & SI & _ & _ & _ & _ & _ & _ & _ & _ & _ & Ko & _).
  assert (G : vinv c v /\ (ostat v = ORunning -> dready (s_kmax c) (ost v))).
  { remember (onew s) as v0 eqn:Ev. revert Ev. induction H as [v0|v0 n v1 v2 f H IH E]; intros Ev.
    - subst. split; [apply new_inv; assumption|]. intros _. left. exact Ko.
    - destruct (IH Ev) as (V & R). split; [exact (call_inv c f v1 v2 K F V E)|]. intros Rn. assert (R1 : ostat v1 = ORunning) by (unfold ostep in E; destruct (ostat v1); try discriminate; reflexivity).
      apply (call_ready c f v1 v2 K V (R R1) E). intros m Q. congruence. }
  exact (proj2 G).
Qed.

(** dense_output() succeeds after every step() that did not fail, and the returned function
    can be evaluated anywhere, at any list of points, without an exception *)
Theorem C48_no_exceptions {A : Arith} o fun_ (t0 : num A) y0 tb c n v fuel v' :
  swag_after o fun_ t0 y0 tb c n v -> finite_bound c -> swag_call c fuel v = OOk v' -> (forall m, ostat v' <> OFailed m) ->
  exists D, swag_dense c v' = inl D /\ forall g ts, work_ok D g -> exists ys, swag_sol D g ts = inl ys /\ length ys = length ts.
Proof.
  intros H F E NF. destruct (after_inv _ _ _ _ _ _ _ _ H F) as (K & _ & V).
  assert (R : ostat v = ORunning) by (unfold swag_call, ostep in E; destruct (ostat v); try discriminate; reflexivity).
  destruct (call_ready c fuel v v' K V (after_ready _ _ _ _ _ _ _ _ H F R) E NF) as (RD & TO).
  unfold swag_dense. rewrite TO. destruct (_ || _).
  - eexists. split; [reflexivity|]. intros g ts _. cbn [swag_sol]. eexists. split; [reflexivity|]. apply map_length.
  - destruct RD as [E0|RD].
    + unfold swag_dense_impl. rewrite E0. cbn [Nat.eqb]. eexists. split; [reflexivity|]. intros g ts _. cbn [swag_sol]. eexists. split; [reflexivity|]. apply map_length.
    + destruct (dense_impl_ok (s_kmax c) (s_t (ost v)) _ RD) as (D & ED & _). rewrite ED. exists (SDSwag D). split; [reflexivity|]. intros g ts Hw. cbn [swag_sol work_ok] in *.
      exact (sd_points_ok D _ ts (sdat_ready _ _ _ _ RD ED) g Hw).
Qed.

(** before the first step dense_output() raises RuntimeError *)
Theorem C48_before_step {A : Arith} o fun_ (t0 : num A) y0 tb c v : swag_after o fun_ t0 y0 tb c 0 v -> swag_dense c v = inr (RuntimeError "Dense output is available after a successful step was made.").
Proof. intros (j & s & _ & _ & H). inversion H; subst. reflexivity. Qed.

(** ** exact arithmetic *)
Open Scope R_scope.
(** P interpolates component q of the last step, to (t1, y1) with order k: the values at both
    ends and the slopes fun(t, y) at the new point and at the last k accepted points ps
    (newest first, ps_0 is the start of the step).  These are k + 3 conditions. *)
Record hermite (F : R -> list R -> list R) (ps : pts_t) (t1 : R) (y1 : list R) (k q : nat) (P : list R) : Prop := {
  he_deg : (length P <= k + 3)%nat;
  he_old : peval P (fst (nth 0 ps (0, []))) = nth q (snd (nth 0 ps (0, []))) 0;
  he_new : peval P t1 = nth q y1 0;
  he_slope : is_derive (peval P) t1 (nth q (F t1 y1) 0);
  he_past : forall j, (j < k)%nat -> is_derive (peval P) (fst (nth j ps (0, []))) (nth q (F (fst (nth j ps (0, []))) (snd (nth j ps (0, [])))) 0) }.

Lemma sd_points_same D ps n F h k yr : (forall g x, length g = (k + 1)%nat -> exists yv g', sd_point D g (Fin x) = inl (yv, g') /\ length g' = (k + 1)%nat /\ reals n yv (fun q => peval (Pp F ps h k q yr) x)) ->
  forall g xs, length g = (k + 1)%nat -> sd_points D g (map Fin xs) = inl (map (fun x => map Fin (map (fun q => peval (Pp F ps h k q yr) x) (seq 0 n))) xs).
Proof.
  intros H g xs. revert g. induction xs as [|x xs IH]; intros g Lg; [reflexivity|]. cbn [map sd_points]. destruct (H g x Lg) as (yv & g' & -> & Lg' & (l & -> & Ll & Nl)). rewrite (IH g' Lg'). do 3 f_equal.
  apply (nth_ext _ _ 0 0); [rewrite map_length, seq_length; exact Ll|]. intros q Hq. rewrite Nl by lia. rewrite nth_map_seq_gen by lia. reflexivity.
Qed.

(** a returned step that moved and was not the final extrapolation *)
Lemma moved_step o fun_ t0 tb y0 n F c ps v fuel v' t t' : swag_run o fun_ t0 tb y0 n F c ps v -> swag_call c fuel v = OOk v' ->
  s_t (ost v) = Fin t -> s_t (ost v') = Fin t' -> t' <> t -> spacing t < Rabs (tb - t) ->
  exists d hs yr, (d = 1 \/ d = -1) /\ decr d ps /\ pt ps 0 = t /\ t' = t + hs /\ 0 < d * hs /\ (1 <= s_kold (ost v') <= length ps)%nat /\ s_y (ost v') = map Fin yr /\ length yr = n /\
    dense_data (s_kmax c) n F (ost v') ps hs (s_kold (ost v')) yr /\ ot_old v' = Some (Fin t) /\ (forall m, ostat v' <> OFailed m) /\ (0 < n)%nat.
Proof.
  intros H X Et Et' Nt Far. destruct (swag_run_ghost _ _ _ _ _ _ _ _ _ _ H) as (d & C & HL & P & G).
  destruct (call_RX c tb d v fuel v' C P X) as (P' & CE & R). specialize (G R). unfold place in P. rewrite R in P. destruct P as (t2 & h2 & I2 & Ht2). assert (t2 = t) by (pose proof (hi_t _ _ _ _ _ I2) as Q; rewrite Et in Q; injection Q; auto). subst t2.
  assert (SS : swag_step fuel c (ost v) = IDone (ost v') /\ ot_old v' = Some (Fin t) /\ (forall m, ostat v' <> OFailed m)).
  { unfold swag_call, ostep in X. rewrite R in X. destruct (Nat.eqb (v_n sw_view (ost v)) 0 || _) eqn:B0.
    - exfalso. apply orb_prop in B0. destruct B0 as [B0|B0].
      + apply Nat.eqb_eq in B0. cbn [v_n sw_view] in B0. destruct (gh_y _ _ _ _ _ G) as (Gy & Gl). rewrite Gy, map_length, Gl in B0. destruct H. subst n. destruct y0; [congruence|discriminate].
      + cbn [v_t sw_view] in B0. rewrite Et, (sc_tb _ _ _ C) in B0. cbn [neqb RX xeqb] in B0. apply Reqb_true in B0. subst. lra.
    - unfold swag_impl in X. destruct (swag_step fuel c (ost v)) as [s'|s' msg|e|] eqn:S; try discriminate.
      + apply OOk_inj in X. subst v'. split; [reflexivity|]. cbn [ot_old v_t sw_view ostat]. split; [f_equal; exact Et|]. intros m. destruct (nleb RX _ _); discriminate.
      + exfalso. pose proof (fail_t _ _ _ _ _ (sc_kmax _ _ _ C) (hi_s _ _ _ _ _ I2) S) as FT. apply OOk_inj in X. subst v'. cbn [ost] in Et'. rewrite FT, Et in Et'. injection Et' as ->. congruence. }
  destruct SS as (SS & TO & NF).
  destruct (step_dense c tb d n F (ost v) t h2 ps fuel (ost v') t' HL C I2 Ht2 G Far SS Et' Nt) as (hs & yr & E1 & D1 & Lk & Ey & Ly & DD).
  exists d, hs, yr. split; [exact (sc_d _ _ _ C)|]. split; [exact (gh_decr _ _ _ _ _ G)|]. split; [pose proof (gh_t _ _ _ _ _ G) as Q; rewrite Et in Q; injection Q; auto|]. do 8 (split; [assumption|]).
  destruct H. subst n. destruct y0; [congruence|cbn; lia].
Qed.

(** After a step of order k the dense output is, per component, the polynomial of degree
    <= k + 2 determined by the values at both ends and the k + 1 slopes; it does not depend on
    the contents of the work array nor on the other points asked for. *)
Theorem C48_interpolant o fun_ t0 tb y0 n F c ps v fuel v' t t' : swag_run o fun_ t0 tb y0 n F c ps v -> swag_call c fuel v = OOk v' ->
  s_t (ost v) = Fin t -> s_t (ost v') = Fin t' -> t' <> t -> spacing t < Rabs (tb - t) ->
  let k := s_kold (ost v') in
  exists D yr P, swag_dense c v' = inl D /\ s_y (ost v') = map Fin yr /\ length yr = n /\ (1 <= k <= length ps)%nat /\ fst (nth 0 ps (0, [])) = t /\
    (forall q, (q < n)%nat -> hermite F ps t' yr k q (P q) /\ forall Q, hermite F ps t' yr k q Q -> forall x, peval Q x = peval (P q) x) /\
    (exists g, work_ok D g) /\
    forall g ts, work_ok D g -> swag_sol D g (map Fin ts) = inl (map (fun x => map Fin (map (fun q => peval (P q) x) (seq 0 n))) ts).
Proof.
  intros H X Et Et' Nt Far k. destruct (moved_step _ _ _ _ _ _ _ _ _ _ _ _ _ _ H X Et Et' Nt Far) as (d & hs & yr & Hd & DC & Ept & E1 & D1 & Lk & Ey & Ly & DD & TO & _ & Hn). fold k in Lk, DD.
  destruct (dense_point _ _ _ _ _ _ _ _ d (repeat (Fin 0 : num RX) (k + 1)) 0 DD Hd DC D1 ltac:(lia)) as (D & ED & KD & _).
  assert (PT : forall g x, length g = (k + 1)%nat -> exists yv g', sd_point D g (Fin x) = inl (yv, g') /\ length g' = (k + 1)%nat /\ reals n yv (fun q => peval (Pp F ps hs k q yr) x)).
  { intros g x Lg. destruct (dense_point _ _ _ _ _ _ _ _ d g x DD Hd DC D1 ltac:(lia)) as (D2 & ED2 & _ & Q). rewrite ED in ED2. injection ED2 as <-. exact (Q Lg). }
  exists (SDSwag D), yr, (fun q => Pp F ps hs k q yr). split.
  { unfold swag_dense. rewrite TO, Et', Ey, map_length, Ly. replace (n =? 0)%nat with false by (symmetry; apply Nat.eqb_neq; lia). cbn [orb neqb RX xeqb].
    replace (Reqb t' t) with false by (symmetry; apply Reqb_false; exact Nt). rewrite <- Ept. exact ED. }
  do 4 (split; [assumption|]). subst t. split.
  - intros q Hq. rewrite E1. assert (HE : hermite F ps (pt ps 0 + hs) yr k q (Pp F ps hs k q yr)).
    { constructor.
      - apply Pp_len. exact Lk.
      - apply Pp_old.
      - exact (Pp_end d F ps hs k q yr Hd DC D1 Lk).
      - rewrite <- (Pp_new d F ps hs k q yr DC D1 Lk). apply peval_deriv.
      - intros j Hj. pose proof (Pp_nodes d F ps hs k q yr DC Lk j Hj) as Q. unfold pf in Q. unfold pt, py in Q. rewrite <- Q. apply peval_deriv. }
    split; [exact HE|]. intros Q [Q1 Q2 Q3 Q4 Q5]. apply (Pp_unique d F ps hs k q yr Hd DC D1 Lk Q Q1 Q2 Q3).
    + apply is_derive_unique in Q4. rewrite <- Q4. symmetry. apply is_derive_unique, peval_deriv.
    + intros j Hj. specialize (Q5 j Hj). apply is_derive_unique in Q5. unfold pf, pt, py. rewrite <- Q5. symmetry. apply is_derive_unique, peval_deriv.
  - split; [exists (repeat (Fin 0 : num RX) (k + 1)); cbn [work_ok]; rewrite repeat_length, KD; reflexivity|].
    intros g ts Hw. cbn [work_ok swag_sol] in *. rewrite KD in Hw. apply (sd_points_same D ps n F hs k yr PT g ts Hw).
Qed.

(** a solution that is a polynomial of degree <= k + 2 is reproduced at every point *)
Theorem C48_polynomial_exact o fun_ t0 tb y0 n F c ps v fuel v' t t' (u : nat -> list R) : swag_run o fun_ t0 tb y0 n F c ps v -> swag_call c fuel v = OOk v' ->
  s_t (ost v) = Fin t -> s_t (ost v') = Fin t' -> t' <> t -> spacing t < Rabs (tb - t) ->
  let k := s_kold (ost v') in
  (forall q, (q < n)%nat -> (length (u q) <= k + 3)%nat) ->
  (forall x q, (q < n)%nat -> is_derive (peval (u q)) x (nth q (F x (map (fun q => peval (u q) x) (seq 0 n))) 0)) ->
  (forall j, (j < k)%nat -> snd (nth j ps (0, [])) = map (fun q => peval (u q) (fst (nth j ps (0, [])))) (seq 0 n)) ->
  s_y (ost v') = map Fin (map (fun q => peval (u q) t') (seq 0 n)) ->
  exists D, swag_dense c v' = inl D /\ (exists g, work_ok D g) /\
    forall g ts, work_ok D g -> swag_sol D g (map Fin ts) = inl (map (fun x => map Fin (map (fun q => peval (u q) x) (seq 0 n))) ts).
Proof.
  intros H X Et Et' Nt Far k Lu Du Pu Yu. destruct (C48_interpolant _ _ _ _ _ _ _ _ _ _ _ _ _ _ H X Et Et' Nt Far) as (D & yr & P & ED & Ey & Ly & Lk & Ept & HP & WG & SOL). fold k in Lk, HP.
  exists D. split; [exact ED|]. split; [exact WG|]. intros g ts Hw. rewrite (SOL g ts Hw). f_equal. apply map_ext. intros x. f_equal. apply map_ext_in. intros q Hq. apply in_seq in Hq. symmetry. apply (proj2 (HP q ltac:(lia))).
  assert (Eyr : yr = map (fun q => peval (u q) t') (seq 0 n)) by (apply map_inj_fin; rewrite <- Ey; exact Yu).
  constructor.
  - apply Lu. lia.
  - rewrite (Pu 0%nat) by lia. rewrite nth_map_seq_gen by lia. reflexivity.
  - rewrite Eyr, nth_map_seq_gen by lia. reflexivity.
  - rewrite Eyr. apply Du. lia.
  - intros j Hj. rewrite (Pu j Hj). apply Du. lia.
Qed.

(** consecutive dense outputs join with equal values and equal slopes *)
Theorem C48_smooth_joins o fun_ t0 tb y0 n F c ps v fuel v' t t' fuel' v'' t'' : swag_run o fun_ t0 tb y0 n F c ps v ->
  swag_call c fuel v = OOk v' -> s_t (ost v) = Fin t -> s_t (ost v') = Fin t' -> t' <> t -> spacing t < Rabs (tb - t) ->
  swag_call c fuel' v' = OOk v'' -> s_t (ost v'') = Fin t'' -> t'' <> t' -> spacing t' < Rabs (tb - t') ->
  exists D1 D2 P1 P2, swag_dense c v' = inl D1 /\ swag_dense c v'' = inl D2 /\ (exists g, work_ok D1 g) /\ (exists g, work_ok D2 g) /\
    (forall g ts, work_ok D1 g -> swag_sol D1 g (map Fin ts) = inl (map (fun x => map Fin (map (fun q => peval (P1 q) x) (seq 0 n))) ts)) /\
    (forall g ts, work_ok D2 g -> swag_sol D2 g (map Fin ts) = inl (map (fun x => map Fin (map (fun q => peval (P2 q) x) (seq 0 n))) ts)) /\
    forall q, (q < n)%nat -> peval (P1 q) t' = peval (P2 q) t' /\ Derive (peval (P1 q)) t' = Derive (peval (P2 q)) t'.
Proof.
  intros H X Et Et' Nt Far X2 Et2 Nt2 Far2.
  destruct (C48_interpolant _ _ _ _ _ _ _ _ _ _ _ _ _ _ H X Et Et' Nt Far) as (D & yr & P & ED & Ey & Ly & Lk & Ept & HP & WG & SOL).
  destruct (moved_step _ _ _ _ _ _ _ _ _ _ _ _ _ _ H X Et Et' Nt Far) as (_ & _ & _ & _ & _ & _ & _ & _ & _ & _ & _ & _ & _ & NF & _).
  assert (H2 : swag_run o fun_ t0 tb y0 n F c ((t', yr) :: ps) v').
  { destruct H as [A1 A2 A3 A4 A5 A6 (j & s & J & E & T)]. constructor; try assumption. exists j, s. split; [exact J|]. split; [exact E|]. eapply trS; eauto. }
  destruct (C48_interpolant _ _ _ _ _ _ _ _ _ _ _ _ _ _ H2 X2 Et' Et2 Nt2 Far2) as (D' & yr' & P' & ED' & Ey' & Ly' & Lk' & Ept' & HP' & WG' & SOL').
  exists D, D', P, P'. do 6 (split; [assumption|]). intros q Hq. destruct (HP q Hq) as ([_ _ V1 S1 _] & _). destruct (HP' q Hq) as ([_ V2 _ _ S2] & _). cbn [nth fst snd] in V2. split; [congruence|].
  specialize (S2 0%nat ltac:(lia)). cbn [nth fst snd] in S2. apply is_derive_unique in S1. apply is_derive_unique in S2. congruence.
Qed.

(** the cached derivative *)
Lemma after_yp {A : Arith} o fun_ (t0 : num A) y0 tb c n v : swag_after o fun_ t0 y0 tb c n v -> finite_bound c -> ostat v = ORunning -> s_yp (ost v) = s_fn c (s_t (ost v)) (s_y (ost v)).
Proof.
  intros (j & s & J & I & H) F. destruct (init_inv _ _ _ _ _ _ _ _ I J) as (K & SI & _ & Ef & _ & _ & _ & Et & Ey & _ & _ & _ & Ep & _).
  assert (G : vinv c v /\ (ostat v = ORunning -> s_yp (ost v) = s_fn c (s_t (ost v)) (s_y (ost v)))).
  { remember (onew s) as v0 eqn:Ev. revert Ev. induction H as [v0|v0 n v1 v2 f H IH E]; intros Ev.
    - subst v0. split; [apply new_inv; assumption|]. intros _. cbn [onew ost]. rewrite Ep, Ef, Et, Ey. reflexivity.
    - destruct (IH Ev) as (V & R). split; [exact (call_inv c f v1 v2 K F V E)|]. intros Rn. clear IH. unfold ostep in E. destruct V as (_ & V). destruct (ostat v1) eqn:Es; try discriminate. specialize (V eq_refl).
      destruct (_ || _); [injection E as <-; discriminate|]. unfold swag_impl in E.
      destruct (step_cases c (ost v1) f K V) as [(B & S)|(B & [(msg & S)|(_ & [S|[(s1 & i1 & s' & R1 & T & S)|(s1 & i1 & s' & R1 & T & S)]])])]; rewrite S in E; try discriminate; injection E as <-; cbn [ost ostat] in *; try discriminate.
      + exfalso. unfold extrapolated in Rn. destruct (kle4_step c (ost v1)). cbn [v_t sw_view s_t sw_set] in Rn. unfold finite_bound in F. rewrite F in Rn. discriminate.
      + destruct (trial_accept _ _ _ _ _ K (rejects_inv _ _ _ _ _ _ K R1 (started_inv _ _ _ V)) T) as (co & phi & p & yp & wt & e & knew & _ & _ & _ & AS & _). rewrite (as_yp _ _ _ _ _ _ _ _ _ _ _ _ AS), (as_t _ _ _ _ _ _ _ _ _ _ _ _ AS). reflexivity. }
  exact (proj2 G).
Qed.
Lemma strace_hist c p0 v0 ps v : strace c p0 v0 ps v -> exists m, swag_hist c v0 m v.
Proof. intros H. induction H as [|p0 v0 ps v fuel v' t t' yr H (m & IH) X]; [exists 0%nat; constructor|]. exists (S m). eapply ohS; [exact IH|exact X]. Qed.

(** the final step, taken when t_bound is within 4 u |t|: y is continued along the line with
    slope fun(t, y), and the dense output is that line *)
Theorem C48_last_step o fun_ t0 tb y0 n F c ps v fuel v' t : swag_run o fun_ t0 tb y0 n F c ps v -> ostat v = ORunning -> swag_call c fuel v = OOk v' ->
  s_t (ost v) = Fin t -> Rabs (tb - t) <= spacing t ->
  let y := snd (nth 0 ps (0, [])) in
  s_y (ost v) = map Fin y /\ s_t (ost v') = Fin tb /\ ostat v' = OFinished /\ s_kold (ost v') = 0%nat /\
  exists D, swag_dense c v' = inl D /\ forall g ts, swag_sol D g (map Fin ts) = inl (map (fun x => map Fin (map (fun q => nth q y 0 + (x - t) * nth q (F t y) 0) (seq 0 n))) ts).
Proof.
  intros H R X Et Near y. destruct (swag_run_ghost _ _ _ _ _ _ _ _ _ _ H) as (d & C & HL & P & G). specialize (G R).
  destruct (call_RX c tb d v fuel v' C P X) as (P' & CE & _). unfold place in P. rewrite R in P. destruct P as (t2 & h2 & I2 & Ht2). assert (t2 = t) by (pose proof (hi_t _ _ _ _ _ I2) as Q; rewrite Et in Q; injection Q; auto). subst t2.
  destruct (gh_y _ _ _ _ _ G) as (Gy & Gl). fold y in Gy, Gl. assert (Hn : (0 < n)%nat) by (destruct H; subst n; destruct y0; [congruence|cbn; lia]).
  assert (Ntb : t <> tb) by (intros ->; lra).
  assert (YP : s_yp (ost v) = map Fin (F t y)).
  { destruct H as [A1 A2 A3 A4 A5 A6 (j & s & J & E & T)]. destruct (strace_hist _ _ _ _ _ T) as (m & Hm).
    assert (FB : finite_bound c). { unfold finite_bound. rewrite (sc_dir _ _ _ C), (sc_tb _ _ _ C). rewrite finsub, finmul, n0_RX. cbn [nleb RX xleb]. apply Rleb_true. lra. }
    rewrite (after_yp o fun_ (Fin t0) (map Fin y0) (Fin tb) c m v) by (try exact R; try exact FB; exists j, s; rewrite map_length, A6; auto). rewrite Et, Gy. exact (proj2 (HL t y Gl)). }
  pose proof (proj1 (HL t y Gl)) as LF. 
  assert (SS : v' = mkO (extrapolated c (ost v)) OFinished (Some (Fin t))).
  { unfold swag_call, ostep in X. rewrite R in X. destruct (Nat.eqb (v_n sw_view (ost v)) 0 || _) eqn:B0.
    - exfalso. apply orb_prop in B0. destruct B0 as [B0|B0].
      + apply Nat.eqb_eq in B0. cbn [v_n sw_view] in B0. rewrite Gy, map_length, Gl in B0. lia.
      + cbn [v_t sw_view] in B0. rewrite Et, (sc_tb _ _ _ C) in B0. cbn [neqb RX xeqb] in B0. apply Reqb_true in B0. auto.
    - unfold swag_impl in X. destruct (step_RX c tb d (ost v) t h2 fuel C I2 Ht2) as [(B & S)|(B & _)]; [|unfold spacing in Near; unfold smin in B; lra].
      rewrite S in X. apply OOk_inj in X. subst v'. cbn [v_t sw_view]. rewrite Et. f_equal. assert (Q : s_t (extrapolated c (ost v)) = Fin tb) by (unfold extrapolated; destruct (kle4_step c (ost v)); exact (sc_tb _ _ _ C)).
      pose proof (status_RX c tb d _ _ C Q) as Q2. cbn [v_t sw_view] in Q2. rewrite Q2. replace (Rleb 0 (d * (tb - tb))) with true; [reflexivity|]. symmetry. apply Rleb_true. lra. }
  subst v'. cbn [ost ostat ot_old].
  assert (EX : s_t (extrapolated c (ost v)) = Fin tb /\ s_kold (extrapolated c (ost v)) = 0%nat /\ s_yold (extrapolated c (ost v)) = s_y (ost v) /\ s_y (extrapolated c (ost v)) = vadd (s_y (ost v)) (vscale (nsub RX (s_tb c) (s_t (ost v))) (s_yp (ost v)))).
  { unfold extrapolated. destruct (kle4_step c (ost v)). split; [exact (sc_tb _ _ _ C)|]. repeat split. }
  destruct EX as (X1 & X2 & X3 & X4). do 4 (split; [assumption || reflexivity|]).
  rewrite Gy, (sc_tb _ _ _ C), Et, YP, finsub in X4.
  assert (RY : reals n (s_y (extrapolated c (ost v))) (fun q => nth q y 0 + (tb - t) * nth q (F t y) 0)).
  { rewrite X4. apply reals_add; [apply reals_intro; exact Gl|apply reals_scale, reals_intro; exact LF]. }
  assert (LY : length (s_y (extrapolated c (ost v))) = n) by (destruct RY as (l & -> & L & _); rewrite map_length; exact L).
  exists (SDLin (Fin t) (Fin tb) (map Fin y) (s_y (extrapolated c (ost v)))). split.
  { unfold swag_dense. cbn [ot_old ost]. rewrite LY, X1. replace (n =? 0)%nat with false by (symmetry; apply Nat.eqb_neq; lia). cbn [orb neqb RX xeqb]. replace (Reqb tb t) with false by (symmetry; apply Reqb_false; auto).
    unfold swag_dense_impl. rewrite X2. cbn [Nat.eqb]. rewrite X1, X3, Gy. reflexivity. }
  intros g ts. cbn [swag_sol]. f_equal. rewrite map_map. apply map_ext. intros x. rewrite !finsub, findiv by lra.
  assert (RV : reals n (vadd (vscale (Fin ((x - t) / (tb - t))) (vsub (s_y (extrapolated c (ost v))) (map Fin y))) (map Fin y)) (fun q => nth q y 0 + (x - t) * nth q (F t y) 0)).
  { eapply reals_ext; [apply reals_add; [apply reals_scale, reals_sub; [exact RY|apply reals_intro; exact Gl]|apply reals_intro; exact Gl]|]. intros q Hq. cbv beta. field. lra. }
  destruct RV as (l & EL & L & N). refine (eq_trans EL _). f_equal. apply (nth_ext _ _ 0 0); [rewrite map_length, seq_length; exact L|]. intros q Hq. rewrite N by lia. rewrite nth_map_seq_gen by lia. reflexivity.
Qed.

(** the first step of y' = 1, y(1) = 0 with first_step 1/2: sol(x) = x - 1 *)
Example C48_case : exists c v v' D, swag_run (sw_opts (Some (Fin (1/2))) PInf 12) one_rhs 1 2 [0] 1 one_F c [(1, [0])] v /\ swag_call c 1 v = OOk v' /\ s_t (ost v') = Fin (3/2) /\
  swag_dense c v' = inl D /\ (exists g, work_ok D g) /\ forall g ts, work_ok D g -> swag_sol D g (map Fin ts) = inl (map (fun x => [Fin (x - 1)]) ts).
Proof.
  destruct C37_case as (c & v & v' & H & X & Et & Et' & Sp & Ey & _).
  assert (PE := C48_polynomial_exact _ _ _ _ _ _ _ _ _ _ _ _ 1 (3/2) (fun _ => [-(1); 1]) H X Et Et' ltac:(lra) Sp). cbv zeta in PE.
  destruct PE as (D & ED & WG & SOL).
  - intros q Hq. cbn. lia.
  - intros x q Hq. replace q with 0%nat by lia. unfold one_F. cbn [nth]. apply (is_derive_ext (fun x => x - 1)); [intros u; cbn; ring|]. auto_derive; [exact I|ring].
  - intros j Hj. destruct (C48_interpolant _ _ _ _ _ _ _ _ _ _ _ _ _ _ H X Et Et' ltac:(lra) Sp) as (_ & _ & _ & _ & _ & _ & Lk & _). cbn [length] in Lk. replace j with 0%nat by lia. cbn. f_equal. ring.
  - rewrite Ey. cbn. do 2 f_equal. lra.
  - exists c, v, v', D. do 5 (split; [assumption|]). intros g ts Hw. rewrite (SOL g ts Hw). f_equal. apply map_ext. intros x. cbn. do 2 f_equal. ring.
Qed.
