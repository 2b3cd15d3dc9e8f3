(** On smooth problems short steps are accepted at the first attempt. *)
From Coq Require Import String Reals Lra Psatz QArith Qreals Lia List Arith Bool.
From Verif Require Import Arith Common RK RKGen RKHist RX SpecRK RKSpecProofs RKReal RKInit RKInitReal RKStep RKBuilt RKMore RKTop Classes Tableaux Series Trees OrderThm OrderCheck
  OrderRK OrderModel OrderPair Dense DenseReal DenseStep DenseAcc NormReal Prop_Tol GOrder NearPair UOrder UOrder2 GlobalRK GlobalRun.
Import ListNotations.
Close Scope string_scope.
Open Scope nat_scope.
Open Scope R_scope.

(** ** one trial *)
Lemma trial_accept {A : Arith} (m : Meth A) c s ha ms rej Ks cl : min_stages m -> nltb A ha ms = false ->
  let h := nmul A ha (direction c) in
  stages m (fn c) (t s) (y s) h (m_stages m - 1) [f s] (calls s) = (Ks, cl) ->
  nltb A (err_norm c (y s) (m_sol m (y s) h Ks) (m_err m h (if m_fsal m then Ks ++ [fn c (nadd A (t s) h) (m_sol m (y s) h Ks)] else Ks))) n1 = true ->
  (forall g, m_pre m = Some g -> nltb A n1 (err_norm c (y s) (fst (g (y s) h (firstn (m_stages m - 1) Ks))) (snd (g (y s) h (firstn (m_stages m - 1) Ks)))) = false) ->
  (exists s' hn tn yn en, trial_step m c s ha ms rej = Accept s' h hn tn yn en /\ nfs s' = nfs s) \/ exists e, trial_step m c s ha ms rej = TrialExn e.
Proof.
  intros Hmin Hms h HS Hen Hpre. unfold trial_step. rewrite Hms. fold h.
  set (npre := match m_pre m with None => (m_stages m - 1)%nat | Some _ => (m_stages m - 2)%nat end).
  destruct (stages m (fn c) (t s) (y s) h npre [f s] (calls s)) as [K1 cl1] eqn:HS1.
  assert (HA : (match m_pre m with None => (K1, cl1) | Some _ => stages m (fn c) (t s) (y s) h 1 K1 cl1 end) = (Ks, cl)).
  { unfold npre, min_stages in *. rewrite <- HS. destruct (m_pre m).
    - replace (m_stages m - 1)%nat with ((m_stages m - 2) + 1)%nat by lia. rewrite stages_app, HS1. reflexivity.
    - symmetry. exact HS1. }
  rewrite HA.
  assert (HP : match match m_pre m with None => None | Some g => let '(y_pre, err) := g (y s) h K1 in Some (err_norm c (y s) y_pre err) end with Some e => nltb A n1 e | None => false end = false).
  { destruct (m_pre m) as [g|] eqn:Eg; [|reflexivity]. specialize (Hpre g eq_refl).
    assert (E1 : firstn (m_stages m - 1) Ks = K1).
    { apply stages_spec in HA. destruct HA as (_ & E & _). apply stages_spec in HS1. destruct HS1 as (L & _).
      unfold npre, min_stages in *. rewrite Eg in *. cbn [length] in L. replace (m_stages m - 1)%nat with (length K1) by lia. exact E. }
    rewrite E1 in Hpre. destruct (g (y s) h K1) as [yp er]. exact Hpre. }
  rewrite HP. unfold comp_sol_err.
  destruct (m_fsal m); rewrite Hen.
  all: match goal with |- context [accept_factor ?cc ?s1 ?b ?h' ?en'] => destruct (accept_factor cc s1 b h' en') as [fac sc|ex]; [left|right; eauto] end.
  all: eexists _, _, _, _, _; split; [reflexivity|reflexivity].
Qed.
Lemma loop_accept {A : Arith} (m : Meth A) c s k ha ms rej s' h hn tn yn en : trial_step m c s ha ms rej = Accept s' h hn tn yn en -> nfs s' = nfs s ->
  (exists s'', rk_loop (S k) m c s ha ms rej = Done s'' /\ nfs s'' = nfs s) \/ exists e, rk_loop (S k) m c s ha ms rej = Raise e.
Proof.
  intros HT Hn. cbn [rk_loop]. rewrite HT. unfold finish. destruct (if m_fsal m then _ else _) as [K4 c4].
  match goal with |- context [diagnose m c ?x h (y s')] => set (s1 := x) end.
  destruct (diagnose m c s1 h (y s')) as [s2|ex] eqn:ED; [left|right; eauto]. exists s2. split; [reflexivity|].
  destruct (diagnose_same _ _ _ _ _ _ ED) as (_ & _ & _ & _ & _ & _ & _ & _ & _ & _ & _ & E). rewrite E. exact Hn.
Qed.

(** ** the first trial step of a call *)
Lemma trial0_room c r s H : good_cfg c r -> live r s -> max_step c = Fin H -> min_step_at r s <= H -> min_step_at r s <= dist r s ->
  min_step_at r s <= trial0 c r s <= H.
Proof.
  intros HG HL EM H1 H2. unfold trial0. set (ms := min_step_at r s) in *. set (d := dist r s) in *.
  assert (HC : ms <= clip (max_step c) ms (hval s) <= H).
  { rewrite EM. unfold clip. cbn [xltb xmaxR]. destruct (Rltb_spec (hval s) ms) as [A|A]; cbn [orb].
    - rewrite Rmax_left by lra. split; [apply Rmin_glb; lra|apply Rmin_l].
    - destruct (Rltb_spec H (hval s)) as [B|B]; [|lra]. rewrite Rmax_right by lra. rewrite Rmin_left; lra. }
  set (h1 := clip (max_step c) ms (hval s)) in *. destruct (Rlt_dec d (2 * h1)); [|lra]. destruct (Rlt_dec h1 d); [|lra].
  split; [apply Rmax_r|]. apply Rmax_lub; lra.
Qed.

(** ** error norms of small vectors *)
(** tolerances of a constructed solver, atol being at least a0 *)
Definition tol_cfg (c : Cfg RX) (d : nat) (a0 : R) : Prop :=
  exists al r, bcast (atol c) d = map Fin al /\ length al = d /\ Forall (fun a => a0 <= a) al /\ rtol c = Fin r /\ 0 <= r.

Lemma map2_nth {X Y Z} (f : X -> Y -> Z) u : forall v i x y z, (i < length u)%nat -> (i < length v)%nat -> nth i (map2 f u v) z = f (nth i u x) (nth i v y).
Proof. induction u as [|a u IH]; intros [|b v] [|i] x y z H1 H2; simpl in *; try lia; [reflexivity|]. apply IH; lia. Qed.
Lemma map2_len {X Y Z} (f : X -> Y -> Z) u : forall v, length (map2 f u v) = min (length u) (length v).
Proof. induction u as [|a u IH]; intros [|b v]; simpl; auto. Qed.

Lemma small_norm c d yr yr' er a0 : 0 < a0 -> (0 < d)%nat -> tol_cfg c d a0 -> length yr = d -> length yr' = d -> length er = d ->
  (forall q, (q < d)%nat -> Rabs (nth q er 0) < a0) -> exists v, err_norm c (map Fin yr) (map Fin yr') (map Fin er) = Fin v /\ v < 1.
Proof.
  intros Ha Hd (al & r & EA & LA & FA & ER & Hr) Ly Ly' Le Hs. unfold err_norm.
  set (sc := map2 Rplus al (map (Rmult r) (map2 (fun a b => Rmax (Rabs a) (Rabs b)) yr yr'))).
  assert (ES : calculate_scale (atol c) (rtol c) (map Fin yr) (map Fin yr') = map Fin sc).
  { assert (EA' : bcast (atol c) (@length (num RX) (map Fin yr)) = map Fin al) by (rewrite (map_length (Fin : R -> num RX)), Ly; exact EA).
    unfold calculate_scale. rewrite EA', ER. apply scale_nth; congruence. }
  rewrite ES.
  assert (Lsc : length sc = d). { unfold sc. rewrite map2_len, map_length, map2_len. lia. }
  assert (Hsc : forall q, (q < d)%nat -> a0 <= nth q sc 0).
  { intros q Hq. unfold sc. rewrite (map2_nth Rplus al _ q 0 0) by (try rewrite map_length, map2_len; lia).
    rewrite Forall_forall in FA. specialize (FA (nth q al 0) ltac:(apply nth_In; lia)).
    match goal with |- context [nth q (map (Rmult r) ?l) 0] => assert (0 <= nth q (map (Rmult r) l) 0); [|lra] end.
    rewrite (nth_indep _ 0 (r * 0)) by (rewrite map_length, map2_len; lia). rewrite map_nth. apply Rmult_le_pos; auto.
    rewrite (map2_nth _ yr yr' q 0 0) by lia. eapply Rle_trans; [apply Rabs_pos|apply Rmax_l]. }
  assert (EV : vdiv (map Fin er) (map Fin sc) = map Fin (map2 Rdiv er sc)).
  { clearbody sc. clear - Hsc Lsc Le Ha. revert d sc Lsc Le Hsc. induction er as [|x er IH]; intros d [|z sc] L1 L2 Hq; simpl in *; try reflexivity; try lia.
    unfold vdiv in *. cbn [map map2]. f_equal.
    - assert (a0 <= z) by (apply (Hq 0%nat); lia). change (ndiv RX (Fin x) (Fin z)) with (if Req_EM_T z 0 then (if Req_EM_T x 0 then NaN else inf_of_sign x) else Fin (x / z)) || cbn.
      destruct (Req_EM_T z 0); [lra|reflexivity].
    - apply (IH (pred d)); try lia. intros q Hq'. apply (Hq (S q)). lia. }
  rewrite EV. set (w := map2 Rdiv er sc). assert (Lw : length w = d) by (unfold w; rewrite map2_len; lia).
  assert (Hw : w <> []) by (intros E; rewrite E in Lw; simpl in Lw; lia).
  exists (rms w). split; [apply norm_fin; auto|]. eapply Rle_lt_trans; [apply rms_le_max; auto|].
  destruct (maxabs_attained w Hw) as (x & Hx & ->). apply (In_nth _ _ 0) in Hx. destruct Hx as (q & Hq & <-). rewrite Lw in Hq.
  unfold w. rewrite (map2_nth Rdiv er sc q 0 0) by lia. specialize (Hs q Hq). specialize (Hsc q Hq).
  unfold Rdiv. rewrite Rabs_mult, (Rabs_right (/ _)) by (apply Rle_ge; left; apply Rinv_0_lt_compat; lra).
  apply Rmult_lt_reg_r with (nth q sc 0); [lra|]. rewrite Rmult_assoc, Rinv_l by lra. lra.
Qed.

(** the tolerances passed to the constructor *)
Definition atol_above (o : Opts RX) (a0 : R) : Prop :=
  o_rtol o <> NaN /\ forall x, In x (tol_values (o_atol o)) -> exists a, x = Fin a /\ a0 <= a.
Lemma npmax_fin_ge a a0 : a0 <= a -> exists b, npmax (Fin a) (nsqrt RX (n_tiny RX)) = Fin b /\ a0 <= b.
Proof.
  intros H. rewrite tiny_RX. unfold npmax. cbn.
  match goal with |- context [Rleb ?u ?w] => destruct (Rleb_spec u w) end; eexists; (split; [reflexivity|lra]).
Qed.
Lemma validated_above isf rt at_ y0 rt' at' a0 : rt <> NaN -> (forall x, In x (tol_values at_) -> exists a, x = Fin a /\ a0 <= a) ->
  validate_tol isf rt at_ y0 = inl (rt', at') ->
  (exists r, rt' = Fin r /\ 0 <= r) /\ exists al, bcast at' (length y0) = map Fin al /\ length al = length y0 /\ Forall (fun a => a0 <= a) al.
Proof.
  intros HN HA HV. assert (HN2 : no_nan (tol_values at_)).
  { apply Forall_forall. intros x Hx. destruct (HA x Hx) as (a & -> & _). discriminate. }
  destruct (C16_validated _ _ _ _ _ _ HN HN2 HV) as (((r & -> & Hr) & _) & _ & _). split.
  { exists r. split; [reflexivity|]. assert (0 < floor_rtol) by (unfold floor_rtol; apply Rdiv_lt_0_compat; [lra|apply pow_lt; lra]). lra. }
  unfold validate_tol in HV. destruct at_ as [a|l]; cbn [negb tol_values] in *.
  - destruct (HA a ltac:(left; auto)) as (x & -> & Hx). destruct (nltb RX (Fin x) n0); [discriminate|]. destruct (negb isf); [discriminate|]. destruct (nltb RX rt n0); [discriminate|].
    apply inl_inv, pair_equal_spec in HV. destruct HV as [_ <-]. destruct (npmax_fin_ge x a0 Hx) as (b & E & Hb).
    cbn [bcast]. change (num RX) with xr in *. rewrite E. exists (repeat b (length y0)). split; [|split].
    + clear. induction (length y0); simpl; f_equal; auto.
    + apply repeat_length.
    + apply Forall_forall. intros z Hz. apply repeat_spec in Hz. subst; auto.
  - destruct (Nat.eqb_spec (length l) (length y0)) as [E|]; [|discriminate]. cbn [negb] in HV. destruct (existsb _ l); [discriminate|]. destruct (negb isf); [discriminate|]. destruct (nltb RX rt n0); [discriminate|].
    apply inl_inv, pair_equal_spec in HV. destruct HV as [_ <-]. cbn [bcast]. rewrite <- E. clear - HA. induction l as [|x l IH].
    + exists []. repeat split; auto.
    + destruct (HA x ltac:(left; auto)) as (a & -> & Ha). destruct IH as (al & E1 & E2 & E3); [intros; apply HA; right; auto|].
      destruct (npmax_fin_ge a a0 Ha) as (b & E & Hb). exists (b :: al). split; [|split; [cbn [length]; f_equal; exact E2|constructor; auto]].
      cbn [map]. f_equal; [exact E|exact E1].
Qed.
Lemma rk_init_tol k o g t0 y0 tb (c : Cfg RX) s a0 : rk_init k o g t0 y0 tb = inl (c, s) -> atol_above o a0 -> tol_cfg c (length y0) a0.
Proof.
  unfold rk_init. intros H (HN & HA).
  destruct (nleb RX (o_max_step o) n0); [discriminate|].
  destruct (validate_tol (o_rtol_is_float o) (o_rtol o) (o_atol o) y0) as [[rt at_]|] eqn:EV; [|discriminate].
  destruct (init_stiff (k_stab k) (o_stiff o)) as [nsd|]; [|discriminate].
  destruct (sc_coefs (sc_or (o_sc o) (k_sc k))) as [[[[kb1 kb2] al] gg]|]; [|discriminate].
  cbv zeta in H.
  match type of H with match ?x with inl _ => _ | inr _ => _ end = _ => destruct x as [[? ?]|]; [|discriminate] end.
  apply inl_pair_inj in H. destruct H as [<- _].
  destruct (validated_above _ _ _ _ _ _ a0 HN HA EV) as ((r & E1 & E2) & (al' & E3 & E4 & E5)).
  exists al', r. auto.
Qed.

(** ** the trial step of a class with real data *)
(** the pre-estimate of BS5 and CFMR7osc: error weights we (and scale weights wb) on the first stages *)
Definition pre_is (m : Meth RX) (d : nat) (wb we : list Q) : Prop :=
  m_pre m = None \/ m_pre m = Some (fun y h K => (vadd y (vscale h (lincomb d (lv wb) K)), vscale h (lincomb d (lv we) K))).

Lemma uses_facts {A : Arith} m (T : Tab A) n : uses_tab m T n -> min_stages m /\ (1 <= m_stages m)%nat /\ m_stages m = r_stages T /\ m_point m = rk_point T n /\ m_sol m = rk_sol T n /\
  m_err m = rk_err T n /\ m_fsal m = negb (neqb A (nth (r_stages T) (r_E T) n0) n0).
Proof. intros H. inversion H; subst; unfold min_stages; cbn; repeat split; auto; lia. Qed.

Section Trial.
Variables (d s : nat) (F : R -> list R -> list R) (g : num RX -> list (num RX) -> list (num RX)) (A : list (list Q)) (b c e : list Q).
Hypothesis HF : lifts d F g.
Hypothesis Hd : (0 < d)%nat.
Hypothesis LA : length A = s.
Hypothesis LB : length b = s.
Hypothesis LC : length c = s.
Hypothesis LE : (length e <= S s)%nat.
Hypothesis C0 : nth 0 c 0%Q = 0%Q.
Notation RS x yr h := (rstages F (mq (extA A b [])) (vq (extC c [])) x yr h (S s)).

Lemma trial_first m wb we cf st x yr ha dr ms rej a0 : uses_tab m (mk_tab s A b c e) d -> pre_is m d wb we -> (length we <= s - 1)%nat -> fn cf = g ->
  t st = Fin x -> y st = map Fin yr -> length yr = d -> fresh cf st -> direction cf = Fin dr -> ms <= ha -> 0 < a0 -> tol_cfg cf d a0 ->
  (forall q, (q < d)%nat -> Rabs (ha * dr * lcomb (S s) (vq e) (RS x yr (ha * dr)) q) < a0) ->
  (forall q, (q < d)%nat -> Rabs (ha * dr * lcomb (S s) (vq we) (RS x yr (ha * dr)) q) < a0) ->
  (exists s' hh hn tn yn en, trial_step m cf st (Fin ha) (Fin ms) rej = Accept s' hh hn tn yn en /\ nfs s' = nfs st) \/
  exists ex, trial_step m cf st (Fin ha) (Fin ms) rej = TrialExn ex.
Proof.
  intros HU HP Lw Eg Et Ey Ly Hfr Edir Hms Ha0 Htol He Hw.
  destruct (uses_facts m _ d HU) as (Hmin & Hs1 & Es & Ep & Eso & Eer & Efs). cbn [mk_tab r_stages r_E] in Es, Efs.
  set (h := ha * dr) in *.
  assert (Eh : nmul RX (Fin ha) (direction cf) = Fin h) by (rewrite Edir; reflexivity).
  destruct (stages m (fn cf) (t st) (y st) (Fin h) (m_stages m - 1) [f st] (calls st)) as [Ks cl] eqn:HS.
  pose proof HS as HS'. apply stages_spec in HS'. cbn [length] in HS'. destruct HS' as (L1 & L2 & L3 & _).
  assert (LK : length Ks = s) by lia.
  assert (HT : textbook_rk (mk_tab s A b c e) d g (Fin x) (map Fin yr) (Fin h) Ks (Fin (x + h)) (m_sol m (map Fin yr) (Fin h) Ks)).
  { unfold textbook_rk. cbn [mk_tab r_stages r_A r_B r_C]. split; [exact LK|]. split.
    { destruct Ks as [|k0 Ks]; [simpl in LK; lia|]. cbn [firstn] in L2. injection L2 as ->. cbn [nth]. rewrite Hfr, Eg, Et, Ey. reflexivity. }
    split; [|split; [reflexivity|]].
    - intros i Hi. rewrite (L3 i) by lia. rewrite Ep, Eg, Et, Ey. unfold rk_point. cbn [fst snd mk_tab r_A r_C]. rewrite lincomb_eq. reflexivity.
    - rewrite Eso. unfold rk_sol. cbn [mk_tab r_B]. rewrite lincomb_eq. reflexivity. }
  destruct (textbook_real d F g s A b c e x yr h Ks _ _ HF Ly C0 HT) as (EK & _ & EY).
  set (rs := rstages F (mq A) (vq c) x yr h s) in *.
  destruct (tab_error_real d F g s A b c e x yr h HF LA LB LC LE Ly) as (er & E1 & E2 & E3). fold rs in E1. cbv zeta in E1.
  set (yn := rpoint d yr h (lcomb s (vq b) rs)) in *.
  destruct (small_norm cf d yr yn er a0 Ha0 Hd Htol Ly ltac:(apply rpoint_len) E2) as (v & Ev & Hv).
  { intros q Hq. rewrite E3 by auto. apply He; auto. }
  pose proof (trial_accept m cf st (Fin ha) (Fin ms) rej Ks cl Hmin) as HTA. cbv zeta in HTA. rewrite Eh in HTA.
  destruct (HTA ) as [(s' & hn & tn & yn' & en & H1 & H2)|H1]; [..|left; exists s', (Fin h), hn, tn, yn', en; auto|right; exact H1].
  - cbn. apply Bool.not_true_iff_false. intros X. destruct (Rltb_spec ha ms); [lra|discriminate].
  - exact HS.
  - rewrite Ey, EY.
    assert (EE : m_err m (Fin h) (if m_fsal m then Ks ++ [fn cf (nadd RX (t st) (Fin h)) (map Fin yn)] else Ks) = map Fin er).
    { rewrite Eer, Efs, <- E1, Eg, Et, EK. unfold rk_err, tab_error. cbn [mk_tab r_stages r_E]. rewrite lincomb_eq. reflexivity. }
    rewrite EE. change (num RX) with xr in *. rewrite Ev. rewrite n1_RX. cbn. destruct (Rltb_spec v 1); [reflexivity|lra].
  - intros gg Egg. destruct HP as [HP|HP]; [congruence|]. rewrite HP in Egg. injection Egg as <-. cbn [fst snd].
    rewrite EK. rewrite (firstn_map (map Fin)). rewrite Es. unfold rs. rewrite rstages_prefix by lia.
    pose proof (realsK_fin d (rstages F (mq A) (vq c) x yr h (s - 1)) (rstages_Forall d F _ _ x yr h (s - 1) (fun t y Hy => proj1 (HF t y Hy)) Ly)) as HK.
    pose proof (lincomb_reals d (map Q2R we) _ _ HK) as HR1. pose proof (lincomb_reals d (map Q2R wb) _ _ HK) as HR2. rewrite <- lv_fin in HR1, HR2.
    apply (reals_scale d h) in HR1. apply (reals_scale d h) in HR2. apply (reals_add d _ _ _ _ (reals_intro d yr Ly)) in HR2.
    destruct HR1 as (er' & R1 & R2 & R3). destruct HR2 as (yp & P1 & P2 & _). rewrite Ey.
    change (num RX) with xr in *. rewrite P1, R1.
    destruct (small_norm cf d yr yp er' a0 Ha0 Hd Htol Ly P2 R2) as (v' & Ev' & Hv').
    { intros q Hq. rewrite R3 by auto. specialize (Hw q Hq). 
      rewrite <- (lcomb_ext_zero F (mq (extA A b [])) (vq (extC c [])) x yr h (s - 1) (S s) (vq we) q) in Hw by (try lia; intros l Hl; apply vq_overflow; lia).
      rewrite (lcomb_prefix F _ _ x yr h s) in Hw by lia. rewrite ext_stages in Hw by auto.
      rewrite map_length, rstages_length. unfold lcomb in Hw. eapply Rle_lt_trans; [|exact Hw]. right. do 2 f_equal. apply rsum_ext. intros l Hl. rewrite nth_Q2R. f_equal.
      rewrite !rstages_nth by lia. reflexivity. }
    rewrite Ev', n1_RX. cbn. destruct (Rltb_spec 1 v'); [lra|reflexivity].
Qed.
End Trial.

(** ** one call of step() *)
(** the minimum step is neither above max_step nor above the distance to t_bound *)
Definition room (c : Cfg RX) (v : Solver RX) : Prop :=
  limits_consistent c v /\ xleb (code_min_step c (st v)) (nabs RX (nsub RX (t_bound c) (t (st v)))) = true.

Lemma step_first (H a0 : R) m o g t0 tb y0 (c : Cfg RX) n v k : explicit m -> after m o g t0 tb y0 c n v -> max_step c = Fin H ->
  stat v = Running -> y (st v) <> [] -> fresh c (st v) -> room c v ->
  (nfev_stiff_detect c = 0%nat \/ (m_stages m <= nfev_stiff_detect c)%nat) ->
  (forall s' ha ms dr, 0 < ms <= ha -> ha <= H -> direction c = Fin dr -> Rabs dr = 1 -> t s' = t (st v) -> y s' = y (st v) -> f s' = f (st v) ->
     (exists s2 hh hn tn yn en, trial_step m c s' (Fin ha) (Fin ms) false = Accept s2 hh hn tn yn en /\ nfs s2 = nfs s') \/
     exists ex, trial_step m c s' (Fin ha) (Fin ms) false = TrialExn ex) ->
  exists v', ode_step (S k) m c v = StepOk v' /\ ~ is_failed v' /\ nfs (st v') = nfs (st v).
Proof.
  intros HE HA EM Hr Hy Hfr (HR1 & HR2) Hnsd HT. pose proof (explicit_min m HE) as Hmin.
  destruct (after_inv _ _ _ _ _ _ _ _ _ Hmin HA) as (r & s & HG & [HLv HIv] & E1 & Hdir & _). rewrite Hr in HIv.
  pose proof (no_exception m o g t0 tb y0 c n v (S k)) as HN.
  destruct (step_unfold m c r (S k) (st v) HG HLv) as (sc & _ & Hms & _ & Eu).
  pose proof (code_min_step_val c r (st v) HG HLv) as EC.
  assert (Etv : exists x, t (st v) = Fin x) by (destruct HLv as (((tt & Ht) & _) & _); eauto). destruct Etv as (x & Ex).
  destruct HG as ((Etb & Ed & HG1) & HG2 & HG3).
  assert (L1 : min_step_at r (st v) <= H).
  { unfold limits_consistent in HR1. rewrite EC, EM in HR1. cbn in HR1. apply Rleb_true in HR1. exact HR1. }
  assert (L2 : min_step_at r (st v) <= dist r (st v)).
  { rewrite EC, Etb, Ex in HR2. cbn in HR2. apply Rleb_true in HR2. unfold dist, tval. rewrite Ex. exact HR2. }
  destruct (trial0_room c r (st v) H (conj (conj Etb (conj Ed HG1)) (conj HG2 HG3)) HLv EM L1 L2) as (L3 & L4).
  match type of Eu with _ = rk_loop _ _ _ ?s0 _ _ _ => set (s1 := s0) in * end.
  assert (Hdr : Rabs (dir r) = 1) by (destruct HG2 as ([E|E] & _); rewrite E; [apply Rabs_R1|rewrite Rabs_left; lra]).
  assert (HP : Nat.eqb (length (y (st v))) 0 || neqb RX (t (st v)) (t_bound c) = false).
  { apply orb_false_iff. split; [destruct (y (st v)); [congruence|reflexivity]|]. rewrite Ex, Etb. cbn. destruct (Reqb_spec x (RKReal.tb r)) as [->|]; [|reflexivity].
    unfold tval in HIv. rewrite Ex in HIv. replace (RKReal.tb r - RKReal.tb r) with 0 in HIv by ring. lra. }
  assert (HO : forall ex, step_impl (S k) m c (st v) <> Raise ex).
  { intros ex EX. apply (HN ex HE HA Hr Hnsd). unfold ode_step. rewrite Hr, HP, EX. reflexivity. }
  destruct (HT s1 (trial0 c r (st v)) (min_step_at r (st v)) (dir r) (conj Hms L3) L4 Ed Hdr eq_refl eq_refl eq_refl) as [(s2 & hh & hn & tn & yn & en & F1 & F2)|(ex & F1)].
  - destruct (loop_accept m c s1 k _ _ _ _ _ _ _ _ _ F1 F2) as [(s3 & G1 & G2)|(ex & G1)].
    + unfold ode_step. rewrite Hr, HP, Eu, G1. eexists. split; [reflexivity|]. split; [|exact G2].
      intros (msg & X). cbn [stat] in X. destruct (nleb _ _ _) in X; discriminate.
    + exfalso. apply (HO ex). rewrite Eu. exact G1.
  - exfalso. apply (HO ex). rewrite Eu. cbn [rk_loop]. rewrite F1. reflexivity.
Qed.
