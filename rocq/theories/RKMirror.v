(** Time reversal: integrating backwards is integrating the reversed problem
    forwards (exact arithmetic, first-order methods). *)
From Coq Require Import String ZArith Reals Lra Psatz QArith Qreals Bool Lia List.
From Verif Require Import Arith Common Stiff RK RKGen RKHist RX RKReal HStart RKInit RKInitReal RKStep RKBuilt SpecRK.
Import ListNotations.
Open Scope R_scope.

Definition vneg (v : list (num RX)) : list (num RX) := map (nopp RX) v.
Definition Kneg (K : list (list (num RX))) : list (list (num RX)) := map vneg K.
Lemma reversed_eq f t y : reversed f t y = vneg (f (nopp RX t) y).
Proof. reflexivity. Qed.
Lemma Kneg_app K k : Kneg (K ++ [k]) = Kneg K ++ [vneg k].
Proof. unfold Kneg. rewrite map_app. reflexivity. Qed.

Lemma xopp_invol a : xopp (xopp a) = a.
Proof. destruct a; simpl; auto. now rewrite Ropp_involutive. Qed.
Lemma xadd_opp a b : xadd (xopp a) (xopp b) = xopp (xadd a b).
Proof. destruct a, b; simpl; auto. f_equal; ring. Qed.
Lemma xsgn_opp a : xsgn (xopp a) = - xsgn a.
Proof.
  destruct a; simpl; try lra.
  destruct (Rlt_dec (- r) 0), (Rlt_dec r 0); try lra.
  - destruct (Rlt_dec 0 r); lra.
  - destruct (Rlt_dec 0 (- r)); lra.
  - destruct (Rlt_dec 0 (-r)), (Rlt_dec 0 r); lra.
Qed.
Lemma inf_of_sign_opp s : inf_of_sign (- s) = xopp (inf_of_sign s).
Proof.
  unfold inf_of_sign. destruct (Rlt_dec 0 (- s)), (Rlt_dec 0 s); try lra; auto.
  - destruct (Rlt_dec s 0); [reflexivity|lra].
  - destruct (Rlt_dec (- s) 0); [reflexivity|lra].
  - destruct (Rlt_dec (-s) 0), (Rlt_dec s 0); try lra; reflexivity.
Qed.
Lemma xmul_opp_r a b : xmul a (xopp b) = xopp (xmul a b).
Proof.
  assert (G : inf_of_sign (xsgn a * xsgn (xopp b)) = xopp (inf_of_sign (xsgn a * xsgn b))).
  { rewrite xsgn_opp, <- inf_of_sign_opp. f_equal. ring. }
  destruct a, b; cbn [xopp xmul] in *; try reflexivity; try exact G. f_equal; ring.
Qed.
Lemma xmul_comm a b : xmul a b = xmul b a.
Proof.
  assert (G : inf_of_sign (xsgn a * xsgn b) = inf_of_sign (xsgn b * xsgn a)) by (f_equal; ring).
  destruct a, b; cbn [xmul] in *; try reflexivity; try exact G. f_equal; ring.
Qed.
Lemma xmul_opp_l a b : xmul (xopp a) b = xopp (xmul a b).
Proof. rewrite xmul_comm, xmul_opp_r, xmul_comm. reflexivity. Qed.
Lemma xmul_opp_opp a b : xmul (xopp a) (xopp b) = xmul a b.
Proof. now rewrite xmul_opp_l, xmul_opp_r, xopp_invol. Qed.
Lemma xsub_opp a b : xsub (xopp a) (xopp b) = xopp (xsub a b).
Proof. unfold xsub. apply xadd_opp. Qed.
Lemma xabs_opp a : xabs (xopp a) = xabs a.
Proof. destruct a; simpl; auto. now rewrite Rabs_Ropp. Qed.
Lemma xdiv_opp a b : b <> 0 -> xdiv (xopp a) (xopp (Fin b)) = xdiv a (Fin b).
Proof.
  intros Hb. destruct a; cbn [xopp xdiv xsgn].
  - destruct (Req_EM_T (- b) 0), (Req_EM_T b 0); try lra. f_equal. field. lra.
  - f_equal. destruct (Rlt_dec (- b) 0), (Rlt_dec b 0); lra.
  - f_equal. destruct (Rlt_dec (- b) 0), (Rlt_dec b 0); lra.
  - reflexivity.
Qed.
Lemma xeqb_opp a b : xeqb (xopp a) (xopp b) = xeqb a b.
Proof.
  destruct a, b; simpl; auto. unfold Reqb. destruct (Req_EM_T (- r) (- r0)), (Req_EM_T r r0); auto; exfalso; lra.
Qed.

Lemma vadd_neg (a b : list (num RX)) : @vadd RX (vneg a) (vneg b) = vneg (vadd a b).
Proof.
  revert b; induction a as [|x a IH]; intros [|z b]; try reflexivity.
  specialize (IH b). unfold vadd, vneg in *. cbn [map map2]. rewrite IH. f_equal. apply xadd_opp.
Qed.
Lemma vscale_neg w (a : list (num RX)) : @vscale RX w (vneg a) = vneg (vscale w a).
Proof. unfold vscale, vneg. rewrite !map_map. apply map_ext. intros x. apply xmul_opp_r. Qed.
Lemma vscale_negneg w (a : list (num RX)) : @vscale RX (nopp RX w) (vneg a) = vscale w a.
Proof. unfold vscale, vneg. rewrite map_map. apply map_ext. intros x. apply xmul_opp_opp. Qed.

Lemma repeat_neg n : vneg (repeat (@n0 RX) n) = repeat (@n0 RX) n.
Proof. rewrite n0_RX. induction n; simpl; auto. f_equal; [now rewrite Ropp_0|exact IHn]. Qed.

Lemma lincomb_neg n (w : list (num RX)) (K : list (list (num RX))) :
  @lincomb RX n w (Kneg K) = vneg (lincomb n w K).
Proof.
  unfold lincomb. rewrite <- (repeat_neg n) at 1.
  generalize (repeat (@n0 RX) n) as acc. revert K.
  induction w as [|x w IH]; intros [|k K] acc; cbn [combine fold_left map Kneg]; auto.
  rewrite <- IH. f_equal. cbn [fst snd]. rewrite vscale_neg, vadd_neg. reflexivity.
Qed.

(** methods that commute with time reversal *)
Record odd_meth (m : Meth RX) : Prop := {
  od_point : forall t y h K i, m_point m (nopp RX t) y (nopp RX h) (Kneg K) i =
     (nopp RX (fst (m_point m t y h K i)), snd (m_point m t y h K i));
  od_sol : forall y h K, m_sol m y (nopp RX h) (Kneg K) = m_sol m y h K;
  od_err : forall h K, m_err m (nopp RX h) (Kneg K) = m_err m h K;
  od_pre : forall g, m_pre m = Some g -> forall y h K, g y (nopp RX h) (Kneg K) = g y h K
}.

Lemma point_odd (T : Tab RX) n t y h K i : rk_point T n (nopp RX t) y (nopp RX h) (Kneg K) i =
  (nopp RX (fst (rk_point T n t y h K i)), snd (rk_point T n t y h K i)).
Proof.
  unfold rk_point. cbn [fst snd]. rewrite lincomb_neg, vscale_negneg.
  f_equal. change (nopp RX) with xopp. change (nmul RX) with xmul. change (nadd RX) with xadd.
  rewrite xmul_opp_r, xadd_opp. reflexivity.
Qed.
Lemma comb_odd n (w : list (num RX)) (h : num RX) K : @vscale RX (nopp RX h) (lincomb n w (Kneg K)) = vscale h (lincomb n w K).
Proof. rewrite lincomb_neg. apply vscale_negneg. Qed.

Lemma rk_odd T n stab : odd_meth (rk_meth T n stab).
Proof.
  constructor; cbn [rk_meth m_point m_sol m_err m_pre].
  - intros. apply point_odd.
  - intros. unfold rk_sol. now rewrite comb_odd.
  - intros. unfold rk_err. now rewrite comb_odd.
  - discriminate.
Qed.
Lemma bs5_odd T b e n stab : odd_meth (bs5_meth T b e n stab).
Proof.
  constructor; cbn [bs5_meth m_point m_sol m_err m_pre].
  - intros. apply point_odd.
  - intros. unfold rk_sol. now rewrite comb_odd.
  - intros. unfold rk_err. now rewrite comb_odd.
  - intros g H y h K. injection H as <-. now rewrite !comb_odd.
Qed.
Lemma cfmr_odd T n stab : odd_meth (cfmr_meth T n stab).
Proof.
  constructor; cbn [cfmr_meth m_point m_sol m_err m_pre].
  - intros. apply point_odd.
  - intros. unfold rk_sol. now rewrite comb_odd.
  - intros. unfold rk_err. now rewrite comb_odd.
  - intros g H y h K. injection H as <-. now rewrite !comb_odd.
Qed.

Lemma nopp_invol (a : num RX) : nopp RX (nopp RX a) = a.
Proof. apply xopp_invol. Qed.

(** mirrored configuration and state *)
Record mir_cfg (c c' : Cfg RX) : Prop := {
  mc_fn : forall t y, fn c' t y = reversed (fn c) t y;
  mc_tb : t_bound c' = (nopp RX) (t_bound c); mc_dir : direction c' = (nopp RX) (direction c);
  mc_rtol : rtol c' = rtol c; mc_atol : atol c' = atol c; mc_max : max_step c' = max_step c;
  mc_ha : h_min_a c' = h_min_a c; mc_hb : h_min_b c' = h_min_b c; mc_te : tiny_err c' = tiny_err c;
  mc_g : safety c' = safety c; mc_gs : safety_sc c' = safety_sc c; mc_b1 : minbeta1 c' = minbeta1 c;
  mc_b2 : minbeta2 c' = minbeta2 c; mc_al : minalpha c' = minalpha c;
  mc_ee : error_exponent c' = error_exponent c; mc_mf : min_factor c' = min_factor c;
  mc_0 : nfev_stiff_detect c = 0%nat; mc_0' : nfev_stiff_detect c' = 0%nat
}.

Definition mir (s s' : St RX) : Prop :=
  t s' = (nopp RX) (t s) /\ y s' = y s /\ f s' = vneg (f s) /\ h_abs s' = h_abs s /\
  max_factor s' = max_factor s /\ standard_sc s' = standard_sc s /\
  h_previous s' = option_map (nopp RX) (h_previous s) /\ error_norm_old s' = error_norm_old s /\
  nfs s' = nfs s /\ K s' = Kneg (K s).

Definition hp_ok (s : St RX) : Prop :=
  standard_sc s = false -> exists hp, h_previous s = Some (Fin hp) /\ hp <> 0.

Lemma stages_mir m c c' (tt : num RX) yy (h : num RX) : odd_meth m -> mir_cfg c c' ->
  forall k (K : list (list (num RX))) cl cl',
  fst (stages m (fn c') ((nopp RX) tt) yy ((nopp RX) h) k (Kneg K) cl') =
  Kneg (fst (stages m (fn c) tt yy h k K cl)).
Proof.
  intros HO HC. induction k as [|k IH]; intros K cl cl'; [reflexivity|]. cbn [stages].
  assert (EL : length (Kneg K) = length K) by apply map_length. rewrite EL, (od_point m HO). cbn [fst snd].
  rewrite (mc_fn _ _ HC). rewrite reversed_eq. rewrite nopp_invol.
  rewrite <- (IH _ _ (cl' ++ [((nopp RX) (fst (m_point m tt yy h K (length K))), snd (m_point m tt yy h K (length K)))])).
  f_equal. f_equal. rewrite Kneg_app. reflexivity.
Qed.

Definition trial_mir (r1 r2 : trial) : Prop :=
  match r1, r2 with
  | Accept s1 h hn tn yn en, Accept s1' h' hn' tn' yn' en' =>
      mir s1 s1' /\ h' = (nopp RX) h /\ hn = hn' /\ tn' = (nopp RX) tn /\ yn = yn' /\ en = en'
  | Reject s1 h, Reject s2 h' => mir s1 s2 /\ h = h'
  | Abort s1 msg, Abort s2 msg' => (msg <> TOO_SMALL_STEP -> mir s1 s2) /\ mir s1 s2 /\ msg = msg'
  | TrialExn e, TrialExn e' => e = e'
  | _, _ => False
  end.

Lemma err_norm_mir c c' a b e : mir_cfg c c' -> err_norm c' a b e = err_norm c a b e.
Proof. intros HC. unfold err_norm. now rewrite (mc_rtol _ _ HC), (mc_atol _ _ HC). Qed.

Lemma accept_mir c c' s s' h en : mir_cfg c c' -> mir s s' -> hp_ok s ->
  accept_factor c' s' (standard_sc s') ((nopp RX) h) en = accept_factor c s (standard_sc s) h en.
Proof.
  intros HC (E1&E2&E3&E4&E5&E6&E7&E8&_) HP. unfold accept_factor.
  rewrite (mc_te _ _ HC), E5, E6, (mc_g _ _ HC), (mc_ee _ _ HC), (mc_gs _ _ HC), (mc_b1 _ _ HC),
    (mc_b2 _ _ HC), (mc_al _ _ HC), (mc_mf _ _ HC), E7, E8.
  destruct (nltb RX en (tiny_err c)); [reflexivity|].
  destruct (standard_sc s) eqn:Es; [reflexivity|].
  destruct (HP Es) as (hp & Hh & Hne). rewrite Hh. cbn [option_map].
  destruct (error_norm_old s); [|reflexivity].
  change (ndiv RX) with xdiv. rewrite xdiv_opp by exact Hne. reflexivity.
Qed.

Lemma reject_mir c c' en : mir_cfg c c' -> reject_factor c' en = reject_factor c en.
Proof. intros HC. unfold reject_factor. now rewrite (mc_mf _ _ HC), (mc_g _ _ HC), (mc_ee _ _ HC). Qed.

Lemma mir_with s s' sc mf jf jf' nf K' cl cl' : mir s s' ->
  mir (with_trial s sc mf jf nf K' cl) (with_trial s' sc mf jf' nf (Kneg K') cl').
Proof. intros (E1&E2&E3&E4&E5&E6&E7&E8&E9&E10). unfold mir. cbn. repeat split; auto. Qed.

Lemma trial_step_mir m c c' s s' ha ms rej : odd_meth m -> mir_cfg c c' -> mir s s' -> hp_ok s ->
  trial_mir (trial_step m c s ha ms rej) (trial_step m c' s' ha ms rej).
Proof.
  intros HO HC HS HP. pose proof HS as HS0.
  destruct HS as (E1&E2&E3&E4&E5&E6&E7&E8&E9&E10).
  unfold trial_step.
  destruct (nltb RX ha ms); [simpl; auto|].
  rewrite (mc_dir _ _ HC).
  assert (Eh : nmul RX ha (nopp RX (direction c)) = nopp RX (nmul RX ha (direction c))) by apply xmul_opp_r.
  rewrite Eh.
  set (h := nmul RX ha (direction c)).
  rewrite E1, E2, E3.
  set (npre := match m_pre m with None => (m_stages m - 1)%nat | Some _ => (m_stages m - 2)%nat end).
  pose proof (stages_mir m c c' (t s) (y s) h HO HC npre [f s] (calls s) (calls s')) as HK.
  change (Kneg [f s]) with [vneg (f s)] in HK.
  destruct (stages m (fn c) (t s) (y s) h npre [f s] (calls s)) as [K1 cl1].
  destruct (stages m (fn c') ((nopp RX) (t s)) (y s) ((nopp RX) h) npre [vneg (f s)] (calls s')) as [K1' cl1'].
  cbn [fst] in HK. subst K1'.
  set (pre := match m_pre m with None => None | Some g =>
      let '(y_pre, err) := g (y s) h K1 in Some (err_norm c (y s) y_pre err) end).
  assert (Hpre : (match m_pre m with None => None | Some g =>
      let '(y_pre, err) := g (y s) ((nopp RX) h) (Kneg K1) in Some (err_norm c' (y s) y_pre err) end) = pre).
  { unfold pre. destruct (m_pre m) as [g|] eqn:Eg; [|reflexivity].
    rewrite (od_pre m HO g Eg). destruct (g (y s) h K1). now rewrite (err_norm_mir c c') by exact HC. }
  rewrite Hpre.
  destruct (match pre with Some e => nltb RX n1 e | None => false end).
  { cbn [trial_mir]. split.
    - rewrite (mc_0 _ _ HC), (mc_0' _ _ HC), E6, E5, E9. apply mir_with; auto.
    - now rewrite (reject_mir c c'). }
  assert (HK2 : exists K2 cl2 cl2', (match m_pre m with None => (K1, cl1)
        | Some _ => stages m (fn c) (t s) (y s) h 1 K1 cl1 end) = (K2, cl2) /\
      (match m_pre m with None => (Kneg K1, cl1')
        | Some _ => stages m (fn c') ((nopp RX) (t s)) (y s) ((nopp RX) h) 1 (Kneg K1) cl1' end) = (Kneg K2, cl2')).
  { destruct (m_pre m); [|eauto].
    pose proof (stages_mir m c c' (t s) (y s) h HO HC 1 K1 cl1 cl1') as HK'.
    destruct (stages m (fn c) (t s) (y s) h 1 K1 cl1) as [K2 cl2].
    destruct (stages m (fn c') ((nopp RX) (t s)) (y s) ((nopp RX) h) 1 (Kneg K1) cl1') as [K2' cl2'].
    cbn [fst] in HK'. subst. eauto. }
  destruct HK2 as (K2 & cl2 & cl2' & -> & ->).
  unfold comp_sol_err.
  rewrite (od_sol m HO). set (yn := m_sol m (y s) h K2).
  assert (Ht : nadd RX ((nopp RX) (t s)) ((nopp RX) h) = (nopp RX) (nadd RX (t s) h)) by apply xadd_opp.
  assert (HK3 : exists K3 cl3 cl3',
     (if m_fsal m then (K2 ++ [fn c (nadd RX (t s) h) yn], cl2 ++ [(nadd RX (t s) h, yn)]) else (K2, cl2)) = (K3, cl3) /\
     (if m_fsal m then (Kneg K2 ++ [fn c' (nadd RX ((nopp RX) (t s)) ((nopp RX) h)) yn], cl2' ++ [(nadd RX ((nopp RX) (t s)) ((nopp RX) h), yn)])
       else (Kneg K2, cl2')) = (Kneg K3, cl3')).
  { destruct (m_fsal m); [|eauto]. do 3 eexists. split; [reflexivity|]. f_equal.
    rewrite Ht, (mc_fn _ _ HC). rewrite reversed_eq. rewrite nopp_invol, Kneg_app. reflexivity. }
  destruct HK3 as (K3 & cl3 & cl3' & -> & ->).
  rewrite (od_err m HO), (err_norm_mir c c') by exact HC.
  set (en := err_norm c (y s) yn (m_err m h K3)).
  destruct (nltb RX en n1).
  - rewrite (accept_mir c c' s s' h en HC HS0 HP).
    destruct (accept_factor c s (standard_sc s) h en) as [fac sc|e]; [|reflexivity].
    cbn [trial_mir]. split; [|repeat split; auto].
    rewrite E5, E9. apply mir_with; auto.
  - destruct (nisnan RX en || nisinf RX en).
    + cbn [trial_mir andb]. rewrite E6, E5, E9.
      assert (G : forall jf jf', mir (with_trial s (standard_sc s) (max_factor s) jf (if negb (true && m_nan_first m) then S (nfs s) else nfs s) K3 cl3)
         (with_trial s' (standard_sc s) (max_factor s) jf' (if negb (true && m_nan_first m) then S (nfs s) else nfs s) (Kneg K3) cl3'))
        by (intros; apply mir_with; auto).
      split; [intros _; apply G|]. split; [apply G|reflexivity].
    + cbn [trial_mir andb]. split; [rewrite E6, E5, E9; apply mir_with; auto|].
      now rewrite (reject_mir c c').
Qed.

Definition res_mir (r1 r2 : result RX) : Prop :=
  match r1, r2 with
  | Done s1, Done s2 => mir s1 s2
  | Fail s1 m1, Fail s2 m2 => mir s1 s2 /\ m1 = m2
  | Raise e1, Raise e2 => e1 = e2
  | OutOfFuel, OutOfFuel => True
  | _, _ => False
  end.

Lemma diagnose_off (m : Meth RX) c s h yo : nfev_stiff_detect c = 0%nat -> diagnose m c s h yo = inl s.
Proof. intros H. unfold diagnose. rewrite H. reflexivity. Qed.

Lemma nth_vneg k (K : list (list (num RX))) : nth k (Kneg K) [] = vneg (nth k K []).
Proof. exact (map_nth vneg K [] k). Qed.

Lemma finish_mir m c c' s1 s2 h hn tn yn en : mir_cfg c c' -> mir s1 s2 ->
  res_mir (finish m c s1 h hn tn yn en) (finish m c' s2 ((nopp RX) h) hn ((nopp RX) tn) yn en).
Proof.
  intros HC (E1&E2&E3&E4&E5&E6&E7&E8&E9&E10).
  unfold finish.
  assert (Ht : nadd RX ((nopp RX) (t s1)) ((nopp RX) h) = (nopp RX) (nadd RX (t s1) h)) by apply xadd_opp.
  destruct (m_fsal m).
  - rewrite !diagnose_off by (apply HC). cbn [res_mir]. unfold mir. cbn [t y f h_abs max_factor standard_sc h_previous error_norm_old nfs K option_map].
    rewrite E10, nth_vneg, E5, E6, E9. repeat split; auto.
  - rewrite !diagnose_off by (apply HC). cbn [res_mir]. unfold mir. cbn [t y f h_abs max_factor standard_sc h_previous error_norm_old nfs K option_map].
    rewrite E1, Ht, (mc_fn _ _ HC). rewrite reversed_eq. rewrite nopp_invol, E10.
    replace (Kneg (K s1) ++ [vneg (fn c (nadd RX (t s1) h) yn)]) with (Kneg (K s1 ++ [fn c (nadd RX (t s1) h) yn]))
      by (rewrite Kneg_app; reflexivity).
    rewrite nth_vneg, E5, E6, E9. repeat split; auto.
Qed.

Lemma loop_mir m c c' : odd_meth m -> mir_cfg c c' -> forall fuel s1 s2 ha ms rej,
  min_stages m -> mir s1 s2 -> hp_ok s1 ->
  res_mir (rk_loop fuel m c s1 ha ms rej) (rk_loop fuel m c' s2 ha ms rej).
Proof.
  intros HO HC. induction fuel as [|fuel IH]; intros s1 s2 ha ms rej Hmin HS HP; [exact I|]. cbn [rk_loop].
  pose proof (trial_step_mir m c c' s1 s2 ha ms rej HO HC HS HP) as HT.
  pose proof (trial_inv m c s1 ha ms rej Hmin) as HI.
  destruct (trial_step m c s1 ha ms rej) as [a1 a2 a3 a4 a5 a6|b1 b2|d1 d2|e1];
  destruct (trial_step m c' s2 ha ms rej) as [a1' a2' a3' a4' a5' a6'|b1' b2'|d1' d2'|e1']; simpl in HT; try contradiction.
  - destruct HT as (HS' & -> & -> & -> & -> & ->). apply finish_mir; auto.
  - destruct HT as (HS' & ->). apply IH; auto.
    destruct HI as (_ & (C1&C2&C3&C4&C5&_) & C6 & _).
    intros E. rewrite C5. apply HP. congruence.
  - destruct HT as (_ & HS' & ->). cbn. auto.
  - cbn. congruence.
Qed.

Lemma step_mir m c c' fuel s1 s2 : odd_meth m -> mir_cfg c c' -> min_stages m -> mir s1 s2 -> hp_ok s1 ->
  res_mir (step_impl fuel m c s1) (step_impl fuel m c' s2).
Proof.
  intros HO HC Hmin HS HP. unfold step_impl.
  assert (reassess_stepsize c' s2 = reassess_stepsize c s1) as ->.
  { destruct HS as (E1&E2&E3&E4&E5&E6&_). unfold reassess_stepsize.
    rewrite E1, E4, E6, (mc_ha _ _ HC), (mc_hb _ _ HC), (mc_max _ _ HC), (mc_tb _ _ HC).
    change (nabs RX) with xabs. change (nsub RX) with xsub.
    rewrite xabs_opp, xsub_opp, xabs_opp. reflexivity. }
  assert (Hsc : snd (reassess_stepsize c s1) = false -> standard_sc s1 = false).
  { unfold reassess_stepsize. destruct (_ || _); destruct (nltb RX _ _); try destruct (nltb RX _ _); simpl; auto; discriminate. }
  destruct (reassess_stepsize c s1) as [[h ms] sc]. cbn [snd] in Hsc.
  apply loop_mir; auto.
  - destruct HS as (E1&E2&E3&E4&E5&E6&E7&E8&E9&E10). rewrite E5, E9, E10.
    apply mir_with. repeat split; auto.
  - intros E. cbn [with_trial standard_sc h_previous] in *. apply HP. auto.
Qed.

Definition solver_mir (v1 v2 : Solver RX) : Prop := mir (st v1) (st v2) /\ stat v2 = stat v1.

Lemma ode_step_mir m c c' fuel v1 v2 v1' : odd_meth m -> mir_cfg c c' -> min_stages m ->
  solver_mir v1 v2 -> hp_ok (st v1) -> ode_step fuel m c v1 = StepOk v1' ->
  exists v2', ode_step fuel m c' v2 = StepOk v2' /\ solver_mir v1' v2'.
Proof.
  intros HO HC Hmin (HS & Hst) HP H. unfold ode_step in *. rewrite Hst.
  destruct (stat v1); [|discriminate|discriminate].
  pose proof HS as (E1&E2&E3&E4&E5&E6&E7&E8&E9&E10).
  rewrite E1, E2, (mc_tb _ _ HC).
  assert (Eq : neqb RX (nopp RX (t (st v1))) (nopp RX (t_bound c)) = neqb RX (t (st v1)) (t_bound c)) by apply xeqb_opp.
  rewrite Eq.
  destruct (Nat.eqb (length (y (st v1))) 0 || neqb RX (t (st v1)) (t_bound c)).
  { inversion H; subst. eexists; split; [reflexivity|]. split; [|reflexivity].
    unfold mir. cbn. rewrite E3, E4, E5, E6, E7, E8, E9, E10. repeat split. }
  pose proof (step_mir m c c' fuel (st v1) (st v2) HO HC Hmin HS HP) as HR.
  destruct (step_impl fuel m c (st v1)) as [s1|s1 m1|e|]; destruct (step_impl fuel m c' (st v2)) as [s2|s2 m2|e2|];
    simpl in HR; try contradiction; try discriminate.
  - inversion H; subst. eexists; split; [reflexivity|]. split; [exact HR|]. cbn [stat st].
    destruct HR as (F1 & _). rewrite F1, (mc_dir _ _ HC).
    change (nsub RX) with xsub. change (nmul RX) with xmul. change (nopp RX) with xopp.
    rewrite xsub_opp, xmul_opp_opp. reflexivity.
  - destruct HR as (HR & ->). inversion H; subst. eexists; split; [reflexivity|]. split; auto.
Qed.

Theorem history_mir m c c' r v0 v0' n v : odd_meth m -> mir_cfg c c' -> min_stages m -> good_cfg c r ->
  inv c r v0 -> solver_mir v0 v0' -> history m c v0 n v ->
  exists v', history m c' v0' n v' /\ solver_mir v v'.
Proof.
  intros HO HC Hmin HG HI HS H. induction H as [v|v0 n v1 v2 k H IH HS1]; [exists v0'; split; [constructor|auto]|].
  destruct (IH HI HS) as (v1' & H1 & HM).
  pose proof (history_inv m c r _ _ _ Hmin HG HI H) as [HL _].
  destruct (ode_step_mir m c c' k v1 v1' v2 HO HC Hmin HM) as (v2' & H2 & HM2); [|exact HS1|].
  - intros E. destruct HL as ((_ & _ & HL) & _). destruct (HL E) as ((hp & E1 & E2) & _).
    exists hp. split; [exact E1|]. intros ->. lra.
  - exists v2'. split; [econstructor; eauto|exact HM2].
Qed.

(** the constructor, with first_step given and stiffness detection off *)
Lemma direction_mir t0 tb : t0 <> tb -> @direction0 RX (Fin (- t0)) (Fin (- tb)) = xopp (direction0 (Fin t0) (Fin tb)).
Proof.
  intros Hne. unfold direction0. change (nsub RX) with xsub. change (nltb RX) with xltb.
  unfold xsub. cbn [xopp xadd]. rewrite n0_RX, n1_RX. cbn [xltb].
  replace (@lit RX (-1)) with (Fin (-1)) by (symmetry; litR).
  unfold Rltb.
  destruct (Rlt_dec 0 (- tb + - - t0)), (Rlt_dec 0 (tb + - t0)); try lra; cbn [xopp]; auto.
  - destruct (Rlt_dec (tb + - t0) 0); [cbn [xopp]; f_equal; lra|lra].
  - destruct (Rlt_dec (- tb + - - t0) 0); [reflexivity|lra].
Qed.

Lemma init_mir k o fun_ t0 tb y0 c s h0 : t0 <> tb -> o_first_step o = Some h0 -> o_stiff o = 0%Z ->
  rk_init k o fun_ (Fin t0) y0 (Fin tb) = inl (c, s) ->
  exists c' s', rk_init k o (reversed fun_) (Fin (- t0)) y0 (Fin (- tb)) = inl (c', s') /\
    mir_cfg c c' /\ mir s s'.
Proof.
  intros Hne Hf Hs0 H. unfold rk_init in *.
  destruct (nleb RX (o_max_step o) n0); [discriminate|].
  destruct (validate_tol (o_rtol_is_float o) (o_rtol o) (o_atol o) y0) as [[rt at_]|]; [|discriminate].
  rewrite Hs0 in *. destruct (init_stiff (k_stab k) 0) as [nsd|] eqn:Ens; [|discriminate].
  assert (Hz : nsd = 0%nat) by (unfold init_stiff in Ens; simpl in Ens; destruct (hasStab (k_stab k)); injection Ens as <-; reflexivity).
  subst nsd.
  destruct (sc_coefs (sc_or (o_sc o) (k_sc k))) as [[[[kb1 kb2] al] gg]|]; [|discriminate].
  cbv zeta in *. rewrite Hf in *.
  destruct (nleb RX h0 n0); [discriminate|].
  assert (Ea : nabs RX (nsub RX (Fin (- tb)) (Fin (- t0))) = nabs RX (nsub RX (Fin tb) (Fin t0))).
  { change (nsub RX) with xsub. change (nabs RX) with xabs.
    change (Fin (- tb)) with (xopp (Fin tb)). change (Fin (- t0)) with (xopp (Fin t0)).
    rewrite xsub_opp, xabs_opp. reflexivity. }
  rewrite Ea. destruct (nltb RX (nabs RX (nsub RX (Fin tb) (Fin t0))) h0); [discriminate|].
  apply inl_pair_inj in H. destruct H as [<- <-].
  eexists. eexists. split; [reflexivity|]. split.
  - constructor; cbn; auto. apply direction_mir; auto.
  - unfold mir. cbn. repeat split. rewrite reversed_eq. change (nopp RX) with xopp. cbn [xopp]. now rewrite Ropp_involutive.
Qed.

Theorem reversal m k o fun_ t0 tb y0 c s h0 : odd_meth m -> min_stages m -> ordinary k o t0 tb y0 ->
  o_first_step o = Some h0 -> o_stiff o = 0%Z ->
  rk_init k o fun_ (Fin t0) y0 (Fin tb) = inl (c, s) ->
  exists c' s', rk_init k o (reversed fun_) (Fin (- t0)) y0 (Fin (- tb)) = inl (c', s') /\
    forall n v, history m c (new_solver s) n v ->
    exists v', history m c' (new_solver s') n v' /\
      t (st v') = xopp (t (st v)) /\ y (st v') = y (st v) /\ f (st v') = vneg (f (st v)) /\
      h_abs (st v') = h_abs (st v) /\ stat v' = stat v.
Proof.
  intros HO Hmin HB Hf Hs0 H.
  destruct (init_mir k o fun_ t0 tb y0 c s h0 (ord_interval _ _ _ _ _ HB) Hf Hs0 H) as (c' & s' & H' & HC & HS).
  exists c', s'. split; [exact H'|]. intros n v Hh.
  destruct (built_inv o fun_ t0 tb y0 c s) as (r & HG & HI & _); [left; eauto|].
  destruct (history_mir m c c' r (new_solver s) (new_solver s') n v HO HC Hmin HG HI) as (v' & H1 & HM & HE); auto.
  { split; [exact HS|reflexivity]. }
  exists v'. split; [exact H1|]. destruct HM as (E1&E2&E3&E4&_). auto.
Qed.
