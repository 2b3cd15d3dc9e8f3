(** The loop of the implicit solvers refines the controller of SpecESD.v, in every arithmetic. *)
From Coq Require Import String ZArith QArith Bool List Lia.
From Verif Require Import Arith Common RK RKInit Ode ESDIRK ESDGen SpecCtl SpecESD.
Import ListNotations.
Close Scope string_scope.
Open Scope nat_scope.

Section P.
Context {A : Arith}.
Notation num := (num A).
Notation vec := (list num).
Notation mat := (list (list num)).
Local Open Scope num_scope.

Lemma newton_spec m c ts h psi y L : forall left (ds : list num) w z dzo r w',
  (left + length ds = NEWTON_MAXITER)%nat -> dzo = hd n0 ds -> (x_linear c = true -> ds = []) ->
  newton m c ts h psi y L left (length ds) w z dzo (rate_of m ds) = (r, w') ->
  w_Sc w' = w_Sc w /\
  match r with
  | NwConv z' rate n => converges m c L (w_Sc w) {| g_t := ts; g_h := h; g_psi := psi; g_y := y |} ds z z' rate n
  | NwDiv rate n => diverges m c L (w_Sc w) {| g_t := ts; g_h := h; g_psi := psi; g_y := y |} ds z rate n
  | NwRaise _ => True
  end.
Proof.
  induction left as [|left IH]; intros ds w z dzo r w' HL Hd Hlin H; cbn [newton] in H.
  - injection H as <- <-. split; [reflexivity|]. assert (E : length ds = NEWTON_MAXITER) by lia. rewrite E. apply dv_end. exact E.
  - set (g := {| g_t := ts; g_h := h; g_psi := psi; g_y := y |}).
    change (vadd psi (vscale (em_d m) z)) with (arg m g z) in H. change (x_fun c ts (arg m g z)) with (value m c g z) in H.
    destruct (forallb nisfin (value m c g z)) eqn:EF; cbn [negb] in H; [|injection H as <- <-; split; [reflexivity|]; apply dv_value; [lia|exact EF]].
    change (vsub (vscale h (value m c g z)) (mv (x_M c) z)) with (residual m c g z) in H.
    destruct (x_solve c L (mv (w_Sc w) (residual m c g z))) as [dz|] eqn:ES; [|injection H as <- <-; split; [reflexivity|exact I]].
    assert (HC : corrects m c L (w_Sc w) g z dz) by (split; auto).
    change (norm (vdiv dz (calculate_scale (x_atol c) (x_rtol c) y (arg m g z)))) with (gauge m c g z dz) in H.
    destruct (x_linear c) eqn:EL.
    { specialize (Hlin eq_refl). subst ds. destruct (_ && _) in H; injection H as <- <-; (split; [reflexivity|]); [|exact I]. apply cv_linear; auto. }
    destruct (nleb A (gauge m c g z dz) (x_tiny c)) eqn:ET; [injection H as <- <-; split; [reflexivity|]; apply cv_tiny; auto; lia|].
    destruct ds as [|d0 ds']; cbn [length] in H.
    + apply (IH [gauge m c g z dz]) in H; [|cbn [length] in *; lia|reflexivity|discriminate]. cbn [w_solved w_call w_Sc] in H. destruct H as (E & H). split; [exact E|].
      assert (HG : goes_on m c [] (gauge m c g z dz)) by (split; [exact ET|congruence]).
      destruct r; auto; [eapply cv_more; eauto|eapply dv_more; eauto].
    + cbn [hd] in Hd. subst dzo.
      assert (ER : (if nltb A (rate_of m (d0 :: ds')) n0 || (d0 >? em_kappa m) then pymax (rate_of m (d0 :: ds')) (gauge m c g z dz / d0) else rate_of m (d0 :: ds')) = rate_of m (gauge m c g z dz :: d0 :: ds')) by reflexivity.
      rewrite ER in H. clear ER. set (r1 := rate_of m (gauge m c g z dz :: d0 :: ds')) in *.
      change (S (length ds')) with (length (d0 :: ds')) in H.
      assert (HSl : slow m (d0 :: ds') (gauge m c g z dz) = (r1 >=? n1) || (gauge m c g z dz * nipow r1 (NEWTON_MAXITER - length (d0 :: ds')) >=? em_kappa m * (n1 - r1))) by reflexivity.
      assert (HFa : fast m (d0 :: ds') (gauge m c g z dz) = (gauge m c g z dz * r1 <? em_kappa m * (n1 - r1))) by reflexivity.
      destruct (_ || _) eqn:EO in H; [injection H as <- <-; split; [reflexivity|]; apply (dv_slow m c L (w_Sc w) g (d0 :: ds') z dz); auto; cbn [length] in *; lia|].
      destruct (nltb A _ _) eqn:EK in H; [injection H as <- <-; split; [reflexivity|]; apply (cv_fast m c L (w_Sc w) g (d0 :: ds') z dz); auto; cbn [length] in *; lia|].
      assert (HG : goes_on m c (d0 :: ds') (gauge m c g z dz)) by (split; [exact ET|intros _; rewrite HSl, HFa; auto]).
      apply (IH (gauge m c g z dz :: d0 :: ds')) in H; [|cbn [length] in *; lia|reflexivity|discriminate]. cbn [w_solved w_call w_Sc] in H. destruct H as (E & H). split; [exact E|].
      destruct r; auto; [eapply cv_more; eauto|eapply dv_more; eauto].
Qed.

Lemma estages_spec m c t h y yp L Sc : forall left s (w : EWk A) K psi z (w' : EWk A) r,
  (left + s = em_stages m)%nat -> length K = s -> w_Sc w = Sc -> staged m c L Sc t h y yp K psi z (w_rate w) (w_niter w) ->
  estages m c t h y L left s w K psi z = (r, w') ->
  match r with
  | SgOk K' psi' z' => length K' = em_stages m /\ staged m c L Sc t h y yp K' psi' z' (w_rate w') (w_niter w')
  | SgDiv => unstaged m c L Sc t h y yp (w_rate w')
  | SgRaise _ => True
  end.
Proof.
  induction left as [|left IH]; intros s w K psi z w' r HL HK HS HSt H; cbn [estages] in H.
  - injection H as <- <-. split; [lia|exact HSt].
  - destruct (newton _ _ _ _ _ _ _ _ _ _ _ _ _) as [nr w1] eqn:EN.
    pose proof (newton_core _ _ _ _ _ _ _ _ _ _ _ _ _ _ _ EN) as (_ & ER & EI & _).
    apply (newton_spec _ _ _ _ _ _ _ _ []) in EN; [|reflexivity|reflexivity|reflexivity]. destruct EN as (ES & EN).
    destruct nr as [z' rr ni|rr ni|e]; [| |injection H as <- <-; exact I].
    + eapply (IH (S s) _ _ _ _ _ _ ltac:(lia)) in H; [exact H|rewrite app_length; cbn [length]; lia|cbn [w_rates w_Sc]; congruence|].
      cbn [w_rates w_rate w_niter]. rewrite ER, EI. subst s. rewrite HS in EN. eapply st_next; [exact HSt|lia|exact EN].
    + injection H as <- <-. cbn [w_rates w_rate]. rewrite ER. subst s. rewrite HS in EN. do 7 eexists. split; [exact HSt|]. split; [lia|]. split; [exact EN|reflexivity].
Qed.

(** ** trials *)
Definition elawful (c : ECfg A) (L : Law A) : Prop :=
  x_safety c = l_g L /\ x_safety_sc c = npow A (l_g L) (l_kb1 L + l_kb2 L) /\ x_minbeta1 c = l_kb1 L * expo L /\
  x_minbeta2 c = l_kb2 L * expo L /\ x_minalpha c = - l_a L /\ x_ee c = expo L /\ x_minf c = lit (1#5).
Definition past_of (s : ES A) (std : bool) : option (num * num) :=
  if std then None else match e_hprev s, e_errold s with Some hp, Some eo => Some (hp, eo) | _, _ => None end.
Definition try_of (s : ES A) (w : EWk A) (ha : num) (rej : bool) : Try A :=
  {| a_size := ha; a_past := past_of s (w_std w); a_cap := w_maxf w; a_again := rej; a_fresh := w_curJ w |}.

Lemma in_use_lu (m : EMeth A) (c : ECfg A) (w w1 : EWk A) (h : num) (L : mat) : lu_ok m c w -> factorise m c w h = inl (L, w1) ->
  exists hl, in_use m c (w_J w) hl L (w_Sc w1) /\ up_to_date c h hl.
Proof.
  intros HLU EF. destruct (factorise_ok _ _ _ _ _ _ HLU EF) as ((_ & H) & E & EJ & _ & _ & _ & _ & _ & _ & _ & F11). rewrite E in H. destruct H as (Hok & hl & Ehl & H). rewrite EJ in H. exists hl. split.
  - split; [exact Hok|]. unfold iteration_matrix in H. destruct (x_dae c) as [[U k]|]; apply pair_equal_spec in H; exact H.
  - destruct F11 as [(-> & F)|(F & _)].
    + unfold need_lu in F. apply orb_false_iff in F. destruct F as (F & F2). apply orb_false_iff in F. destruct F as (_ & F1). split; [|intros F3; rewrite F1 in F3; discriminate].
      intros Hl. right. rewrite Hl, Ehl in F2. cbn [andb] in F2. apply negb_false_iff in F2. exact F2.
    + assert (hl = h) by congruence. split; auto.
Qed.

Section Trial.
Variables (m : EMeth A) (c : ECfg A) (L : Law A) (s : ES A).
Hypothesis Hm : (1 <= em_stages m)%nat.
Hypothesis HL : elawful c L.
Notation err := (fun h e => exists K y', tried m c s (h * x_dir c) K y' e).
Notation nwt := (fun h r => untried m c s (h * x_dir c) r).

Definition kept (w : EWk A) : Prop := at_hand c s (w_J w) /\ (length (w_jcalls (e_w s)) <= length (w_jcalls w))%nat.
Lemma trial_kept (w : EWk A) (ha ms : num) (rej : bool) : lu_ok m c w -> lin_ok c w -> kept w ->
  match etrial m c s w ha ms rej with EtAgain w' _ _ => kept w' | _ => True end.
Proof.
  intros H1 H2 (K1 & K2). pose proof (etrial_inv m c s w ha ms rej H1 H2) as HT.
  destruct (etrial m c s w ha ms rej) as [w'|e|w' ha' rej'|w' h hn tn yn en K]; try exact I.
  destruct HT as (_ & T1 & T2 & _ & _ & HT).
  destruct HT as [((A1 & A2 & A3 & A4 & A5 & A6 & A7 & (jac & EJ & A8)) & _)|[((A1 & A2 & A3 & _) & _)|((A1 & A2 & A3 & _) & _)]].
  - split; [right; exists jac, (length (w_jcalls w)); auto|]. rewrite A4. rewrite app_length. lia.
  - split; [rewrite ?A1, ?A2, ?A3; exact K1|rewrite ?A1, ?A2, ?A3; exact K2].
  - split; [rewrite ?A1, ?A2, ?A3; exact K1|rewrite ?A1, ?A2, ?A3; exact K2].
Qed.
Lemma trial_spec (w : EWk A) (ha ms : num) (rej : bool) : lu_ok m c w -> kept w ->
  match etrial m c s w ha ms rej with
  | EtAgain w' ha' rej' =>
     (exists e, err ha e /\ (e <? n1) = false /\ try_of s w' ha' rej' = after_error L (try_of s w ha rej) e /\ w_nfs w' = S (w_nfs w) /\ w_nfi w' = w_nfi w) \/
     (exists r, w_curJ w = true /\ nwt ha r /\ try_of s w' ha' rej' = after_newton (try_of s w ha rej) r /\ w_nfs w' = w_nfs w /\ w_nfi w' = S (w_nfi w)) \/
     (exists r, w_curJ w = false /\ nwt ha r /\ try_of s w' ha' rej' = new_jacobian (try_of s w ha rej) /\ w_nfs w' = w_nfs w /\ w_nfi w' = S (w_nfi w))
  | EtAccept w' h hn tn yn en K =>
     h = ha * x_dir c /\ tn = e_t s + h /\ tried m c s h K yn en /\ (en <? n1) = true /\ w_nfs w' = w_nfs w /\ w_nfi w' = w_nfi w /\
     (let p' := ereplan L (x_tiny c) (try_of s w ha rej) h en in
      size p' = hn /\ cap p' = w_maxf w' /\ past p' = if w_std w' then None else Some (h, en))
  | _ => True
  end.
Proof.
  intros HLU HKP. destruct HL as (L1 & L2 & L3 & L4 & L5 & L6 & L7). unfold etrial. destruct (nltb A ha ms) eqn:EL; [exact I|]. cbv zeta. set (h := ha * x_dir c).
  destruct (factorise m c w h) as [[X w1]|e] eqn:EF; [|exact I].
  destruct (factorise_ok _ _ _ _ _ _ HLU EF) as (F1 & F2 & F3 & F4 & F5 & F6 & F7 & F8 & F9 & F10 & F11).
  destruct (in_use_lu m c w w1 h X HLU EF) as (hl & HU & HUp). assert (HAH : at_hand c s (w_J w)) by apply HKP.
  destruct (estages _ _ _ _ _ _ _ _ _ _ _ _) as [sr w2] eqn:ES.
  pose proof (estages_core _ _ _ _ _ _ _ _ _ _ _ _ _ _ ES) as (G1 & _).
  unfold core in G1. cbn [w_rates w_J w_curJ w_LU w_hLU w_Sc w_std w_maxf w_nfs w_nfi w_nlu w_jcalls] in G1.
  injection G1 as H1 H2 H3 H4 H5 H6 H7 H8 H9 H10 H11.
  apply (estages_spec m c (e_t s) h (e_y s) (e_yp s) X (w_Sc w1)) in ES; [|lia|reflexivity|reflexivity|constructor].
  destruct sr as [K psi z| |e]; [| |exact I].
  - destruct ES as (LK & HS).
    set (er := vscale h (lincomb (length (e_y s)) (em_E m) K)).
    match goal with |- context [match ?x with inl _ => _ | inr _ => _ end] => set (flt := x) end.
    assert (FL : forall err' w3, flt = inl (err', w3) -> core w3 = core w2 /\
       (if em_filter m then exists x, x_solve c X (mv (w_Sc w1) er) = Some x /\ err' = mv (x_M c) x else err' = er)).
    { unfold flt. intros err' w3 E. destruct (em_filter m).
      - rewrite H5 in E. fold er in E. destruct (x_solve c X (mv (w_Sc w1) er)) as [x|]; [|discriminate]. injection E as <- <-. split; [reflexivity|eauto].
      - injection E as <- <-. split; reflexivity. }
    destruct flt as [[err' w3]|e]; [|exact I]. destruct (FL _ _ eq_refl) as (I1 & I2). clear FL.
    unfold core in I1. injection I1 as K1 K2 K3 K4 K5 K6 K7 K8 K9 K10 K11.
    set (yn := vadd psi _). set (en := norm _).
    assert (HT : tried m c s h K yn en).
    { exists (w_J w), hl, X, (w_Sc w1), psi, z. do 2 eexists. split; [exact HAH|]. split; [exact HU|]. split; [exact HUp|]. split; [exact HS|]. split; [exact LK|]. split; [reflexivity|].
      exists err'. split; [exact I2|reflexivity]. }
    clearbody en yn. clear - HT L1 L2 L3 L4 L5 L6 L7 H2 K2 F4 H6 H7 H8 H9 K6 K7 K8 K9 F7 F8 F9 F10.
    unfold eassess. destruct (nltb A en n1) eqn:E1.
    + assert (EM : w_maxf w3 = w_maxf w) by congruence. assert (EStd : w_std w3 = w_std w) by congruence.
      rewrite EStd, EM, L1, L2, L3, L4, L5, L6, L7. change (@MAX_FACTOR A) with (@lit A 4).
      assert (HN : w_nfs w3 = w_nfs w /\ w_nfi w3 = w_nfi w) by (split; congruence).
      unfold ereplan, try_of, past_of, law1, law2. cbn [a_size a_cap a_again a_past]. cbv zeta.
      destruct (nltb A en (x_tiny c)) eqn:E2; [|destruct (w_std w) eqn:E3; [|destruct (e_hprev s) as [hp|] eqn:E4; [|exact I]; destruct (e_errold s) as [eo|] eqn:E5; [|exact I]]].
      * destruct rej; cbn [orb size cap past w_control w_nfs w_nfi w_std w_maxf]; rewrite ?orb_true_r; rewrite ?E2, ?E3, ?E4, ?E5, ?E6; repeat split; tauto.
      * destruct rej, (neqb A (w_maxf w) (lit 4)) eqn:E6; cbn [orb size cap past w_control w_nfs w_nfi w_std w_maxf]; rewrite ?E2, ?E3, ?E4, ?E5, ?E6; repeat split; tauto.
      * destruct rej; cbn [orb size cap past w_control w_nfs w_nfi w_std w_maxf]; rewrite ?E2, ?E3, ?E4, ?E5, ?E6; repeat split; tauto.
    + cbv zeta. apply or_introl. exists en. split; [eauto|]. split; [exact E1|]. split; [|split; cbn [w_control w_nfs w_nfi]; congruence].
      unfold try_of, after_error. cbn [w_control w_std w_maxf w_curJ a_size a_past a_cap a_again a_fresh past_of]. unfold law1. rewrite <- L1, <- L6, <- L7.
      change (@MAX_FACTOR A) with (@lit A 4). replace (w_maxf w3) with (w_maxf w) by congruence. replace (w_curJ w3) with (w_curJ w) by congruence. reflexivity.
  - destruct (negb (w_curJ (w_nfi_up w2))) eqn:EJ.
    + destruct (x_jac c) as [jac|]; [|exact I]. right. right. cbn [w_nfi_up w_curJ] in EJ. apply negb_true_iff in EJ. exists (w_rate w2). split; [congruence|].
      split; [exists (w_J w), hl, X, (w_Sc w1); auto|]. split; [|split; cbn [w_newJ w_nfi_up w_nfs w_nfi]; congruence].
      unfold try_of, new_jacobian. cbn [w_newJ w_nfi_up w_std w_maxf w_curJ a_size a_past a_cap a_again a_fresh]. f_equal; congruence.
    + right. left. cbn [w_nfi_up w_curJ] in EJ. apply negb_false_iff in EJ. exists (w_rate w2). split; [congruence|].
      split; [exists (w_J w), hl, X, (w_Sc w1); auto|]. split; [|split; cbn [w_control w_dropLU w_nfi_up w_nfs w_nfi]; congruence].
      unfold try_of, after_newton. cbn [w_control w_dropLU w_nfi_up w_std w_maxf w_curJ w_rate a_size a_past a_cap a_again a_fresh past_of]. f_equal; congruence.
Qed.
(** what the attributes say of the plan *)
Definition plan_is (p : Plan A) (s : ES A) : Prop := size p = e_habs s /\ cap p = w_maxf (e_w s) /\ past p = past_of s (w_std (e_w s)).
Definition ctl_inv (s : ES A) : Prop :=
  lu_ok m c (e_w s) /\ lin_ok c (e_w s) /\ w_curJ (e_w s) = (x_linear c || match e_hprev s with None => true | Some _ => false end).

Lemma loop_plan ms : forall fuel (w : EWk A) (ha : num) (rej : bool) (s' : ES A), lu_ok m c w -> lin_ok c w -> kept w -> eloop fuel m c s w ha ms rej = IDone s' ->
  exists ne nn a h K y' e, retried L err nwt (try_of s w ha rej) ne nn a /\ h = a_size a * x_dir c /\
    tried m c s h K y' e /\ (e <? n1) = true /\ e_t s' = e_t s + h /\ e_y s' = y' /\ e_K s' = K /\ e_yp s' = last K [] /\ e_yold s' = Some (e_y s) /\
    w_nfs (e_w s') = (w_nfs w + ne)%nat /\ w_nfi (e_w s') = (w_nfi w + nn)%nat /\ plan_is (ereplan L (x_tiny c) a h e) s' /\
    lu_ok m c (e_w s') /\ w_curJ (e_w s') = x_linear c /\ e_hprev s' = Some h.
Proof.
  induction fuel as [|k IH]; intros w ha rej s' HLU HLN HKP H; [discriminate|]. cbn [eloop] in H.
  pose proof (trial_spec w ha ms rej HLU HKP) as HT. pose proof (trial_kept w ha ms rej HLU HLN HKP) as HK. pose proof (etrial_inv m c s w ha ms rej HLU HLN) as HI.
  destruct (etrial m c s w ha ms rej) as [w'|e|w' ha' rej'|w' h hn tn yn en K]; try discriminate.
  - destruct HI as (_ & I1 & I2 & _). destruct (IH _ _ _ _ I1 I2 HK H) as (ne & nn & a & h & K & y' & e & R & Q). clear IH H.
    destruct Q as (Q1 & Q2 & Q3 & Q4 & Q5 & Q6 & Q7 & Q8 & Q9 & Q10 & Q11).
    destruct HT as [(e0 & T1 & T2 & T3 & T4 & T5)|[(r & T0 & T1 & T3 & T4 & T5)|(r & T0 & T1 & T3 & T4 & T5)]]; rewrite T3 in R.
    + exists (S ne), nn, a, h, K, y', e. split; [eapply rt_error; eassumption|]. split; [exact Q1|]. repeat (split; [assumption|]). split; [lia|]. split; [lia|]. exact Q11.
    + exists ne, (S nn), a, h, K, y', e. split; [eapply rt_newton; eassumption|]. split; [exact Q1|]. repeat (split; [assumption|]). split; [lia|]. split; [lia|]. exact Q11.
    + exists ne, (S nn), a, h, K, y', e. split; [eapply rt_jacobian; eassumption|]. split; [exact Q1|]. repeat (split; [assumption|]). split; [lia|]. split; [lia|]. exact Q11.
  - injection H as <-. destruct HT as (-> & -> & T1 & T2 & T3 & T4 & T5). cbv zeta in T5. destruct T5 as (T5 & T6 & T7).
    destruct HI as (_ & I1 & I2 & _).
    exists 0%nat, 0%nat, (try_of s w ha rej), (ha * x_dir c), K, yn, en. split; [apply rt_none|]. split; [reflexivity|]. split; [exact T1|]. split; [exact T2|].
    do 5 (split; [reflexivity|]). cbn [efinish e_w w_cur w_nfs w_nfi]. split; [lia|]. split; [lia|]. split.
    + split; [exact T5|]. split; [exact T6|]. rewrite T7. reflexivity.
    + split; [exact I1|]. split; reflexivity.
Qed.

Lemma preemptive_keeps (w w' : EWk A) (ha : num) : preemptive c s w ha = inl w' ->
  w_std w' = w_std w /\ w_maxf w' = w_maxf w /\ w_nfs w' = w_nfs w /\ w_nfi w' = w_nfi w /\ w_curJ w' = (x_jac_each c || w_curJ w).
Proof.
  intros H. unfold preemptive in H.
  destruct (x_jac_each c && negb (w_curJ w)) eqn:E.
  { destruct (x_jac c); [|discriminate]. injection H as <-. apply andb_true_iff in E. destruct E as (-> & _). repeat split. }
  assert (D : w_curJ w = x_jac_each c || w_curJ w) by (destruct (x_jac_each c), (w_curJ w); auto; discriminate).
  destruct (nltb A n0 (w_rate w)); [|injection H as <-; auto].
  destruct (e_hprev s); [|discriminate]. destruct (w_hLU w); [|discriminate].
  destruct (_ && _) in H. { destruct (x_jac c); [|discriminate]. injection H as <-. auto. }
  destruct (nltb A _ _) in H; injection H as <-; auto.
Qed.

Lemma preemptive_kept (w w' : EWk A) (ha : num) : w_curJ (e_w s) = (x_linear c || match e_hprev s with None => true | Some _ => false end) -> preemptive c s w ha = inl w' ->
  w_J w = w_J (e_w s) -> w_jcalls w = w_jcalls (e_w s) -> w_curJ w = w_curJ (e_w s) -> kept w'.
Proof.
  intros HC H E1 E2 E3. unfold preemptive in H.
  destruct (x_jac_each c && negb (w_curJ w)) eqn:E.
  { destruct (x_jac c) as [jac|] eqn:EJ; [|discriminate]. injection H as <-. split; [right; exists jac, (length (w_jcalls w)); rewrite E2; auto|]. cbn [w_newJ w_jcalls]. rewrite app_length, E2. lia. }
  assert (D : x_jac_each c = true -> x_linear c = true \/ e_hprev s = None).
  { intros F. rewrite F in E. cbn [andb] in E. apply negb_false_iff in E. rewrite E3, HC in E. apply orb_true_iff in E. destruct E as [E|E]; [auto|]. right. destruct (e_hprev s); [discriminate|reflexivity]. }
  assert (K0 : forall w0 : EWk A, w_J w0 = w_J w -> w_jcalls w0 = w_jcalls w -> kept w0).
  { intros w0 F1 F2. split; [left; split; [congruence|exact D]|]. rewrite F2, E2. lia. }
  destruct (nltb A n0 (w_rate w)); [|injection H as <-; apply K0; reflexivity].
  destruct (e_hprev s); [|discriminate]. destruct (w_hLU w); [|discriminate].
  destruct (_ && _) in H. { destruct (x_jac c) as [jac|] eqn:EJ; [|discriminate]. injection H as <-. split; [right; exists jac, (length (w_jcalls w)); rewrite E2; auto|]. cbn [w_newJ w_jcalls]. rewrite app_length, E2. lia. }
  destruct (nltb A _ _) in H; injection H as <-; apply K0; reflexivity.
Qed.

Lemma impl_eplan fuel (s' : ES A) p : plan_is p s -> ctl_inv s -> estep_impl m c fuel s = IDone s' ->
  exists p', eplanned L m c p s s' p' /\ plan_is p' s' /\ ctl_inv s'.
Proof.
  intros (P1 & P2 & P3) (I1 & I2 & I3) H. rewrite estep_start in H.
  destruct (start c s) as [[ha ms] [w|e]] eqn:ES; [|discriminate].
  assert (G : w_std w = snd (ereassess c (e_t s) (e_habs s) (w_std (e_w s))) /\ ha = fst (fst (ereassess c (e_t s) (e_habs s) (w_std (e_w s)))) /\
     w_maxf w = w_maxf (e_w s) /\ w_nfs w = w_nfs (e_w s) /\ w_nfi w = w_nfi (e_w s) /\ w_curJ w = (x_jac_each c || w_curJ (e_w s)) /\ (lu_ok m c w /\ lin_ok c w) /\ kept w).
  { unfold start in ES. destruct (ereassess _ _ _ _) as [[h0 m0] std]. cbn [fst snd]. injection ES as <- <- ES.
    pose proof (preemptive_keeps _ _ _ ES) as (K1 & K2 & K3 & K4 & K5). cbn [w_control w_std w_maxf w_nfs w_nfi w_curJ] in *. repeat (split; [assumption|]). split; [reflexivity|].
    repeat (split; [assumption|]). split; [|apply (preemptive_kept _ _ _ I3 ES); reflexivity]. clear - ES I1 I2. unfold preemptive in ES. cbn [w_control w_std w_maxf w_nfs w_nfi w_curJ w_rate w_hLU w_niter w_jcalls] in ES.
    assert (NJ : forall jac J b q, x_jac c = Some jac -> lu_ok m c (w_newJ (w_control (e_w s) std (w_maxf (e_w s)) (w_nfs (e_w s))) J b q) /\ lin_ok c (w_newJ (w_control (e_w s) std (w_maxf (e_w s)) (w_nfs (e_w s))) J b q)).
    { intros jac J b q E. split; [split; [apply I1|exact I]|]. intros F. unfold x_linear in F. rewrite E in F. discriminate F. }
    destruct (_ && _) in ES. { destruct (x_jac c) eqn:E; [|discriminate]. injection ES as <-. eapply NJ; eauto. }
    destruct (nltb A n0 _) in ES; [|injection ES as <-; split; assumption].
    destruct (e_hprev s); [|discriminate]. destruct (w_hLU _) in ES; [|discriminate].
    destruct (_ && _) in ES. { destruct (x_jac c) eqn:E; [|discriminate]. injection ES as <-. eapply NJ; eauto. }
    destruct (nltb A _ _) in ES; injection ES as <-; [|split; assumption].
    split; [split; [apply I1|exact I]|exact I2]. }
  destruct G as (G1 & G2 & G3 & G4 & G5 & G6 & (G7 & G8) & G9).
  destruct (loop_plan ms _ _ _ _ _ G7 G8 G9 H) as (ne & nn & a & h & K & y' & e & R & Q1 & Q2 & Q3 & Q4 & Q5 & Q6 & Q7 & Q8 & Q9 & Q10 & Q11 & Q12 & Q13 & Q14).
  exists (ereplan L (x_tiny c) a h e). split; [|split; [exact Q11|]].
  - exists ne, nn, a, h, K, y', e. split; [|repeat (split; [assumption|]); split; [congruence|split; [congruence|reflexivity]]].
    enough (E : efirst p (smallest (x_hmina c) (x_hminb c) (e_t s) (size p)) (x_max_step c) (nabs A (x_tb c - e_t s))
              (x_linear c || x_jac_each c || match e_hprev s with None => true | Some _ => false end) = try_of s w ha false) by (rewrite E; exact R).
    unfold efirst, try_of, past_of, smallest. rewrite G1, G2, G3, G6, I3, P1, P2, P3. unfold ereassess, past_of. cbv zeta. cbn [fst snd].
    f_equal.
    + match goal with |- (if ?b then None else _) = _ => destruct b end; reflexivity.
    + destruct (x_linear c), (x_jac_each c); reflexivity.
  - split; [exact Q12|]. split; [intros E; rewrite Q13; exact E|]. rewrite Q13, Q14, orb_false_r. reflexivity.
Qed.
End Trial.

(** ** construction *)
Lemma einit_law (m : EMeth A) o luok solve f jac M t0 y0 tb (c : ECfg A) (s : ES A) kb1 kb2 al g : esd_init m o luok solve f jac M t0 y0 tb = inl (c, s) ->
  esd_coefs (sc_or (p_sc o) (em_sc m)) = inl (kb1, kb2, al, g) ->
  let L := {| l_q := Nat.min (em_order2 m) (em_order m); l_kb1 := kb1; l_kb2 := kb2; l_a := al; l_g := g |} in
  elawful c L /\ plan_is {| size := e_habs s; past := None; cap := lit 10 |} s /\ ctl_inv m c s.
Proof.
  intros H E. unfold esd_init in H. destruct (nleb A (p_max_step o) n0); [discriminate|].
  destruct (validate_tol _ _ _ _) as [[rt at_]|]; [|discriminate]. rewrite E in H. cbv zeta in H.
  destruct (negb (esd_class_ok m)); [discriminate|].
  destruct jac as [J|j]; destruct (negb (luok _)); try discriminate; destruct (solve _ _) as [yp0|]; try discriminate;
    (match type of H with match ?x with inl _ => _ | inr _ => _ end = _ => destruct x as [h|]; [|discriminate] end);
    injection H as <- <-; (split; [repeat split|]); (split; [repeat split|]); (split; [split; [reflexivity|exact I]|]); (split; [intros _; reflexivity|]);
    cbn [e_w w_curJ e_hprev]; rewrite orb_true_r; reflexivity.
Qed.
Lemma einit_law_dae (m : EMeth A) o luok solve f jac M U nAE t0 y0 tb ics (c : ECfg A) (s : ES A) kb1 kb2 al g :
  esd_init_dae m o luok solve f jac M U nAE t0 y0 tb ics = inl (c, s) ->
  esd_coefs (sc_or (p_sc o) (em_sc m)) = inl (kb1, kb2, al, g) ->
  let L := {| l_q := Nat.min (em_order2 m) (em_order m); l_kb1 := kb1; l_kb2 := kb2; l_a := al; l_g := g |} in
  elawful c L /\ plan_is {| size := e_habs s; past := None; cap := lit 10 |} s /\ ctl_inv m c s.
Proof.
  intros H E. unfold esd_init_dae in H.
  destruct (esd_init m o _ _ f jac None t0 y0 tb) as [[c1 s1]|] eqn:E1; [|discriminate].
  destruct (einit_law _ _ _ _ _ _ _ _ _ _ _ _ _ _ _ _ E1 E) as (L1 & _ & _).
  destruct ics as [[[y1 yp1] J1] h1]. destruct (esd_first _ _ _ _ _) as [h|]; [|discriminate]. injection H as <- <-.
  split; [exact L1|]. split; [repeat split|]. split; [split; [discriminate|exact I]|]. split; [intros _; reflexivity|].
  cbn [e_w w_curJ e_hprev]. rewrite orb_true_r. reflexivity.
Qed.
End P.
