(** C22 (implicit classes): the interpolants of the ESDIRK methods. *)
From Coquelicot Require Import Coquelicot.
From Coq Require Import String ZArith Reals Lra Psatz QArith Qreals Bool Lia List Arith.
From Verif Require Import Arith Common Stiff RK HStart RKInit Ode RX RKReal RKInitReal NormReal Series OrderThm OrderCheck GOrder OrderRK OrderModel OrderIRK Tableaux Classes
  Dense DenseReal DenseStep DenseJoin DenseJoin2 Prop_Dense ESDIRK ESDCls ESDGen ESDReal ESDStep ESDTop QX Prop_ESD ESDLin ESDLin2 ESDLin3 ESDAcc ESDDense.
Import ListNotations.
Close Scope string_scope. Open Scope nat_scope. Open Scope R_scope.

(** ** specification *)
(** class, interpolation matrix, is it C1, tolerance of its digits *)
Definition esd_polynomials : list (EMeth RX * esd_interp RX * bool * Q) :=
  [(KC3I_m, IPoly (lm2 KC3I_P0), false, 0%Q); (KC3I_m, IPoly (lm2 KC3I_P1), true, 0%Q);
   (KC4I_m, IPoly (lm2 KC4I_P0), false, (1 # 10 ^ 14)%Q); (KC4I_m, IPoly (lm2 KC4I_P1), true, (1 # 10 ^ 13)%Q);
   (KC4Ia_m, IPoly (lm KC4Ia_P0), false, (1 # 10 ^ 14)%Q); (KC4Ia_m, IPoly (lm KC4Ia_P1), true, (1 # 10 ^ 13)%Q);
   (Kv3I_m, IPoly (lm Kv3I_P0), false, (1 # 10 ^ 14)%Q); (Kv3I_m, IPoly (lm Kv3I_P1), true, (1 # 10 ^ 13)%Q)].
Definition esd_piecewise : list (EMeth RX) := [TRBDF2_m; TRX2_m].

(** sum of the magnitudes of component q of the slopes *)
Definition slope_mass (ks : list (list R)) (q : nat) : R := rsum (length ks) (fun i => Rabs (nth q (nth i ks []) 0)).

(** ** proofs *)
Lemma esd_made m o f t0 tb y0 c n v k v' y : esd_after m o f t0 tb y0 c n v -> esd_step m c k v = OOk v' -> (forall msg, ostat v' <> OFailed msg) ->
  e_y (ost v) = map Fin y ->
  exists t h ks y1 cd, acc_step m (x_n c) (ost v) (ost v') y h ks y1 /\ e_t (ost v) = Fin t /\ ot_old v' = Some (Fin t) /\ e_t (ost v') = Fin (t + h) /\
    length y = x_n c /\ (0 < x_n c)%nat /\ real_tab m /\ x_dir c = Fin cd /\ 0 < cd * h.
Proof.
  intros HA HS Hst Ey. pose proof HA as (Args & s0 & HB & _). pose proof (esd_built_atol _ _ _ _ _ _ _ _ HB) as Hat.
  destruct (esd_step_cases _ _ _ _ _ _ _ _ _ _ _ HA HS) as (r & G & E1 & E2 & E3 & _ & _ & _ & LA & _ & I1 & Ah & [(D & I2 & Eo & St)|(_ & F1 & _)]); [|exfalso; exact (Hst _ F1)].
  assert (Hcd : cd r = 1 \/ cd r = -1) by (destruct G as (_ & _ & Hcd & _); exact Hcd).
  assert (Hne : tval (ost v) <> ctb r) by (rewrite E1; intros E; rewrite E in Ah; lra).
  assert (RT : real_tab m) by (apply esd_all_real, Args).
  assert (LE : length (em_E m) = em_stages m).
  { destruct Args as (Hm & _). cbn [esd_all In] in Hm. destruct Hm as [<-|[<-|[<-|[<-|[<-|[<-|[]]]]]]]; reflexivity. }
  destruct (accepted_real m c r k (ost v) (ost v') y RT LE Hat LA G I1 Hne Ey D) as (h & ks & y1 & AS).
  assert (Et : e_t (ost v) = Fin (tval (ost v))). { destruct I1 as ((x & Ex) & _). unfold tval. rewrite Ex. reflexivity. }
  exists (tval (ost v)), h, ks, y1, (cd r). split; [exact AS|]. split; [exact Et|]. split; [rewrite <- Et; exact Eo|]. split; [exact (as_t _ _ _ _ _ _ _ _ AS)|].
  assert (Ly : length y = x_n c). { destruct I1 as (_ & _ & I3 & _). rewrite Ey, map_length in I3. exact I3. }
  split; [exact Ly|]. split; [destruct LA as (_ & Hn & _); exact Hn|]. split; [exact RT|].
  split; [destruct G as (_ & Ed & _); exact Ed|].
  assert (Ah2 : ahead eview (ctb r) (cd r) (ost v)) by (unfold ahead; rewrite tv_eview, E1; exact Ah).
  destruct (estep_adv m c r k _ _ LA G I1 Ah2 D) as (_ & (A1 & _) & _).
  assert (T' : tval (ost v') = tval (ost v) + h) by (unfold tval at 1; rewrite (as_t _ _ _ _ _ _ _ _ AS); reflexivity). rewrite T' in A1.
  replace (tval (ost v) + h - tval (ost v)) with h in A1 by ring. eapply Rlt_le_trans; [|exact A1]. rewrite E3. apply sqrt_lt_R0. apply Rinv_0_lt_compat, pow_lt. lra.
Qed.

(** entering the implementation *)
Lemma esd_dense_enter m ip dir v' t h y1 n : ot_old v' = Some (Fin t) -> e_t (ost v') = Fin (t + h) -> h <> 0 -> e_y (ost v') = map Fin y1 -> length y1 = n -> (0 < n)%nat ->
  esd_dense_output m ip dir v' =
  match ip with
  | IPoly P => match esd_dense_P P (Fin t : num RX) (ost v') with Some d => inl (EDPoly d) | None => inr (AttributeError "y_old") end
  | IPiecewise => match esd_dense_hs m dir (Fin t : num RX) (ost v') with Some d => inl (EDPiece d) | None => inr (AttributeError "y_old") end
  end.
Proof.
  intros E1 E2 Hh E3 L Hn. unfold esd_dense_output. rewrite E1, E2, E3, map_length, L. replace (Nat.eqb n 0) with false by (symmetry; apply Nat.eqb_neq; lia).
  cbn [orb neqb RX]. assert (EQ : xeqb (Fin (t + h)) (Fin t) = false) by (cbn [xeqb]; unfold Reqb; destruct (Req_EM_T (t + h) t); [lra|reflexivity]). rewrite EQ. reflexivity.
Qed.

(** the checked facts of each class *)
Definition esd_poly_fact (m : EMeth RX) (ip : esd_interp RX) (c1 : bool) (e : Q) : Prop :=
  exists T P, of_qtab m T /\ ip = IPoly (pmat P) /\ esd_join_ok c1 e (qs T) (qB T) P = true.
Lemma lm2_pmat P : @lm2 RX P = pmat P. Proof. exact (lm2_RX P). Qed.
Lemma lm_pmat P : @lm RX P = pmat (map (map up) P). Proof. exact (lm_up P). Qed.
Lemma esd_poly_facts m ip c1 e : In (m, ip, c1, e) esd_polynomials -> esd_poly_fact m ip c1 e.
Proof.
  intros H. unfold esd_polynomials in H. cbn [In] in H.
  repeat (destruct H as [E|H]; [apply pair_equal_spec in E; destruct E as [E <-]; apply pair_equal_spec in E; destruct E as [E <-]; apply pair_equal_spec in E; destruct E as [<- <-];
    first [ eexists _, _; split; [exact of_KC3I|split; [rewrite lm2_pmat; reflexivity|vm_compute; reflexivity]]
          | eexists _, _; split; [exact of_KC4I|split; [rewrite lm2_pmat; reflexivity|vm_compute; reflexivity]]
          | eexists _, _; split; [exact of_KC4Ia|split; [rewrite lm_pmat; reflexivity|vm_compute; reflexivity]]
          | eexists _, _; split; [exact of_Kv3I|split; [rewrite lm_pmat; reflexivity|vm_compute; reflexivity]] ]|]).
  destruct H.
Qed.

(** ** C22, polynomial interpolants *)
Theorem C22_esdirk_polynomial m ip c1 e o f t0 tb y0 c n v k v' y : In (m, ip, c1, e) esd_polynomials ->
  esd_after m o f t0 tb y0 c n v -> esd_step m c k v = OOk v' -> (forall msg, ostat v' <> OFailed msg) -> e_y (ost v) = map Fin y ->
  exists D t t1 y1 ks k0 k1 r, esd_dense_output m ip (x_dir c) v' = inl D /\
    e_t (ost v) = Fin t /\ e_t (ost v') = Fin t1 /\ t1 <> t /\ e_y (ost v') = map Fin y1 /\ e_K (ost v') = map (map Fin) ks /\
    e_yp (ost v) = map Fin k0 /\ e_yp (ost v') = map Fin k1 /\
    (forall x, esd_call D (Fin x) = map Fin (r x) /\ length (r x) = length y0) /\ r t = y /\
    forall q, (q < length y0)%nat ->
      Rabs (nth q (r t1) 0 - nth q y1 0) <= Rabs (t1 - t) * (Q2R e * slope_mass ks q) /\
      (c1 = true -> derivable_pt_lim (fun x => nth q (r x) 0) t (nth q k0 0) /\
         exists l, derivable_pt_lim (fun x => nth q (r x) 0) t1 l /\ Rabs (l - nth q k1 0) <= Q2R e * slope_mass ks q).
Proof.
  intros Hin HA HS Hst Ey. destruct (esd_poly_facts _ _ _ _ Hin) as (T & P & HT & -> & HJ).
  destruct (esd_made _ _ _ _ _ _ _ _ _ _ _ _ HA HS Hst Ey) as (t & h & ks & y1 & cd & AS & Et & Eo & Et1 & Ly & Hn & RT & _ & _).
  assert (En : x_n c = length y0) by (destruct (esd_after_inv _ _ _ _ _ _ _ _ _ HA) as (r & s0 & _ & _ & _ & _ & _ & _ & En & _); exact En).
  destruct AS as [Hh A2 A3 A4 A5 A6 A7 A8 A9 A10 A11 A12]. rewrite <- En. set (d := x_n c) in *.
  rewrite (esd_dense_enter m (IPoly (pmat P)) (x_dir c) v' t h y1 d Eo Et1 Hh A10 A11 Hn). unfold esd_dense_P. rewrite A4, A5, Et1, map_length, Ly.
  pose proof HT as (ES & _). destruct (esd_join_spec _ _ _ _ _ HJ) as (HP & Hs & HF). rewrite <- ES in *. set (s := em_stages m) in *.
  assert (T1 : (t + h - t) / h = 1) by (field; auto). assert (T0 : (t - t) / h = 0) by (field; auto).
  eexists _, t, (t + h), y1, ks, (nth 0 ks []), (nth (s - 1) ks []), (fun x => ind d (esd_poly_val s P y ks t h x)).
  split; [reflexivity|]. split; [exact Et|]. split; [first [exact Et1|reflexivity]|]. split; [lra|]. split; [exact A10|]. split; [first [exact A5|reflexivity]|]. split; [exact A8|]. split; [exact A9|].
  split; [|split].
  - intros x. split; [|apply ind_len]. cbn [esd_call]. rewrite <- A6. apply call_poly; assumption.
  - apply nth_eq_list; [rewrite ind_len; auto|]. intros q Hq. rewrite ind_len in Hq. rewrite ind_nth by auto. unfold esd_poly_val, wval. rewrite T0. rewrite rsum_zero; [ring|].
    intros i Hi. destruct (HF i Hi) as (-> & _). ring.
  - intros q Hq. unfold slope_mass. rewrite A6. split.
    + rewrite ind_nth by exact Hq. rewrite (A12 q Hq). unfold esd_poly_val, wval. rewrite T1.
      replace (nth q y 0 + h * rsum s (fun i => pwt P 1 i * nth q (nth i ks []) 0) - (nth q y 0 + h * rsum s (fun i => rB m i * nth q (nth i ks []) 0)))
        with (h * (rsum s (fun i => (pwt P 1 i - rB m i) * nth q (nth i ks []) 0))).
      2:{ rewrite (rsum_ext s (fun i => (pwt P 1 i - rB m i) * _) (fun i => pwt P 1 i * nth q (nth i ks []) 0 + (-1) * (rB m i * nth q (nth i ks []) 0))) by (intros; ring).
          rewrite rsum_plus, rsum_scal. ring. }
      rewrite Rabs_mult. replace (t + h - t) with h by ring. apply Rmult_le_compat_l; [apply Rabs_pos|]. rewrite <- rsum_scal. apply rsum_abs_le. intros i Hi.
      rewrite Rabs_mult. apply Rmult_le_compat_r; [apply Rabs_pos|]. rewrite (rB_q m T i HT). apply (HF i Hi).
    + intros ->.
      assert (HD : forall th, derivable_pt_lim (fun x => nth q (ind d (esd_poly_val s P y ks t h x)) 0) (t + th * h) (rsum s (fun i => dpwt P th i * nth q (nth i ks []) 0))).
      { intros th. eapply derivable_pt_lim_ext; [|apply (wval_lim s (pwt P) (dpwt P th) (fun q => nth q y 0) (fun i q => nth q (nth i ks []) 0) t h th q Hh); intros i _; apply dlim_pwt].
        intros x. cbn beta. rewrite ind_nth by exact Hq. reflexivity. }
      split.
      * pose proof (HD 0) as H0. replace (t + 0 * h) with t in H0 by ring. rewrite (rsum_ext s _ (fun i => delta 0 i * nth q (nth i ks []) 0)) in H0.
        -- rewrite (DenseJoin.rsum_delta s 0 (fun i => nth q (nth i ks []) 0)) in H0 by lia. exact H0.
        -- intros i Hi. destruct (HF i Hi) as (_ & _ & H3). rewrite (proj1 (H3 eq_refl)). reflexivity.
      * pose proof (HD 1) as H1. replace (t + 1 * h) with (t + h) in H1 by ring. eexists. split; [exact H1|].
        rewrite <- (DenseJoin.rsum_delta s (s - 1) (fun i => nth q (nth i ks []) 0)) by lia.
        replace (rsum s (fun i => dpwt P 1 i * nth q (nth i ks []) 0) - rsum s (fun i => delta (s - 1) i * nth q (nth i ks []) 0))
          with (rsum s (fun i => (dpwt P 1 i - delta (s - 1) i) * nth q (nth i ks []) 0)).
        2:{ rewrite (rsum_ext s (fun i => (dpwt P 1 i - delta (s - 1) i) * _) (fun i => dpwt P 1 i * nth q (nth i ks []) 0 + (-1) * (delta (s - 1) i * nth q (nth i ks []) 0))) by (intros; ring).
            rewrite rsum_plus, rsum_scal. ring. }
        rewrite <- rsum_scal. apply rsum_abs_le. intros i Hi. rewrite Rabs_mult. apply Rmult_le_compat_r; [apply Rabs_pos|].
        destruct (HF i Hi) as (_ & _ & H3). exact (proj2 (H3 eq_refl)).
Qed.

(** the argument interpolant selects among these polynomials: "C0" any, "C1" one with a continuous
    derivative, anything else is refused *)
Theorem C22_esdirk_choice m P0 P1 : In (m, P0, P1) kc_classes ->
  (exists P e, kc_interp P0 P1 "C0" = inl P /\ In (m, IPoly P, false, e) esd_polynomials) /\
  (exists P e, kc_interp P0 P1 "C1" = inl P /\ In (m, IPoly P, true, e) esd_polynomials) /\
  (forall arg, arg <> "C0"%string -> arg <> "C1"%string -> kc_interp P0 P1 arg = inr (ValueError "Unknown interpolant")).
Proof.
  intros H. split; [|split].
  - cbn [kc_classes In] in H. destruct H as [H|[H|[H|[H|[]]]]]; apply pair_equal_spec in H; destruct H as (H & <-); apply pair_equal_spec in H; destruct H as (<- & <-);
      eexists _, _; (split; [reflexivity|]); unfold esd_polynomials;
      [apply in_eq|apply in_cons, in_cons, in_eq|do 4 apply in_cons; apply in_eq|do 6 apply in_cons; apply in_eq].
  - cbn [kc_classes In] in H. destruct H as [H|[H|[H|[H|[]]]]]; apply pair_equal_spec in H; destruct H as (H & <-); apply pair_equal_spec in H; destruct H as (<- & <-);
      eexists _, _; (split; [reflexivity|]); unfold esd_polynomials;
      [do 1 apply in_cons; apply in_eq|do 3 apply in_cons; apply in_eq|do 5 apply in_cons; apply in_eq|do 7 apply in_cons; apply in_eq].
  - intros arg H0 H1. unfold kc_interp. apply String.eqb_neq in H0, H1. rewrite H0, H1. reflexivity.
Qed.

(** ** C22, piecewise cubic interpolants of TRBDF2 and TRX2 *)
Lemma hs_tab m : In m esd_piecewise -> em_stages m = 3%nat /\ (exists c1, nth 1 (em_C m) (Fin 0) = Fin c1 /\ 0 < c1 < 1 /\ c1 = rC m 1) /\ (exists a, nth 1 (em_A m) [] = map Fin a /\ length a = 3%nat /\ forall i, nth i a 0 = rA m 1 i).
Proof.
  intros H. assert (exists T, of_qtab m T /\ qs T = 3%nat /\ length (nth 1 (qA T) []) = 3%nat /\ 0 < q2v (nth 1 (qC T) p0) < 1).
  { destruct H as [<-|[<-|[]]].
    - exists TRBDF2_q. split; [exact of_TRBDF2|]. split; [reflexivity|]. split; [reflexivity|]. vm_compute nth. unfold q2v. cbn [fst snd]. unfold Q2R. cbn [Qnum Qden].
      assert (S2 : 1 < sqrt 2 < 2). { split; [rewrite <- sqrt_1 at 1; apply sqrt_lt_1; lra|]. rewrite <- (sqrt_square 2) at 2 by lra. apply sqrt_lt_1; lra. } lra.
    - exists TRX2_q. split; [exact of_TRX2|]. split; [reflexivity|]. split; [reflexivity|]. vm_compute nth. unfold q2v. cbn [fst snd]. unfold Q2R. cbn [Qnum Qden]. lra. }
  destruct H0 as (T & HT & H3 & HL & HC). pose proof HT as (E1 & E2 & E3 & _). split; [congruence|]. split.
  - exists (q2v (nth 1 (qC T) p0)). split; [|split; [exact HC|symmetry; apply rC_q; exact HT]]. rewrite E3. rewrite (nth_indep _ _ (Fin (q2v p0))).
    + rewrite map_map. apply (map_nth (fun x => Fin (q2v x))).
    + rewrite !map_length. destruct (le_lt_dec (length (qC T)) 1) as [L|L]; [|exact L]. rewrite nth_overflow, q2v_0 in HC by exact L. lra.
  - exists (map q2v (nth 1 (qA T) [])). split; [|split].
    + rewrite E2. refine (eq_trans (map_nth (map Fin) (map (map q2v) (qA T)) [] 1) _). f_equal. exact (map_nth (map q2v) (qA T) [] 1).
    + rewrite map_length. exact HL.
    + intros i. rewrite (rA_q m T) by exact HT. unfold qent. rewrite <- q2v_0. apply map_nth.
Qed.

Theorem C22_esdirk_piecewise m o f t0 tb y0 c n v k v' y : In m esd_piecewise ->
  esd_after m o f t0 tb y0 c n v -> esd_step m c k v = OOk v' -> (forall msg, ostat v' <> OFailed msg) -> e_y (ost v) = map Fin y ->
  exists D t t1 tm y1 k0 km k1 r r', esd_dense_output m IPiecewise (x_dir c) v' = inl D /\
    e_t (ost v) = Fin t /\ e_t (ost v') = Fin t1 /\ t1 <> t /\ e_y (ost v') = map Fin y1 /\
    e_yp (ost v) = map Fin k0 /\ e_yp (ost v') = map Fin k1 /\ e_K (ost v') = [map Fin k0; map Fin km; map Fin k1] /\
    tm = t + rC m 1 * (t1 - t) /\ (t < tm < t1 \/ t1 < tm < t) /\
    (forall x, esd_call D (Fin x) = map Fin (r x) /\ length (r x) = length y0) /\ r t = y /\ r t1 = y1 /\
    (forall q, (q < length y0)%nat -> nth q (r tm) 0 = nth q y 0 + (t1 - t) * (rA m 1 0 * nth q k0 0 + rA m 1 1 * nth q km 0)) /\
    (forall q x, (q < length y0)%nat -> derivable_pt_lim (fun x => nth q (r x) 0) x (r' q x) /\ continuity_pt (r' q) x) /\
    forall q, (q < length y0)%nat -> r' q t = nth q k0 0 /\ r' q tm = nth q km 0 /\ r' q t1 = nth q k1 0.
Proof.
  intros Hin HA HS Hst Ey. destruct (hs_tab m Hin) as (E3 & (c1 & EC & Hc & ->) & a & EA & La & Na).
  destruct (esd_made _ _ _ _ _ _ _ _ _ _ _ _ HA HS Hst Ey) as (t & h & ks & y1 & cd & AS & Et & Eo & Et1 & Ly & Hn & RT & Ed & Hd).
  assert (En : x_n c = length y0) by (destruct (esd_after_inv _ _ _ _ _ _ _ _ _ HA) as (r & s0 & _ & _ & _ & _ & _ & _ & En & _); exact En).
  destruct AS as [Hh A2 A3 A4 A5 A6 A7 A8 A9 A10 A11 A12]. rewrite <- En. set (d := x_n c) in *. rewrite E3 in *.
  destruct ks as [|k0 [|km [|k1 [|]]]]; try discriminate A6. cbn [nth Nat.sub] in A8, A9.
  pose proof (Forall_inv A7) as L0. pose proof (Forall_inv (Forall_inv_tail A7)) as Lm. pose proof (Forall_inv (Forall_inv_tail (Forall_inv_tail A7))) as L1. cbn beta in L0, Lm, L1.
  rewrite (esd_dense_enter m IPiecewise (x_dir c) v' t h y1 d Eo Et1 Hh A10 A11 Hn).
  pose proof (reals_add d _ _ _ _ (reals_intro d y Ly) (reals_scale d h _ _ (lincomb_reals d a (map (map Fin) [k0; km; k1]) _ (realsK_fin d [k0; km; k1] A7)))) as (ym & Em & Lym & Nm).
  set (tm := t + rC m 1 * h). set (T := t + h) in *.
  assert (EH : esd_dense_hs m (x_dir c) (Fin t : num RX) (ost v') = Some (if Rlt_dec 0 cd
    then {| hs_mid := Fin tm : num RX; hs_lo := mk_cubic (Fin t) (Fin tm) (map Fin y) (map Fin ym) (map Fin k0) (map Fin km); hs_hi := mk_cubic (Fin tm) (Fin T) (map Fin ym) (map Fin y1) (map Fin km) (map Fin k1) |}
    else {| hs_mid := Fin tm : num RX; hs_lo := mk_cubic (Fin T) (Fin tm) (map Fin y1) (map Fin ym) (map Fin k1) (map Fin km); hs_hi := mk_cubic (Fin tm) (Fin t) (map Fin ym) (map Fin y) (map Fin km) (map Fin k0) |})).
  { unfold esd_dense_hs. rewrite A4, A2, A5. cbn [map]. rewrite Et1, A10, map_length, Ly, Ed. change (num RX) with xr in *. change (map (map Fin) [k0; km; k1]) with [map Fin k0; map Fin km; map Fin k1] in Em.
    rewrite EA. change (@n0 RX) with (Fin (Q2R 0)). rewrite RMicromega.Q2R_0, EC. rewrite Em. change (nadd RX (Fin t) (nmul RX (Fin (rC m 1)) (Fin h))) with (Fin tm).
    cbn [nltb RX xltb]. unfold Rltb. destruct (Rlt_dec 0 cd); reflexivity. }
  rewrite EH. clear EH Em.
  assert (Nm' : forall q, (q < d)%nat -> nth q ym 0 = nth q y 0 + h * (rA m 1 0 * nth q k0 0 + rA m 1 1 * nth q km 0)).
  { intros q Hq. rewrite Nm by exact Hq. cbn [map length rsum nth]. rewrite !Na. rewrite (rt_low m RT 1 2) by lia. ring. }
  assert (TT : (0 < cd /\ t < tm < T) \/ (cd < 0 /\ T < tm < t)).
  { unfold tm, T. assert (P : 0 < h \/ h < 0) by lra. destruct P as [P|P].
    - apply or_introl. split; [|nra]. destruct (Rlt_dec 0 cd); [assumption|]. exfalso. nra.
    - apply or_intror. split; [|nra]. destruct (Rlt_dec cd 0); [assumption|]. exfalso. nra. }
  destruct TT as [(P & HO)|(P & HO)].
  - destruct (Rlt_dec 0 cd); [|lra].
    eexists _, t, T, tm, y1, k0, km, k1, (fun x => ind d (fun q => hs_val t tm T (nth q y 0) (nth q k0 0) (nth q ym 0) (nth q km 0) (nth q y1 0) (nth q k1 0) x)),
      (fun q => hs_slope t tm T (nth q y 0) (nth q k0 0) (nth q ym 0) (nth q km 0) (nth q y1 0) (nth q k1 0)).
    split; [reflexivity|]. split; [exact Et|]. split; [first [exact Et1|reflexivity]|]. split; [unfold T; lra|]. split; [exact A10|]. split; [exact A8|]. split; [exact A9|]. split; [exact A5|].
    split; [unfold tm, T; ring|]. split; [apply or_introl; exact HO|].
    assert (HF := fun q => hs_facts t tm T (nth q y 0) (nth q k0 0) (nth q ym 0) (nth q km 0) (nth q y1 0) (nth q k1 0) HO).
    split; [intros x; split; [cbn [esd_call]; apply call_hs; assumption|apply ind_len]|].
    split; [apply nth_eq_list; [rewrite ind_len; auto|]; intros q Hq; rewrite ind_len in Hq; rewrite ind_nth by exact Hq; apply (HF q)|].
    split; [apply nth_eq_list; [rewrite ind_len; auto|]; intros q Hq; rewrite ind_len in Hq; rewrite ind_nth by exact Hq; apply (HF q)|].
    split; [intros q Hq; rewrite ind_nth by exact Hq; replace (T - t) with h by (unfold T; ring); rewrite <- (Nm' q Hq); apply (HF q)|].
    split.
    + intros q x Hq. split; [|apply (HF q)]. eapply derivable_pt_lim_ext; [|apply (HF q)]. intros z. cbn beta. rewrite ind_nth by exact Hq. reflexivity.
    + intros q Hq. repeat split; apply (HF q).
  - destruct (Rlt_dec 0 cd); [lra|].
    eexists _, t, T, tm, y1, k0, km, k1, (fun x => ind d (fun q => hs_val T tm t (nth q y1 0) (nth q k1 0) (nth q ym 0) (nth q km 0) (nth q y 0) (nth q k0 0) x)),
      (fun q => hs_slope T tm t (nth q y1 0) (nth q k1 0) (nth q ym 0) (nth q km 0) (nth q y 0) (nth q k0 0)).
    split; [reflexivity|]. split; [exact Et|]. split; [first [exact Et1|reflexivity]|]. split; [unfold T; lra|]. split; [exact A10|]. split; [exact A8|]. split; [exact A9|]. split; [exact A5|].
    split; [unfold tm, T; ring|]. split; [apply or_intror; exact HO|].
    assert (HF := fun q => hs_facts T tm t (nth q y1 0) (nth q k1 0) (nth q ym 0) (nth q km 0) (nth q y 0) (nth q k0 0) HO).
    split; [intros x; split; [cbn [esd_call]; apply call_hs; assumption|apply ind_len]|].
    split; [apply nth_eq_list; [rewrite ind_len; auto|]; intros q Hq; rewrite ind_len in Hq; rewrite ind_nth by exact Hq; apply (HF q)|].
    split; [apply nth_eq_list; [rewrite ind_len; auto|]; intros q Hq; rewrite ind_len in Hq; rewrite ind_nth by exact Hq; apply (HF q)|].
    split; [intros q Hq; rewrite ind_nth by exact Hq; replace (T - t) with h by (unfold T; ring); rewrite <- (Nm' q Hq); apply (HF q)|].
    split.
    + intros q x Hq. split; [|apply (HF q)]. eapply derivable_pt_lim_ext; [|apply (HF q)]. intros z. cbn beta. rewrite ind_nth by exact Hq. reflexivity.
    + intros q Hq. repeat split; apply (HF q).
Qed.

(** ** consecutive pieces *)
(** TRBDF2 and TRX2: over two consecutive steps the two interpolants have the same value and
    the same slope at the common point *)
Theorem C22_esdirk_consecutive m o f t0 tb y0 c n v k v1 k' v2 y : In m esd_piecewise ->
  esd_after m o f t0 tb y0 c n v -> esd_step m c k v = OOk v1 -> (forall msg, ostat v1 <> OFailed msg) ->
  esd_step m c k' v1 = OOk v2 -> (forall msg, ostat v2 <> OFailed msg) -> e_y (ost v) = map Fin y ->
  exists D1 D2 t1 r1 r2, esd_dense_output m IPiecewise (x_dir c) v1 = inl D1 /\ esd_dense_output m IPiecewise (x_dir c) v2 = inl D2 /\
    e_t (ost v1) = Fin t1 /\ (forall x, esd_call D1 (Fin x) = map Fin (r1 x)) /\ (forall x, esd_call D2 (Fin x) = map Fin (r2 x)) /\
    r1 t1 = r2 t1 /\ forall q, (q < length y0)%nat -> exists l, derivable_pt_lim (fun x => nth q (r1 x) 0) t1 l /\ derivable_pt_lim (fun x => nth q (r2 x) 0) t1 l.
Proof.
  intros Hin HA S1 F1 S2 F2 Ey.
  destruct (C22_esdirk_piecewise _ _ _ _ _ _ _ _ _ _ _ _ Hin HA S1 F1 Ey) as (D1 & t & t1 & tm & y1 & k0 & km & k1 & r1 & r1' & X1 & X2 & X3 & X4 & X5 & X6 & X7 & X8 & X9 & X10 & X11 & X12 & X13 & X14 & X15 & X16).
  assert (HA1 : esd_after m o f t0 tb y0 c (S n) v1).
  { destruct HA as (Ar & s & HB & HH). split; [exact Ar|]. exists s. split; [exact HB|]. exact (ohS eview (x_tb c) (x_dir c) (esd_impl m c) _ _ _ _ k HH S1). }
  destruct (C22_esdirk_piecewise _ _ _ _ _ _ _ _ _ _ _ _ Hin HA1 S2 F2 X5) as (D2 & u & u1 & um & z1 & j0 & jm & j1 & r2 & r2' & Y1 & Y2 & Y3 & Y4 & Y5 & Y6 & Y7 & Y8 & Y9 & Y10 & Y11 & Y12 & Y13 & Y14 & Y15 & Y16).
  assert (u = t1) by (rewrite X3 in Y2; injection Y2; auto). subst u.
  exists D1, D2, t1, r1, r2. split; [exact X1|]. split; [exact Y1|]. split; [exact X3|]. split; [intros x; apply X11|]. split; [intros x; apply Y11|].
  split; [congruence|]. intros q Hq. exists (nth q k1 0). destruct (X16 q Hq) as (_ & _ & Z1). destruct (Y16 q Hq) as (Z2 & _).
  split; [rewrite <- Z1; apply (X15 q t1 Hq)|]. assert (EK : j0 = k1) by (rewrite Y6 in X7; exact (map_inj_fin _ _ X7)). rewrite <- EK, <- Z2. apply (Y15 q t1 Hq).
Qed.
(** dense_output before the first step *)
Theorem C22_esdirk_before_first_step m ip o f t0 tb y0 c v : esd_after m o f t0 tb y0 c 0 v ->
  exists msg, esd_dense_output m ip (x_dir c) v = inr (RuntimeError msg).
Proof. intros (_ & s & _ & HH). inversion HH. eexists. reflexivity. Qed.

(** ** concrete cases (executable arithmetic) *)
(** y' = -y: two steps of TRX2 and of Kv3I are made, dense_output succeeds, reproduces the step's end
    points to 1e-12 and lies strictly between them halfway *)
Definition near12 (a b : num QX) : bool := nltb QX (nabs QX (nsub QX a b)) (QF (1 # 10 ^ 12)).
Definition near_vec (u v : list (num QX)) : bool := Nat.eqb (length u) (length v) && forallb (fun p => near12 (fst p) (snd p)) (combine u v).
Definition dense_case (m : EMeth QX) (ip : esd_interp QX) : bool :=
  match returned (erun m (eo QPInf (QF (1#1000)) (QF (1#1000)) (Some (QF (1#10)))) decay (@JacConst QX [[QF (-1)]]) (QF 0) [QF 1] (QF 1) 2) with
  | Some v =>
    match esd_dense_output m ip (QF 1) v, ot_old v, e_yold (ost v) with
    | inl D, Some a, Some ya => 
      let mid := nmul QX (QF (1#2)) (nadd QX a (e_t (ost v))) in
      near_vec (esd_call D a) ya && near_vec (esd_call D (e_t (ost v))) (e_y (ost v)) &&
      match esd_call D mid, ya, e_y (ost v) with [z], [p], [q] => nltb QX z p && nltb QX q z | _, _, _ => false end
    | _, _, _ => false
    end
  | None => false
  end.
Example C22_esdirk_case : dense_case TRX2_m IPiecewise && dense_case Kv3I_m (IPoly (lm Kv3I_P1)) = true.
Proof. vm_compute. reflexivity. Qed.
