(** C21 (implicit classes): accuracy of the ESDIRK interpolants between the ends of a step. *)
From Coq Require Import String Reals Lra Psatz QArith Qreals Bool Lia List Arith FunctionalExtensionality.
From Verif Require Import Arith Common Stiff RK HStart RKInit RX Tableaux Classes Ode RKReal RKInitReal Series Trees OrderThm OrderCheck OrderRK OrderModel GOrder GDense Balls BallTab OrderIRK GDenseCheck
  Dense DenseReal DenseStep DenseJoin DenseJoin2 Prop_Dense RKSpecProofs ESDIRK ESDCls ESDGen ESDReal ESDStep ESDInv ESDTop Prop_ESD ESDLin ESDLin2 ESDLin3 ESDLin4 Prop_ESDLin OrderIRKTab Prop_IRK ESDAcc ESDDense Prop_ESDDense IRKDense Smooth.
Import ListNotations.
Close Scope string_scope. Open Scope nat_scope. Open Scope R_scope.

(** ** specification *)
(** class, interpolation matrix, order of the interpolant, residual of its order conditions *)
Definition esd_dense_orders : list (EMeth RX * esd_interp RX * nat * Q) :=
  [(KC3I_m, IPoly (lm2 KC3I_P0), 3%nat, 0%Q); (KC3I_m, IPoly (lm2 KC3I_P1), 3%nat, 0%Q);
   (KC4I_m, IPoly (lm2 KC4I_P0), 4%nat, (4 # 10 ^ 15)%Q); (KC4I_m, IPoly (lm2 KC4I_P1), 4%nat, (4 # 10 ^ 13)%Q);
   (KC4Ia_m, IPoly (lm KC4Ia_P0), 4%nat, (4 # 10 ^ 13)%Q); (KC4Ia_m, IPoly (lm KC4Ia_P1), 4%nat, (4 # 10 ^ 14)%Q);
   (Kv3I_m, IPoly (lm Kv3I_P0), 3%nat, (3 # 10 ^ 14)%Q); (Kv3I_m, IPoly (lm Kv3I_P1), 3%nat, (4 # 10 ^ 13)%Q);
   (TRBDF2_m, IPiecewise, 2%nat, 0%Q); (TRX2_m, IPiecewise, 2%nat, 0%Q)].

(** ** the piecewise cubic interpolants as weights *)
(** weights of the slopes at the fraction th of the step: cubic Hermite interpolation of
    (0, 0), (c1, a1.k) and (1, b.k) with the slopes k0, k1, k2 *)
Definition hs_w (c1 : R) (a b : nat -> R) (th : R) (i : nat) : R :=
  if Rlt_dec th c1
  then let u := th / c1 in u * u * (3 - 2 * u) * a i + c1 * (u * (1 - u) * (1 - u)) * delta 0 i + c1 * (u * u * (u - 1)) * delta 1 i
  else let v := (th - c1) / (1 - c1) in (1 - v * v * (3 - 2 * v)) * a i + v * v * (3 - 2 * v) * b i
    + (1 - c1) * (v * (1 - v) * (1 - v)) * delta 1 i + (1 - c1) * (v * v * (v - 1)) * delta 2 i.
Lemma cubic_u t0 h y0 f0 y1 f1 u : h <> 0 -> cubic t0 h y0 f0 y1 f1 (t0 + u * h) = y0 + u * u * (3 - 2 * u) * (y1 - y0) + h * (u * (1 - u) * (1 - u) * f0 + u * u * (u - 1) * f1).
Proof. intros Hh. unfold cubic. field. exact Hh. Qed.
Lemma cubic_rev t0 h y0 f0 y1 f1 x : h <> 0 -> cubic (t0 + h) (- h) y1 f1 y0 f0 x = cubic t0 h y0 f0 y1 f1 x.
Proof. intros Hh. unfold cubic. field. exact Hh. Qed.
Lemma wsum3 (w : nat -> R) k0 km k1 : rsum 3 (fun i => w i * nth i [k0; km; k1] 0) = w 0%nat * k0 + w 1%nat * km + w 2%nat * k1.
Proof. cbn [rsum nth]. ring. Qed.
Lemma hs_pieces c1 a b th h y k0 km k1 t ym y1 : 0 < c1 < 1 -> h <> 0 -> a 2%nat = 0 ->
  ym = y + h * (a 0%nat * k0 + a 1%nat * km) -> y1 = y + h * (b 0%nat * k0 + b 1%nat * km + b 2%nat * k1) ->
  (if Rlt_dec th c1 then cubic t (c1 * h) y k0 ym km (t + th * h) else cubic (t + c1 * h) ((1 - c1) * h) ym km y1 k1 (t + th * h)) =
  y + h * rsum 3 (fun i => hs_w c1 a b th i * nth i [k0; km; k1] 0).
Proof.
  intros Hc Hh Ha -> ->. rewrite (wsum3 (hs_w c1 a b th)). unfold hs_w. destruct (Rlt_dec th c1); cbv zeta; unfold delta; cbn [Nat.eqb]; rewrite Ha.
  - replace (t + th * h) with (t + th / c1 * (c1 * h)) by (field; lra). rewrite cubic_u by (apply Rmult_integral_contrapositive; lra). ring.
  - replace (t + th * h) with (t + c1 * h + (th - c1) / (1 - c1) * ((1 - c1) * h)) by (field; lra). rewrite cubic_u by (apply Rmult_integral_contrapositive; lra). ring.
Qed.
Lemma hs_fwd c1 a b th h y k0 km k1 t ym y1 : 0 < c1 < 1 -> 0 < h -> a 2%nat = 0 ->
  ym = y + h * (a 0%nat * k0 + a 1%nat * km) -> y1 = y + h * (b 0%nat * k0 + b 1%nat * km + b 2%nat * k1) ->
  hs_val t (t + c1 * h) (t + h) y k0 ym km y1 k1 (t + th * h) = y + h * rsum 3 (fun i => hs_w c1 a b th i * nth i [k0; km; k1] 0).
Proof.
  intros Hc Hh Ha E1 E2. rewrite <- (hs_pieces c1 a b th h y k0 km k1 t ym y1 Hc) by (first [assumption|lra]). unfold hs_val, glue.
  replace (t + c1 * h - t) with (c1 * h) by ring. replace (t + h - (t + c1 * h)) with ((1 - c1) * h) by ring.
  destruct (Rlt_dec (t + th * h) (t + c1 * h)), (Rlt_dec th c1); try reflexivity; exfalso; nra.
Qed.
Lemma hs_bwd c1 a b th h y k0 km k1 t ym y1 : 0 < c1 < 1 -> h < 0 -> a 2%nat = 0 ->
  ym = y + h * (a 0%nat * k0 + a 1%nat * km) -> y1 = y + h * (b 0%nat * k0 + b 1%nat * km + b 2%nat * k1) ->
  hs_val (t + h) (t + c1 * h) t y1 k1 ym km y k0 (t + th * h) = y + h * rsum 3 (fun i => hs_w c1 a b th i * nth i [k0; km; k1] 0).
Proof.
  intros Hc Hh Ha E1 E2. rewrite <- (hs_pieces c1 a b th h y k0 km k1 t ym y1 Hc) by (first [assumption|lra]). unfold hs_val, glue.
  replace (t + c1 * h - (t + h)) with (- ((1 - c1) * h)) by ring. replace (t - (t + c1 * h)) with (- (c1 * h)) by ring.
  replace (t + h) with (t + c1 * h + (1 - c1) * h) by ring.
  assert (N1 : c1 * h <> 0) by nra. assert (N2 : (1 - c1) * h <> 0) by nra. rewrite !cubic_rev by assumption.
  destruct (Rlt_dec (t + th * h) (t + c1 * h)), (Rlt_dec th c1); try reflexivity; try (exfalso; nra).
  assert (th = c1) by nra. subst th. rewrite (cubic_1 t (c1 * h) _ _ _ _ _ N1 eq_refl), cubic_0 by exact N2. reflexivity.
Qed.
(** ** order conditions of the interpolants *)
Lemma dense_V_weaken s A c e1 e2 b k : e1 <= e2 -> dense_V false true s (fun _ _ => 0) A c e1 b k -> dense_V false true s (fun _ _ => 0) A c e2 b k.
Proof. intros He H th n fs H1 H2 H3. eapply Rle_trans; [apply H; assumption|exact He]. Qed.
Definition poly_order (m : EMeth RX) (ip : esd_interp RX) (p : nat) (e : Q) : Prop := exists P, ip = IPoly (pmat P) /\ (1 <= pcols P)%nat /\
  wbounded (em_stages m) (pwt P) /\ dense_V false true (em_stages m) (fun _ _ => 0) (rA m) (rC m) (Q2R e) (pwt P) p.
Lemma poly_of m T P p eps e : of_qtab m T -> qd_ok T P p eps && Nat.leb 1 (pcols P) && Qle_bool (inject_Z (Z.of_nat (pcols P)) * eps) e = true -> poly_order m (IPoly (pmat P)) p e.
Proof.
  intros HT H. rewrite !andb_true_iff in H. destruct H as ((H1 & H2) & H3). apply Nat.leb_le in H2. apply Qle_bool_iff, Qle_Rle in H3.
  destruct (qd_dense m T P p eps HT H1) as (W & D). exists P. split; [reflexivity|]. split; [exact H2|]. split; [exact W|].
  eapply dense_V_weaken; [|exact D]. rewrite Q2R_mult in H3. eapply Rle_trans; [|exact H3]. right. f_equal. unfold Q2R, inject_Z. cbn [Qnum Qden]. rewrite INR_IZR_INZ. field.
Qed.
Lemma poly_of_r bits m s A C B E Az dd P p cols eps e : of_qtab m (upt s A C B E Az dd) -> qdr_ok bits s A C P p cols eps && Nat.leb 1 cols && Nat.eqb (pcols (map (map up) P)) cols && Qle_bool (inject_Z (Z.of_nat cols) * eps) e = true ->
  poly_order m (IPoly (pmat (map (map up) P))) p e.
Proof.
  intros HT H. rewrite !andb_true_iff in H. destruct H as (((H1 & H2) & H4) & H3). apply Nat.leb_le in H2. apply Nat.eqb_eq in H4. apply Qle_bool_iff, Qle_Rle in H3.
  destruct (qdr_dense bits m s A C B E Az dd P p cols eps HT H1) as (W & D). eexists. split; [reflexivity|]. split; [lia|]. split; [exact W|].
  eapply dense_V_weaken; [|exact D]. rewrite Q2R_mult in H3. eapply Rle_trans; [|exact H3]. right. f_equal. unfold Q2R, inject_Z. cbn [Qnum Qden]. rewrite INR_IZR_INZ. field.
Qed.
Ltac unpair E := apply pair_equal_spec in E; destruct E as [E <-]; apply pair_equal_spec in E; destruct E as [E <-]; apply pair_equal_spec in E; destruct E as [<- <-].
Lemma polys_order m ip p e : In (m, ip, p, e) esd_dense_orders -> (exists P, ip = IPoly P) -> poly_order m ip p e.
Proof.
  intros H (P0 & HP). unfold esd_dense_orders in H. rewrite !lm2_pmat, !lm_pmat in H.
  destruct H as [E|H]; [unpair E; apply (poly_of _ _ _ _ 0 _ of_KC3I); vm_compute; reflexivity|].
  destruct H as [E|H]; [unpair E; apply (poly_of _ _ _ _ 0 _ of_KC3I); vm_compute; reflexivity|].
  destruct H as [E|H]; [unpair E; apply (poly_of _ _ _ _ (1 # 10 ^ 15) _ of_KC4I); vm_compute; reflexivity|].
  destruct H as [E|H]; [unpair E; apply (poly_of _ _ _ _ (1 # 10 ^ 13) _ of_KC4I); vm_compute; reflexivity|].
  destruct H as [E|H]; [unpair E; apply (poly_of_r 110 _ _ _ _ _ _ _ _ _ _ 4 (1 # 10 ^ 13) _ of_KC4Ia); vm_compute; reflexivity|].
  destruct H as [E|H]; [unpair E; apply (poly_of_r 110 _ _ _ _ _ _ _ _ _ _ 4 (1 # 10 ^ 14) _ of_KC4Ia); vm_compute; reflexivity|].
  destruct H as [E|H]; [unpair E; apply (poly_of_r 110 _ _ _ _ _ _ _ _ _ _ 3 (1 # 10 ^ 14) _ of_Kv3I); vm_compute; reflexivity|].
  destruct H as [E|H]; [unpair E; apply (poly_of_r 110 _ _ _ _ _ _ _ _ _ _ 4 (1 # 10 ^ 13) _ of_Kv3I); vm_compute; reflexivity|].
  destruct H as [E|[E|[]]]; unpair E; discriminate HP.
Qed.
Lemma hs_consts m : In m esd_piecewise -> em_stages m = 3%nat /\ 0 < rC m 1 < 1 /\ rA m 1 0 = rC m 1 / 2 /\ rA m 1 1 = rC m 1 / 2 /\ rA m 1 2 = 0 /\ rC m 0 = 0 /\ rC m 2 = 1 /\
  (forall i, (i < 3)%nat -> rsum 3 (rA m i) = rC m i) /\ rB m 0 + rB m 1 + rB m 2 = 1 /\ rB m 1 * rC m 1 + rB m 2 = 1 / 2.
Proof.
  intros H.
  assert (RS : exists e, Q2R e = 0 /\ In (m, e) row_sum_residuals).
  { exists 0%Q. split; [apply Q2R_0'|]. destruct H as [<-|[<-|[]]]; [apply or_introl|apply or_intror, or_introl]; reflexivity. }
  destruct RS as (e & He & Hin). pose proof (fun i => C20_row_sums m e i Hin) as HR. rewrite He in HR.
  assert (S2 : 1 < sqrt 2 < 2). { split; [rewrite <- sqrt_1 at 1; apply sqrt_lt_1; lra|]. rewrite <- (sqrt_square 2) at 2 by lra. apply sqrt_lt_1; lra. }
  assert (SS : sqrt 2 * sqrt 2 = 2) by (apply sqrt_sqrt; lra).
  assert (E3 : em_stages m = 3%nat) by (destruct H as [<-|[<-|[]]]; reflexivity). rewrite E3 in HR.
  assert (HR' : forall i, (i < 3)%nat -> rsum 3 (rA m i) = rC m i).
  { intros i Hi. specialize (HR i Hi). pose proof (Rabs_pos (rC m i - rsum 3 (rA m i))). assert (Z : Rabs (rC m i - rsum 3 (rA m i)) = 0) by lra. destruct (Req_dec (rC m i - rsum 3 (rA m i)) 0) as [Q|Q]; [lra|]. apply Rabs_no_R0 in Q. contradiction. }
  split; [exact E3|]. destruct H as [<-|[<-|[]]].
  - rewrite !(rA_q _ _ _ _ of_TRBDF2), !(rC_q _ _ _ of_TRBDF2), !(rB_q _ _ _ of_TRBDF2). unfold qent. vm_compute nth. unfold q2v. cbn [fst snd]. unfold Q2R. cbn [Qnum Qden].
    repeat split; try exact HR'; try lra; nra.
  - rewrite !(rA_q _ _ _ _ of_TRX2), !(rC_q _ _ _ of_TRX2), !(rB_q _ _ _ of_TRX2). unfold qent. vm_compute nth. unfold q2v. cbn [fst snd]. unfold Q2R. cbn [Qnum Qden].
    repeat split; try exact HR'; try lra; nra.
Qed.
Lemma hs_dense_V m : In m esd_piecewise ->
  wbounded (em_stages m) (hs_w (rC m 1) (rA m 1) (rB m)) /\ dense_V false true (em_stages m) (fun _ _ => 0) (rA m) (rC m) (Q2R 0) (hs_w (rC m 1) (rA m 1) (rB m)) 2.
Proof.
  intros H. destruct (hs_consts m H) as (E3 & Hc & A0 & A1 & A2 & C0 & C2 & HR & B1 & B2). rewrite E3. set (c := rC m 1) in *. split.
  - destruct (bounded_fin (fun i => Rabs (rA m 1 i) + Rabs (rB m i)) 3) as (B & HB & HBi). exists (B + 2). split; [lra|]. intros th i Hth Hi. specialize (HBi i Hi). cbv beta in HBi.
    assert (P : 0 <= Rabs (rA m 1 i) + Rabs (rB m i)) by (pose proof (Rabs_pos (rA m 1 i)); pose proof (Rabs_pos (rB m i)); lra). rewrite (Rabs_pos_eq _ P) in HBi.
    assert (D : forall a, 0 <= delta a i <= 1) by (intros a; unfold delta; destruct (Nat.eqb i a); lra).
    assert (U : forall u, 0 <= u <= 1 -> 0 <= u * u * (3 - 2 * u) <= 1 /\ 0 <= u * (1 - u) * (1 - u) <= 1 /\ 0 <= u * u * (1 - u) <= 1).
    { intros u Hu. assert (0 <= u * u <= 1) by nra. assert (0 <= (1 - u) * (1 - u) <= 1) by nra. split; [split; nra|split; split; nra]. }
    assert (G : forall x y z w, Rabs x <= y -> Rabs z <= w -> Rabs (x + z) <= y + w) by (intros x y z w X1 X2; eapply Rle_trans; [apply Rabs_triang|lra]).
    assert (M : forall x y, 0 <= x <= 1 -> Rabs (x * y) <= Rabs y) by (intros x y Hx; rewrite Rabs_mult, (Rabs_pos_eq x) by lra; pose proof (Rabs_pos y); nra).
    assert (M1 : forall x y z, 0 <= x <= 1 -> 0 <= y <= 1 -> 0 <= z <= 1 -> Rabs (x * y * z) <= 1) by (intros x y z X1 X2 X3; assert (0 <= x * y <= 1) by nra; apply Rabs_le; nra).
    unfold hs_w. destruct (Rlt_dec th c); cbv zeta.
    + assert (Hu : 0 <= th / c <= 1) by (split; [apply Rmult_le_pos; [lra|]; left; apply Rinv_0_lt_compat; lra|apply Rmult_le_reg_r with c; [lra|]; replace (th / c * c) with th by (field; lra); lra]).
      set (u := th / c) in *. destruct (U u Hu) as (U1 & U2 & U3). replace (c * (u * u * (u - 1)) * delta 1 i) with (- (c * (u * u * (1 - u)) * delta 1 i)) by ring.
      eapply Rle_trans; [apply G; [apply G; [apply M; exact U1|apply M1; [lra|exact U2|apply D]]|rewrite Rabs_Ropp; apply M1; [lra|exact U3|apply D]]|]. pose proof (Rabs_pos (rB m i)). lra.
    + assert (Hu : 0 <= (th - c) / (1 - c) <= 1) by (split; [apply Rmult_le_pos; [lra|]; left; apply Rinv_0_lt_compat; lra|apply Rmult_le_reg_r with (1 - c); [lra|]; replace ((th - c) / (1 - c) * (1 - c)) with (th - c) by (field; lra); lra]).
      set (u := (th - c) / (1 - c)) in *. destruct (U u Hu) as (U1 & U2 & U3). replace ((1 - c) * (u * u * (u - 1)) * delta 2 i) with (- ((1 - c) * (u * u * (1 - u)) * delta 2 i)) by ring.
      eapply Rle_trans; [apply G; [apply G; [apply G; [apply M; lra|apply M; exact U1]|apply M1; [lra|exact U2|apply D]]|rewrite Rabs_Ropp; apply M1; [lra|exact U3|apply D]]|]. lra.
  - intros th n fs Hth Hn Hf. rewrite Q2R_0'.
    assert (Z : forall x, x = 0 -> Rabs x <= 0) by (intros x ->; rewrite Rabs_R0; lra). apply Z.
    assert (S0 : rsum 3 (hs_w c (rA m 1) (rB m) th) = th).
    { cbn [rsum]. unfold hs_w. destruct (Rlt_dec th c); cbv zeta; unfold delta; cbn [Nat.eqb]; rewrite A0, A1, A2.
      - field. lra.
      - replace (rB m 0) with (1 - rB m 1 - rB m 2) by lra. field. lra. }
    assert (S1 : rsum 3 (fun i => hs_w c (rA m 1) (rB m) th i * rC m i) = th ^ 2 / 2).
    { cbn [rsum]. fold c. rewrite C0, C2. unfold hs_w. destruct (Rlt_dec th c); cbv zeta; unfold delta; cbn [Nat.eqb]; rewrite A0, A1, A2.
      - field. lra.
      - replace (rB m 2) with (1 / 2 - rB m 1 * c) by lra. field. lra. }
    destruct n as [|[|n]]; [| |lia].
    + cbn in Hf. destruct Hf as [<-|[]]. unfold exact_weight.
      rewrite (rsum_ext 3 _ (hs_w c (rA m 1) (rB m) th)) by (intros i Hi; unfold stage_weight, wf; cbn [fold_right]; ring). rewrite S0. unfold wf. cbn [fold_right INR pow]. field.
    + cbn in Hf. destruct Hf as [<-|[<-|[]]]; unfold exact_weight.
      * rewrite (rsum_ext 3 _ (fun i => hs_w c (rA m 1) (rB m) th i * rC m i)) by (intros i Hi; unfold stage_weight, wf; cbn [fold_right Trees.w]; ring). rewrite S1. unfold wf. cbn [fold_right Trees.w INR pow]. field.
      * rewrite (rsum_ext 3 _ (fun i => hs_w c (rA m 1) (rB m) th i * rC m i)).
        -- rewrite S1. unfold wf. cbn [fold_right Trees.w]. unfold ex_V. cbn [isize pow fold_right Nat.add INR]. field.
        -- intros i Hi. f_equal. unfold stage_weight, wf. cbn [fold_right Trees.w]. unfold st_op. cbn [fold_right]. rewrite Rmult_1_r, <- (HR i Hi). apply rsum_ext. intros; ring.
Qed.

(** the interpolants evaluated by the model *)
Lemma map_inj_fin2 : forall u v : list (list R), map (map Fin) u = map (map Fin) v -> u = v.
Proof. induction u as [|a u IH]; intros [|b v] H; try discriminate H; [reflexivity|]. cbn [map] in H. injection H as H1 H. apply map_inj_fin in H1. subst. f_equal. auto. Qed.
Lemma esd_value m ip p e : In (m, ip, p, e) esd_dense_orders ->
  exists b, wbounded (em_stages m) b /\ dense_V false true (em_stages m) (fun _ _ => 0) (rA m) (rC m) (Q2R e) b p /\
  forall o f t0 tb y0 c n v k v' y t t1 ks, esd_after m o f t0 tb y0 c n v -> esd_step m c k v = OOk v' -> (forall msg, ostat v' <> OFailed msg) ->
    e_t (ost v) = Fin t -> e_y (ost v) = map Fin y -> e_t (ost v') = Fin t1 -> e_K (ost v') = map (map Fin) ks ->
    length y = length y0 /\ exists D, esd_dense_output m ip (x_dir c) v' = inl D /\
    forall th, esd_call D (Fin (t + th * (t1 - t))) = map Fin (ind (length y0) (fun q => nth q y 0 + (t1 - t) * lcomb (em_stages m) (b th) ks q)).
Proof.
  intros Hin.
  assert (HC : (exists P, ip = IPoly P) \/ (ip = IPiecewise /\ In m esd_piecewise /\ p = 2%nat /\ e = 0%Q)).
  { unfold esd_dense_orders in Hin. repeat (destruct Hin as [E|Hin]; [unpair E; first [apply or_introl; eexists; reflexivity|apply or_intror; repeat split; cbn; tauto]|]). destruct Hin. }
  destruct HC as [HP|(-> & Hm & -> & ->)].
  - destruct (polys_order _ _ _ _ Hin HP) as (P & -> & Hc & HW & HD). exists (pwt P). split; [exact HW|]. split; [exact HD|].
    intros o f t0 tb y0 c n v k v' y t t1 ks HA HS Hst E1 Ey E3 EK.
    destruct (esd_made _ _ _ _ _ _ _ _ _ _ _ _ HA HS Hst Ey) as (t' & h & ks' & y1 & cd & AS & Et & Eo & Et1 & Ly & Hn & RT & _ & _).
    assert (En : x_n c = length y0) by (destruct (esd_after_inv _ _ _ _ _ _ _ _ _ HA) as (r & s0 & _ & _ & _ & _ & _ & _ & En & _); exact En).
    destruct AS as [Hh A2 A3 A4 A5 A6 A7 A8 A9 A10 A11 A12]. change (num RX) with xr in *.
    rewrite E1 in Et. injection Et as <-. rewrite E3 in Et1. injection Et1 as ->. rewrite EK in A5. apply map_inj_fin2 in A5. subst ks'.
    split; [congruence|]. eexists. rewrite (esd_dense_enter m (IPoly (pmat P)) (x_dir c) v' t h y1 (x_n c) Eo E3 Hh A10 A11 Hn). unfold esd_dense_P. rewrite A4, EK, E3, map_length, Ly.
    split; [reflexivity|]. intros th. cbn [esd_call]. rewrite <- En. replace (t + h - t) with h by ring. refine (eq_trans (call_poly (x_n c) P y ks t h (t + th * h) Hc Hh Ly A7) _).
    f_equal. apply map_ext. intros q. unfold esd_poly_val, wval. rewrite A6. replace ((t + th * h - t) / h) with th by (field; exact Hh). reflexivity.
  - exists (hs_w (rC m 1) (rA m 1) (rB m)). destruct (hs_dense_V m Hm) as (HW & HD). split; [exact HW|]. split; [exact HD|].
    intros o f t0 tb y0 c n v k v' y t t1 ks HA HS Hst E1 Ey E3 EK.
    destruct (hs_tab m Hm) as (E3' & (c1 & EC & Hc & Ec1) & a & EA & La & Na). subst c1.
    destruct (esd_made _ _ _ _ _ _ _ _ _ _ _ _ HA HS Hst Ey) as (t' & h & ks' & y1 & cd & AS & Et & Eo & Et1 & Ly & Hn & RT & Ed & Hd).
    assert (En : x_n c = length y0) by (destruct (esd_after_inv _ _ _ _ _ _ _ _ _ HA) as (r & s0 & _ & _ & _ & _ & _ & _ & En & _); exact En).
    destruct AS as [Hh A2 A3 A4 A5 A6 A7 A8 A9 A10 A11 A12]. change (num RX) with xr in *.
    rewrite E1 in Et. injection Et as <-. rewrite E3 in Et1. injection Et1 as ->. rewrite EK in A5. apply map_inj_fin2 in A5. subst ks'.
    split; [congruence|]. rewrite <- En. set (d := x_n c) in *. rewrite E3' in *.
    destruct ks as [|k0 [|km [|k1 [|]]]]; try discriminate A6. cbn [nth Nat.sub] in A8, A9.
    pose proof (Forall_inv A7) as L0. pose proof (Forall_inv (Forall_inv_tail A7)) as Lm. pose proof (Forall_inv (Forall_inv_tail (Forall_inv_tail A7))) as L1. cbn beta in L0, Lm, L1.
    rewrite (esd_dense_enter m IPiecewise (x_dir c) v' t h y1 d Eo E3 Hh A10 A11 Hn).
    pose proof (reals_add d _ _ _ _ (reals_intro d y Ly) (reals_scale d h _ _ (lincomb_reals d a (map (map Fin) [k0; km; k1]) _ (realsK_fin d [k0; km; k1] A7)))) as (ym & Em & Lym & Nm).
    set (tm := t + rC m 1 * h). set (T := t + h) in *.
    assert (EH : esd_dense_hs m (x_dir c) (Fin t : num RX) (ost v') = Some (if Rlt_dec 0 cd
      then {| hs_mid := Fin tm : num RX; hs_lo := mk_cubic (Fin t) (Fin tm) (map Fin y) (map Fin ym) (map Fin k0) (map Fin km); hs_hi := mk_cubic (Fin tm) (Fin T) (map Fin ym) (map Fin y1) (map Fin km) (map Fin k1) |}
      else {| hs_mid := Fin tm : num RX; hs_lo := mk_cubic (Fin T) (Fin tm) (map Fin y1) (map Fin ym) (map Fin k1) (map Fin km); hs_hi := mk_cubic (Fin tm) (Fin t) (map Fin ym) (map Fin y) (map Fin km) (map Fin k0) |})).
    { unfold esd_dense_hs. change (num RX) with xr in *. rewrite A4, A2, EK. cbn [map]. rewrite E3, A10, map_length, Ly, Ed. change (num RX) with xr in *. change (map (map Fin) [k0; km; k1]) with [map Fin k0; map Fin km; map Fin k1] in Em.
      rewrite EA. change (@n0 RX) with (Fin (Q2R 0)). rewrite RMicromega.Q2R_0, EC. rewrite Em. change (nadd RX (Fin t) (nmul RX (Fin (rC m 1)) (Fin h))) with (Fin tm).
      cbn [nltb RX xltb]. unfold Rltb. destruct (Rlt_dec 0 cd); reflexivity. }
    rewrite EH. clear EH Em. destruct (hs_consts m Hm) as (_ & _ & _ & _ & Z12 & _).
    assert (Nm' : forall q, (q < d)%nat -> nth q ym 0 = nth q y 0 + h * (rA m 1 0 * nth q k0 0 + rA m 1 1 * nth q km 0)).
    { intros q Hq. rewrite Nm by exact Hq. cbn [map length rsum nth]. rewrite !Na, Z12. ring. }
    assert (N1 : forall q, (q < d)%nat -> nth q y1 0 = nth q y 0 + h * (rB m 0 * nth q k0 0 + rB m 1 * nth q km 0 + rB m 2 * nth q k1 0)).
    { intros q Hq. rewrite A12 by exact Hq. cbn [rsum nth]. ring. }
    assert (EL : forall th q, lcomb 3 (hs_w (rC m 1) (rA m 1) (rB m) th) [k0; km; k1] q = rsum 3 (fun i => hs_w (rC m 1) (rA m 1) (rB m) th i * nth i [nth q k0 0; nth q km 0; nth q k1 0] 0)).
    { intros th q. unfold lcomb. apply rsum_ext. intros [|[|[|i]]] Hi; [reflexivity|reflexivity|reflexivity|lia]. }
    assert (HT : T - t = h) by (unfold T; ring). rewrite HT.
    assert (TT : (0 < cd /\ 0 < h) \/ (cd < 0 /\ h < 0)).
    { assert (P : 0 < h \/ h < 0) by lra. destruct P as [P|P]; [apply or_introl|apply or_intror]; (split; [|exact P]); destruct (Rlt_dec 0 cd), (Rlt_dec cd 0); try assumption; exfalso; nra. }
    destruct TT as [(P & HO)|(P & HO)].
    + destruct (Rlt_dec 0 cd); [|lra]. eexists. split; [reflexivity|]. intros th. cbn [esd_call].
      refine (eq_trans (call_hs d t tm T y k0 ym km y1 k1 (t + th * h) _ Ly L0 Lym Lm A11 L1) _); [unfold tm, T; nra|]. f_equal. apply map_ext_in. intros q Hq. apply in_seq in Hq. rewrite EL.
      apply hs_fwd; try assumption; [apply Nm'; lia|apply N1; lia].
    + destruct (Rlt_dec 0 cd); [lra|]. eexists. split; [reflexivity|]. intros th. cbn [esd_call].
      refine (eq_trans (call_hs d T tm t y1 k1 ym km y k0 (t + th * h) _ A11 L1 Lym Lm Ly L0) _); [unfold tm, T; nra|]. f_equal. apply map_ext_in. intros q Hq. apply in_seq in Hq. rewrite EL.
      apply hs_bwd; try assumption; [apply Nm'; lia|apply N1; lia].
Qed.

(** ** C21, implicit classes *)
(** F with a Taylor expansion of order p at (ta, ya), Y the solution through (ta, ya): whenever a
    successful step() goes from (ta, ya) to t1 with |t1 - ta| < del and its slopes solve the stage
    equations of F near (ta, ya), the dense output at every time ta + th (t1 - ta) of the step is
    within (residual) + C |t1 - ta|^(p+1) of Y there. *)
Theorem C21_esdirk m ip p e d F ta ya Y T : In (m, ip, p, e) esd_dense_orders -> length ya = d ->
  taylor_at (S d) d (fo F d) (pt ta ya) T p -> solves F ta ya Y ->
  exists rho C del, 0 < rho /\ 0 < del /\ forall o f t0 tb y0 c n v k v' t1 ks,
    esd_after m o f t0 tb y0 c n v -> esd_step m c k v = OOk v' -> (forall msg, ostat v' <> OFailed msg) ->
    e_t (ost v) = Fin ta -> e_y (ost v) = map Fin ya -> e_t (ost v') = Fin t1 -> e_K (ost v') = map (map Fin) ks ->
    Rabs (t1 - ta) < del -> stage_solution F (em_stages m) (rA m) (rC m) ta ya (t1 - ta) ks -> slopes_within (em_stages m) d (t1 - ta) rho ks ->
    exists D, esd_dense_output m ip (x_dir c) v' = inl D /\ forall th, 0 <= th <= 1 ->
      exists r, esd_call D (Fin (ta + th * (t1 - ta))) = map Fin r /\ length r = d /\
      forall q, (q < d)%nat -> Rabs (nth q r 0 - nth q (Y (ta + th * (t1 - ta))) 0) <=
        Q2R e * rsum p (fun n => differentials F T ya n q * Rabs (t1 - ta) ^ S n) + C * Rabs (t1 - ta) ^ S p.
Proof.
  intros Hin <- HT HY. destruct (esd_value _ _ _ _ Hin) as (b & HW & HD & HV).
  destruct (irk_dense F ta ya p T HT Y HY (em_stages m) (rA m) (rC m) (Q2R e) b p (le_n _) HW HD) as (rho & C & del & Hr & Hd & H).
  exists rho, C, del. split; [exact Hr|]. split; [exact Hd|]. intros o f t0 tb y0 c n v k v' t1 ks HA HS Hst E1 E2 E3 E4 Hh HSt HSl.
  destruct (HV _ _ _ _ _ _ _ _ _ _ _ _ _ _ HA HS Hst E1 E2 E3 E4) as (Ly & D & ED & EC). exists D. split; [exact ED|]. intros th Hth.
  eexists. split; [apply EC|]. rewrite <- Ly. split; [apply ind_len|]. intros q Hq. rewrite ind_nth by exact Hq. exact (H _ ks th Hh HSt HSl Hth q Hq).
Qed.
(** linear problems y' = J y + g(t): nothing is assumed of the slopes *)
Theorem C21_esdirk_linear m ip p e d J F ta ya Y T : In (m, ip, p, e) esd_dense_orders -> length ya = d ->
  (exists g, linear_rhs d J g F) -> taylor_at (S d) d (fo F d) (pt ta ya) T p -> solves F ta ya Y ->
  exists C del, 0 < del /\ forall o f t0 tb y0 c n v k v' t1,
    linear_after m o f d None J F t0 tb y0 c n v -> esd_step m c k v = OOk v' -> (forall msg, ostat v' <> OFailed msg) ->
    e_t (ost v) = Fin ta -> e_y (ost v) = map Fin ya -> e_t (ost v') = Fin t1 -> Rabs (t1 - ta) < del ->
    exists D, esd_dense_output m ip (x_dir c) v' = inl D /\ forall th, 0 <= th <= 1 ->
      exists r, esd_call D (Fin (ta + th * (t1 - ta))) = map Fin r /\ length r = d /\
      forall q, (q < d)%nat -> Rabs (nth q r 0 - nth q (Y (ta + th * (t1 - ta))) 0) <=
        Q2R e * rsum p (fun n => differentials F T ya n q * Rabs (t1 - ta) ^ S n) + C * Rabs (t1 - ta) ^ S p.
Proof.
  intros Hin Hy (g & HL) HT HY. destruct (C21_esdirk m ip p e d F ta ya Y T Hin Hy HT HY) as (rho & C & d1 & Hrho & Hd1 & H1).
  destruct (linear_slopes d (em_stages m) J g F (rA m) (rC m) ta ya HL Hy p ltac:(exists T; rewrite Hy; exact HT) rho Hrho) as (d2 & Hd2 & H2).
  exists C, (Rmin d1 d2). split; [apply Rmin_case; assumption|]. intros o f t0 tb y0 c n v k v' t1 HA HS Hst E1 E2 E3 Hh.
  assert (A1 : Rabs (t1 - ta) < d1) by (eapply Rlt_le_trans; [exact Hh|apply Rmin_l]).
  assert (A2 : Rabs (t1 - ta) < d2) by (eapply Rlt_le_trans; [exact Hh|apply Rmin_r]).
  destruct (C29_linear_step _ _ _ _ _ _ _ _ _ _ _ _ _ _ _ HA HS Hst) as (t & h & y & ks & y' & B1 & B2 & _ & B4 & B5 & BK & B7 & _).
  change (num RX) with xr in *. rewrite E1 in B1. injection B1 as <-. rewrite E2 in B2. apply map_inj_fin in B2. subst y. rewrite E3 in B4. injection B4 as ->.
  assert (EH : ta + h - ta = h) by ring. pose proof (irk_solution _ _ _ _ _ _ _ _ _ _ _ B7 Hy) as HSt.
  assert (HAf : esd_after m o f t0 tb (map Fin y0) c n v).
  { destruct HA as (Ar & s & HP & HH). split; [exact Ar|]. exists s. split; [eapply linear_built; exact HP|exact HH]. }
  apply (H1 o f t0 tb (map Fin y0) c n v k v' (ta + h) ks HAf HS Hst E1 E2 E3 BK A1).
  - rewrite EH. exact HSt.
  - rewrite EH. rewrite EH in A2. exact (H2 h ks A2 HSt).
Qed.
(** every polynomial interpolant of the classes and both piecewise ones are in the list, with
    the order of the method *)
Theorem C21_esdirk_complete m : In m esd_all -> exists ip p e, In (m, ip, p, e) esd_dense_orders /\ em_order m = p.
Proof.
  intros H. cbn [esd_all In] in H. destruct H as [<-|[<-|[<-|[<-|[<-|[<-|[]]]]]]]; do 3 eexists;
  (split; [unfold esd_dense_orders; first
    [ apply in_app_iff with (l := []); apply or_intror; (do 8 (apply or_intror)); apply or_introl; reflexivity
    | (do 9 (apply or_intror)); apply or_introl; reflexivity
    | apply or_introl; reflexivity
    | (do 2 (apply or_intror)); apply or_introl; reflexivity
    | (do 4 (apply or_intror)); apply or_introl; reflexivity
    | (do 6 (apply or_intror)); apply or_introl; reflexivity ]|reflexivity]).
Qed.
(** a case: y' = lam y, y(0) = 1 on [0, 1]: every class builds a solver whose start meets the
    hypotheses of the theorems, with Y = exp (lam t) *)
Example C21_esdirk_case m lam : In m esd_all -> exists c s,
  linear_after m lam_opts (lam_x lam) 1 None [[lam]] (lam_r lam) 0 1 [1] c 0 (onew s) /\ (exists g, linear_rhs 1 [[lam]] g (lam_r lam)) /\
  (forall p, smooth_at p (lam_r lam) 0 [1]) /\ solves (lam_r lam) 0 [1] (fun t => [exp (lam * t)]).
Proof.
  intros Hm. destruct (C29_case m lam Hm) as (c & s & HAr & HP). exists c, s. split; [|split; [|split]].
  - split; [exact HAr|]. exists s. split; [exact HP|]. apply oh0.
  - exists (fun _ _ => 0). intros t u [|q] Hu Hq; [|lia]. destruct u as [|a [|? ?]]; try discriminate Hu. unfold lam_r, rmv. cbn. ring.
  - intros p. apply (polynomial_smooth 1); [|reflexivity]. exists (fun _ => [(lam, [1%nat])]). split.
    + intros q _. repeat constructor.
    + intros t y Hy. destruct y as [|a [|? ?]]; try discriminate Hy. split; [reflexivity|]. intros [|q] Hq; [|lia]. simpl. ring.
  - split; [rewrite Rmult_0_r, exp_0; reflexivity|]. exists 1. split; [lra|]. intros t _. split; [reflexivity|]. intros [|q] Hq; [|simpl in Hq; lia].
    cbn [nth lam_r]. replace (lam * exp (lam * t)) with (exp (lam * t) * lam) by ring. apply (derivable_pt_lim_comp (fun x => lam * x) exp t lam (exp (lam * t))); [|apply derivable_pt_lim_exp].
    pose proof (derivable_pt_lim_scal id lam t 1 (derivable_pt_lim_id t)) as X. rewrite Rmult_1_r in X. exact X.
Qed.
