(** C20: order of the implicit (ESDIRK) methods. *)
From Coq Require Import String Reals Lra Psatz QArith Qreals Bool Lia List Arith.
From Verif Require Import Arith Common Stiff RK HStart RKInit RX Tableaux Classes Ode RKReal RKInitReal Series Trees OrderThm OrderCheck OrderRK OrderModel GOrder OrderIRK OrderIRKTab RKSpecProofs
  ESDIRK ESDCls ESDGen ESDReal ESDStep ESDInv ESDTop Prop_ESD ESDLin ESDLin2 ESDLin3 ESDLin4 Prop_ESDLin Smooth.
Import ListNotations.
Close Scope string_scope. Open Scope nat_scope. Open Scope R_scope.

(** ** specification *)
(** [irk_step] (Prop_ESDLin.v) is the textbook step; [slopes_within s d h rho ks] says that all
    |h k_i| <= rho, i.e. the solution of the stage equations is the one near the base point;
    [implicit_orders] (OrderIRKTab.v) lists class, order, residual of the order conditions, order
    of the error estimate, residual; residual 0 means that the conditions hold exactly.
    [mass] is the sum of the absolute elementary differentials of F of a given order (it
    depends on F only). *)
Definition differentials (F : R -> list R -> list R) (T : nat -> list nat -> R) (y0 : list R) (n q : nat) : R :=
  mass false true (S (length y0)) T ell1 pu1 (pv1 y0) n q.

(** ** proofs *)
Lemma irk_solution s d A b c F t h y ks y' : irk_step s d A b c None F t h y ks y' -> length y = d -> stage_solution F s A c t y h ks.
Proof. intros (_ & H & _) <- i q Hi Hq. destruct (H i Hi) as (_ & H1). exact (H1 q Hq). Qed.
Lemma irk_value s d A b c M F t h y ks y' q : irk_step s d A b c M F t h y ks y' -> (q < d)%nat -> nth q y' 0 = nth q y 0 + h * lcomb s b ks q.
Proof. intros (_ & _ & ->) Hq. unfold rpoint. apply nth_map_seq. exact Hq. Qed.

(** ** C20 *)
(** Any F with a Taylor expansion of order p (coefficients T) at (t0, y0), any solution Y:
    every step of the method that solves its stage equations near (t0, y0) is within
    eps (|h| D_0 + |h|^2 D_1 + ...) + C |h|^(p+1) of Y(t0 + h), and the combination with the
    weights of the error estimate is that close to 0 with p replaced by its order. *)
Theorem C20_order m p eps pe epse d F t0 y0 Y T : In (m, p, eps, pe, epse) implicit_orders -> length y0 = d ->
  taylor_at (S d) d (fo F d) (pt t0 y0) T p -> solves F t0 y0 Y ->
  exists rho C del, 0 < rho /\ 0 < del /\ forall h ks y', Rabs h < del ->
    irk_step (em_stages m) d (rA m) (rB m) (rC m) None F t0 h y0 ks y' -> slopes_within (em_stages m) d h rho ks ->
    forall q, (q < d)%nat ->
      Rabs (nth q y' 0 - nth q (Y (t0 + h)) 0) <= Q2R eps * rsum p (fun n => differentials F T y0 n q * Rabs h ^ S n) + C * Rabs h ^ S p /\
      Rabs (h * lcomb (em_stages m) (rE m) ks q) <= Q2R epse * rsum pe (fun n => differentials F T y0 n q * Rabs h ^ S n) + C * Rabs h ^ S pe.
Proof.
  intros Hm <- HT HY. destruct (classes_near _ _ _ _ _ Hm) as (HV & HZ & Hpe).
  destruct (irk_order F t0 y0 p T HT Y HY (em_stages m) (rA m) (rC m) _ _ _ _ p pe (le_n _) Hpe HV HZ) as (rho & C & del & Hr & Hd & H).
  exists rho, C, del. split; [exact Hr|]. split; [exact Hd|]. intros h ks y' Hh HS HW q Hq.
  rewrite (irk_value _ _ _ _ _ _ _ _ _ _ _ _ q HS Hq). exact (H h ks Hh (irk_solution _ _ _ _ _ _ _ _ _ _ _ HS eq_refl) HW q Hq).
Qed.
(** These are the orders the classes declare: p is the attribute [order], and pe is
    min(order, order_secondary), the number from which the exponent -1/(pe + 1) of the step
    size controller and the order given to the initial step size routine are formed. *)
Theorem C20_declared_orders m p eps pe epse : In (m, p, eps, pe, epse) implicit_orders ->
  em_order m = p /\ Nat.min (em_order2 m) (em_order m) = pe.
Proof. intros H. repeat (destruct H as [E|H]; [injection E as <- <- <- <- <-; split; reflexivity|]). destruct H. Qed.
(** the classes whose conditions hold exactly *)
Theorem C20_order_exact m p pe epse d F t0 y0 Y : In (m, p, 0%Q, pe, epse) implicit_orders -> length y0 = d ->
  smooth_at p F t0 y0 -> solves F t0 y0 Y ->
  exists rho C del, 0 < rho /\ 0 < del /\ forall h ks y', Rabs h < del ->
    irk_step (em_stages m) d (rA m) (rB m) (rC m) None F t0 h y0 ks y' -> slopes_within (em_stages m) d h rho ks ->
    forall q, (q < d)%nat -> Rabs (nth q y' 0 - nth q (Y (t0 + h)) 0) <= C * Rabs h ^ S p.
Proof.
  intros Hm <- (T & HT) HY. destruct (C20_order _ _ _ _ _ _ F t0 y0 Y T Hm eq_refl HT HY) as (rho & C & del & Hr & Hd & H).
  exists rho, C, del. split; [exact Hr|]. split; [exact Hd|]. intros h ks y' Hh HS HW q Hq. destruct (H h ks y' Hh HS HW q Hq) as (X & _).
  rewrite Q2R_0', Rmult_0_l, Rplus_0_l in X. exact X.
Qed.

(** the new y is the last stage value and the last slope is the derivative there *)
Theorem C20_stiffly_accurate m d M F t h y ks y' : In m esd_all -> irk_step (em_stages m) d (rA m) (rB m) (rC m) M F t h y ks y' ->
  y' = rpoint d y h (lcomb (em_stages m) (rA m (em_stages m - 1)) ks) /\
  forall q, (q < d)%nat -> rmv_opt d M (nth (em_stages m - 1) ks []) q = nth q (F (t + h) y') 0.
Proof.
  intros Hm (H1 & H2 & H3). pose proof (esd_all_real m Hm) as RT.
  assert (E : y' = rpoint d y h (lcomb (em_stages m) (rA m (em_stages m - 1)) ks)).
  { rewrite H3. apply rpoint_ext'. intros q _. unfold lcomb. apply rsum_ext. intros l _. rewrite (rt_last m RT). reflexivity. }
  split; [exact E|]. intros q Hq.
  assert (Hs : (em_stages m - 1 < em_stages m)%nat).
  { destruct Hm as [<-|[<-|[<-|[<-|[<-|[<-|[]]]]]]]; vm_compute; lia. }
  destruct (H2 _ Hs) as (_ & H4). rewrite (H4 q Hq), (rt_c1 m RT), Rmult_1_l, <- E. reflexivity.
Qed.

(** row sums: c_i = sum_l a_il, exactly except for KC4Ia *)
Definition row_sums_ok (T : qtab) (e : Q) : bool :=
  forallb (fun i => q2small (c_add Q2N (nth i (qC T) p0) (c_mul Q2N (-1, 0)%Q (fold_right (c_add Q2N) p0 (firstn (qs T) (nth i (qA T) []))))) e) (seq 0 (qs T)).
Lemma fold_rsum (l : list (Q * Q)) : cv Q2N (fold_right (c_add Q2N) p0 l) = rsum (length l) (fun i => q2v (nth i l p0)).
Proof.
  induction l as [|a l IH]; [apply (cv0 Q2N)|]. cbn [fold_right length]. rewrite cvadd, IH, rsum_split. reflexivity.
Qed.
Lemma row_sums m T e : of_qtab m T -> row_sums_ok T e = true -> (forall i, (i < qs T)%nat -> length (nth i (qA T) []) = qs T) ->
  forall i, (i < em_stages m)%nat -> Rabs (rC m i - rsum (em_stages m) (rA m i)) <= Q2R e.
Proof.
  intros HT H HL i Hi. rewrite (proj1 HT) in *. unfold row_sums_ok in H. rewrite forallb_forall in H. assert (Hin : In i (seq 0 (qs T))) by (apply in_seq; lia). specialize (H i Hin). apply q2small_ok in H.
  assert (L : length (nth i (qA T) []) = qs T) by (apply HL; exact Hi). rewrite firstn_all2 in H by (rewrite L; apply le_n).
  rewrite cvadd, cvmul, q2m1_ok, fold_rsum, L in H. eapply Rle_trans; [|exact H]. right. f_equal. rewrite (rC_q m T i HT).
  unfold Rminus. f_equal. rewrite (rsum_ext _ (rA m i) (fun l => q2v (qent T i l))) by (intros; apply rA_q; exact HT). change (fun i0 => q2v (nth i0 (nth i (qA T) []) p0)) with (fun l => q2v (qent T i l)). ring.
Qed.
Definition row_sum_residuals : list (EMeth RX * Q) :=
  [(TRBDF2_m, 0%Q); (TRX2_m, 0%Q); (KC3I_m, 0%Q); (KC4I_m, 0%Q); (KC4Ia_m, e24); (Kv3I_m, 0%Q)].
Theorem C20_row_sums m e i : In (m, e) row_sum_residuals -> (i < em_stages m)%nat -> Rabs (rC m i - rsum (em_stages m) (rA m i)) <= Q2R e.
Proof.
  assert (G : forall T, forallb (fun r => Nat.eqb (length r) (qs T)) (qA T) = true -> length (qA T) = qs T -> forall i, (i < qs T)%nat -> length (nth i (qA T) []) = qs T).
  { intros T H L j Hj. rewrite forallb_forall in H. apply Nat.eqb_eq, H, nth_In. lia. }
  intros H. revert i. 
  destruct H as [E|H]; [injection E as <- <-; apply (row_sums _ _ _ of_TRBDF2); [vm_compute; reflexivity|apply G; vm_compute; reflexivity]|].
  destruct H as [E|H]; [injection E as <- <-; apply (row_sums _ _ _ of_TRX2); [vm_compute; reflexivity|apply G; vm_compute; reflexivity]|].
  destruct H as [E|H]; [injection E as <- <-; apply (row_sums _ _ _ of_KC3I); [vm_compute; reflexivity|apply G; vm_compute; reflexivity]|].
  destruct H as [E|H]; [injection E as <- <-; apply (row_sums _ _ _ of_KC4I); [vm_compute; reflexivity|apply G; vm_compute; reflexivity]|].
  destruct H as [E|H]; [injection E as <- <-; apply (row_sums _ _ _ of_KC4Ia); [vm_compute; reflexivity|apply G; vm_compute; reflexivity]|].
  destruct H as [E|H]; [injection E as <- <-; apply (row_sums _ _ _ of_Kv3I); [vm_compute; reflexivity|apply G; vm_compute; reflexivity]|]. destruct H.
Qed.

(** ** the steps of a solver on linear problems *)
Section LinearSlopes.
Variables (d s : nat) (J : list (list R)) (g : R -> nat -> R) (F : R -> list R -> list R) (A : nat -> nat -> R) (c : nat -> R) (t0 : R) (y0 : list R).
Hypothesis HL : linear_rhs d J g F.
Hypothesis Hy : length y0 = d.
Definition total (ks : list (list R)) : R := rsum s (fun i => rsum d (fun q => Rabs (nth q (nth i ks []) 0))).
Lemma total_nonneg ks : 0 <= total ks.
Proof. apply rsum_nonneg. intros. apply rsum_nonneg. intros. apply Rabs_pos. Qed.
Lemma rsum_ge_one n f i : (forall j, (j < n)%nat -> 0 <= f j) -> (i < n)%nat -> f i <= rsum n f.
Proof.
  induction n as [|n IH]; intros H Hi; [lia|]. cbn [rsum]. destruct (Nat.eq_dec i n) as [->|Hn].
  - assert (0 <= rsum n f) by (apply rsum_nonneg; intros; apply H; lia). lra.
  - assert (f i <= rsum n f) by (apply IH; [intros; apply H; lia|lia]). pose proof (H n ltac:(lia)). lra.
Qed.
Lemma slope_le_total ks i q : (i < s)%nat -> (q < d)%nat -> Rabs (nth q (nth i ks []) 0) <= total ks.
Proof.
  intros Hi Hq. unfold total. eapply Rle_trans; [|apply (rsum_ge_one s (fun i => rsum d (fun q => Rabs (nth q (nth i ks []) 0))) i); [|exact Hi]].
  - apply (rsum_ge_one d (fun q => Rabs (nth q (nth i ks []) 0)) q); [intros; apply Rabs_pos|exact Hq].
  - intros. apply rsum_nonneg. intros. apply Rabs_pos.
Qed.
Lemma bounded2 (f : nat -> nat -> R) n m : exists B, 0 <= B /\ forall i j, (i < n)%nat -> (j < m)%nat -> Rabs (f i j) <= B.
Proof.
  induction n as [|n (B & HB & H)]; [exists 0; split; [lra|]; intros; lia|].
  destruct (bounded_fin (f n) m) as (B2 & HB2 & H2). exists (B + B2). split; [lra|]. intros i j Hi Hj.
  destruct (Nat.eq_dec i n) as [->|Hn]; [specialize (H2 j Hj); lra|specialize (H i j ltac:(lia) Hj); lra].
Qed.
Lemma rmv_point h ks i q : rmv d J (rpoint d y0 h (lcomb s (A i) ks)) q = rmv d J y0 q + h * rsum d (fun j => nth j (nth q J []) 0 * lcomb s (A i) ks j).
Proof.
  unfold rmv. rewrite <- rsum_scal, <- rsum_plus. apply rsum_ext. intros j Hj. unfold rpoint. rewrite nth_map_seq by exact Hj. ring.
Qed.
Lemma linear_slopes p : smooth_at p F t0 y0 -> forall rho, 0 < rho -> exists del, 0 < del /\ forall h ks, Rabs h < del ->
  stage_solution F s A c t0 y0 h ks -> slopes_within s d h rho ks.
Proof.
  intros (T & HT) rho Hrho. rewrite Hy in HT.
  destruct (taylor_bounded _ _ _ _ _ _ HT) as (B0 & d1 & Hd1 & H1).
  destruct (bounded2 (fun q j => nth j (nth q J []) 0) d d) as (aJ & HaJ & HJ). destruct (bounded2 A s s) as (aA & HaA & HA). destruct (bounded_fin c s) as (ac & Hac & Hc).
  set (N := INR s * (INR d * (aJ * aA))). set (B := INR s * (INR d * Rabs B0)).
  assert (HN : 0 <= N) by (unfold N; pose proof (pos_INR s); pose proof (pos_INR d); assert (0 <= aJ * aA) by nra; assert (0 <= INR d * (aJ * aA)) by nra; nra).
  assert (HB : 0 <= B) by (unfold B; pose proof (pos_INR s); pose proof (pos_INR d); pose proof (Rabs_pos B0); assert (0 <= INR d * Rabs B0) by nra; nra).
  exists (Rmin (d1 / (ac + 1)) (Rmin (1 / (2 * (N + 1))) (rho / (2 * (B + 1))))).
  assert (P1 : 0 < d1 / (ac + 1)) by (apply Rdiv_lt_0_compat; lra). assert (P2 : 0 < 1 / (2 * (N + 1))) by (apply Rdiv_lt_0_compat; lra). assert (P3 : 0 < rho / (2 * (B + 1))) by (apply Rdiv_lt_0_compat; lra).
  split; [repeat apply Rmin_case; assumption|]. intros h ks Hh HS.
  assert (A1 : Rabs h < d1 / (ac + 1)) by (eapply Rlt_le_trans; [exact Hh|apply Rmin_l]).
  assert (A2 : Rabs h < 1 / (2 * (N + 1))) by (eapply Rlt_le_trans; [exact Hh|eapply Rle_trans; [apply Rmin_r|apply Rmin_l]]).
  assert (A3 : Rabs h < rho / (2 * (B + 1))) by (eapply Rlt_le_trans; [exact Hh|eapply Rle_trans; [apply Rmin_r|apply Rmin_r]]).
  set (K := total ks). assert (HK : 0 <= K) by apply total_nonneg.
  assert (S1 : forall i q, (i < s)%nat -> (q < d)%nat -> Rabs (nth q (nth i ks []) 0) <= Rabs B0 + Rabs h * (aJ * aA * K)).
  { intros i q Hi Hq. pose proof (HS i q Hi) as E. rewrite Hy in E. rewrite (E Hq).
    rewrite HL by (first [apply rpoint_len|exact Hq]). rewrite rmv_point.
    assert (E2 : rmv d J y0 q + g (t0 + c i * h) q = nth q (F (t0 + c i * h) y0) 0) by (symmetry; apply HL; [exact Hy|exact Hq]).
    match goal with |- Rabs (?a + ?b + ?e) <= _ => replace (a + b + e) with ((a + e) + b) by ring end.
    eapply Rle_trans; [apply Rabs_triang|]. apply Rplus_le_compat.
    - rewrite E2. assert (E3 : nth q (F (t0 + c i * h) y0) 0 = fo F d (fun j => pt t0 y0 j + match j with O => c i * h | S _ => 0 end) q).
      { unfold fo, pt. cbn [nth]. f_equal. f_equal. rewrite <- (map_seq_nth d y0 Hy) at 1. apply map_ext. intros j. ring. }
      rewrite E3. eapply Rle_trans; [|apply Rle_abs]. apply H1; [|exact Hq]. intros [|j] _; [|rewrite Rabs_R0; exact Hd1].
      rewrite Rabs_mult. specialize (Hc i Hi). apply Rmult_lt_compat_r with (r := ac + 1) in A1; [|lra]. replace (d1 / (ac + 1) * (ac + 1)) with d1 in A1 by (field; lra). pose proof (Rabs_pos h). pose proof (Rabs_pos (c i)). nra.
    - rewrite Rabs_mult. apply Rmult_le_compat_l; [apply Rabs_pos|].
      eapply Rle_trans; [apply (rsum_abs_le' d _ (fun j => aJ * (aA * rsum s (fun l => Rabs (nth j (nth l ks []) 0)))))|].
      + intros j Hj. rewrite Rabs_mult. apply Rmult_le_compat; [apply Rabs_pos|apply Rabs_pos|apply HJ; assumption|]. unfold lcomb. rewrite <- rsum_scal.
        apply rsum_abs_le'. intros l Hl. rewrite Rabs_mult. apply Rmult_le_compat_r; [apply Rabs_pos|apply HA; assumption].
      + rewrite rsum_scal, rsum_scal. unfold K, total. rewrite rsum_swap. right. ring. }
  assert (S2 : K <= B + Rabs h * (N * K)).
  { unfold K at 1, total. eapply Rle_trans; [apply (rsum_le s _ (fun _ => INR d * (Rabs B0 + Rabs h * (aJ * aA * K))))|].
    - intros i Hi. rewrite <- rsum_const. apply rsum_le. intros q Hq. apply S1; assumption.
    - rewrite rsum_const. right. unfold B, N. ring. }
  assert (S3 : K <= 2 * (B + 1)).
  { apply Rmult_lt_compat_r with (r := N + 1) in A2; [|lra]. replace (1 / (2 * (N + 1)) * (N + 1)) with (1/2) in A2 by (field; lra).
    pose proof (Rabs_pos h). assert (Rabs h * N <= 1/2) by nra. assert (Rabs h * (N * K) <= 1/2 * K) by nra. lra. }
  intros i q Hi Hq. rewrite Rabs_mult. pose proof (slope_le_total ks i q Hi Hq) as S4. fold K in S4.
  apply Rmult_lt_compat_r with (r := 2 * (B + 1)) in A3; [|lra]. replace (rho / (2 * (B + 1)) * (2 * (B + 1))) with rho in A3 by (field; lra).
  pose proof (Rabs_pos h). pose proof (Rabs_pos (nth q (nth i ks []) 0)). nra.
Qed.
End LinearSlopes.

(** every successful step() of a solver on y' = J y + g(t) from (t, y) = (t0, y0) with
    |t_new - t0| < del: the new y is within C |t_new - t0|^(p+1) (plus the residual) of the solution *)
Theorem C20_linear_solver m p eps pe epse d J F t0 y0 Y T : In (m, p, eps, pe, epse) implicit_orders -> length y0 = d ->
  (exists g, linear_rhs d J g F) -> taylor_at (S d) d (fo F d) (pt t0 y0) T p -> solves F t0 y0 Y ->
  exists C del, 0 < del /\ forall o f ta tb ya c n v k v' t1 y1,
    linear_after m o f d None J F ta tb ya c n v -> esd_step m c k v = OOk v' -> (forall msg, ostat v' <> OFailed msg) ->
    e_t (ost v) = Fin t0 -> e_y (ost v) = map Fin y0 -> e_t (ost v') = Fin t1 -> e_y (ost v') = map Fin y1 -> Rabs (t1 - t0) < del ->
    forall q, (q < d)%nat -> Rabs (nth q y1 0 - nth q (Y t1) 0) <= Q2R eps * rsum p (fun n => differentials F T y0 n q * Rabs (t1 - t0) ^ S n) + C * Rabs (t1 - t0) ^ S p.
Proof.
  intros Hm Hy (g & HL) HT HY. destruct (C20_order m p eps pe epse d F t0 y0 Y T Hm Hy HT HY) as (rho & C & d1 & Hrho & Hd1 & H1).
  destruct (linear_slopes d (em_stages m) J g F (rA m) (rC m) t0 y0 HL Hy p ltac:(exists T; rewrite Hy; exact HT) rho Hrho) as (d2 & Hd2 & H2).
  exists C, (Rmin d1 d2). split; [apply Rmin_case; assumption|]. intros o f ta tb ya c n v k v' t1 y1 HA HS Hst E1 E2 E3 E4 Hh q Hq.
  assert (A1 : Rabs (t1 - t0) < d1) by (eapply Rlt_le_trans; [exact Hh|apply Rmin_l]).
  assert (A2 : Rabs (t1 - t0) < d2) by (eapply Rlt_le_trans; [exact Hh|apply Rmin_r]).
  destruct (C29_linear_step _ _ _ _ _ _ _ _ _ _ _ _ _ _ _ HA HS Hst) as (t & h & y & ks & y' & B1 & B2 & _ & B4 & B5 & _ & B7 & _).
  change (num RX) with xr in *. rewrite E1 in B1. injection B1 as <-. rewrite E2 in B2. apply map_inj_fin in B2. subst y. rewrite E3 in B4. injection B4 as ->.
  rewrite E4 in B5. apply map_inj_fin in B5. subst y'. replace (t0 + h - t0) with h in * by ring.
  destruct (H1 h ks y1 A1 B7 (H2 h ks A2 (irk_solution _ _ _ _ _ _ _ _ _ _ _ B7 Hy)) q Hq) as (X & _). exact X.
Qed.

(** ** a case: y' = y^2, y(0) = 1 with TRX2: for every rho the hypotheses are met by a step for every small h *)
Definition sq (_ : R) (y : list R) : list R := match y with [a] => [a * a] | _ => [] end.
Lemma quad_root a h : 0 <= 1 - h * a -> let w := 2 * a / (1 + sqrt (1 - h * a)) in w = a + h / 4 * (w * w).
Proof.
  intros H. set (r := sqrt (1 - h * a)). assert (E : r * r = 1 - h * a) by (apply sqrt_sqrt; exact H). assert (P : 0 <= r) by apply sqrt_pos.
  cbv zeta. assert (G : a * (h * a - 1 + r * r) = 0) by (rewrite E; ring).
  apply Rmult_eq_reg_r with (r := (1 + r) * (1 + r)); [|nra].
  replace (2 * a / (1 + r) * ((1 + r) * (1 + r))) with (2 * a * (1 + r)) by (field; lra).
  replace ((a + h / 4 * (2 * a / (1 + r) * (2 * a / (1 + r)))) * ((1 + r) * (1 + r))) with (a * ((1 + r) * (1 + r)) + h * a * a) by (field; lra).
  nra.
Qed.
Lemma quad_bound a h : 0 <= a -> 0 <= 1 - h * a -> 0 <= 2 * a / (1 + sqrt (1 - h * a)) <= 2 * a.
Proof.
  intros Ha H. assert (P : 0 <= sqrt (1 - h * a)) by apply sqrt_pos. set (r := sqrt (1 - h * a)) in *.
  assert (Q0 : 0 < / (1 + r)) by (apply Rinv_0_lt_compat; lra).
  assert (Q1 : / (1 + r) <= 1) by (rewrite <- Rinv_1; apply Rinv_le_contravar; lra).
  unfold Rdiv. split; nra.
Qed.
Example C20_case : In (TRX2_m, 2%nat, 0%Q, 2%nat, 0%Q) implicit_orders /\ (forall p, smooth_at p sq 0 [1]) /\
  forall rho, 0 < rho -> exists del, 0 < del /\ forall h, Rabs h < del -> exists ks y',
    irk_step (em_stages (@TRX2_m RX)) 1 (rA TRX2_m) (rB TRX2_m) (rC TRX2_m) None sq 0 h [1] ks y' /\ slopes_within (em_stages (@TRX2_m RX)) 1 h rho ks.
Proof.
  split; [right; left; reflexivity|]. split.
  { intros p. apply (polynomial_smooth 1); [|reflexivity]. exists (fun _ => [(1, [1%nat; 1%nat])]). split.
    - intros q _. repeat constructor.
    - intros t y Hy. destruct y as [|a [|? ?]]; try discriminate Hy. split; [reflexivity|]. intros [|q] Hq; [|lia]. simpl. ring. }
  intros rho Hr. exists (Rmin (1/8) (rho / 32)). split; [apply Rmin_case; lra|]. intros h Hh.
  assert (A1 : Rabs h < 1/8) by (eapply Rlt_le_trans; [exact Hh|apply Rmin_l]).
  assert (A2 : Rabs h < rho / 32) by (eapply Rlt_le_trans; [exact Hh|apply Rmin_r]).
  apply Rabs_def2 in A1. destruct A1 as (B1 & B2).
  assert (D0 : 0 <= 1 - h * (1 + h / 4)) by nra.
  pose proof (quad_root (1 + h / 4) h D0) as R1. cbv zeta in R1. pose proof (quad_bound (1 + h / 4) h ltac:(lra) D0) as (U1 & U2).
  set (u := 2 * (1 + h / 4) / (1 + sqrt (1 - h * (1 + h / 4)))) in *. clearbody u.
  assert (U3 : u <= 17/8) by lra. assert (U4 : u * u <= 289/64) by nra.
  set (a := u + h / 4 * (u * u)). assert (Ha1 : 0 <= a) by (unfold a; nra). assert (Ha2 : a <= 5/2) by (unfold a; nra).
  assert (D1 : 0 <= 1 - h * a) by nra.
  pose proof (quad_root a h D1) as R2. cbv zeta in R2. pose proof (quad_bound a h Ha1 D1) as (W1 & W2).
  set (w := 2 * a / (1 + sqrt (1 - h * a))) in *. clearbody w. assert (W3 : w * w <= 25) by nra.
  exists [[1]; [u * u]; [w * w]], [w].
  assert (EA : forall i l, rA TRX2_m i l = Q2R (nth l (nth i TRX2_A []) 0%Q)).
  { intros i l. rewrite (rA_q _ _ i l of_TRX2). unfold qent. cbn [TRX2_q upt qA]. change (@nil (Q * Q)) with (map up []). rewrite (map_nth (map up)). apply nth_up. }
  assert (EB : forall l, rB TRX2_m l = Q2R (nth l TRX2_B 0%Q)) by (intros l; rewrite (rB_q _ _ l of_TRX2); apply nth_up).
  assert (Q4 : Q2R (1 # 4) = 1/4) by (unfold Q2R; simpl; lra). assert (Q2 : Q2R (1 # 2) = 1/2) by (unfold Q2R; simpl; lra). assert (Q0 : Q2R (0 # 1) = 0) by (unfold Q2R; simpl; lra).
  change (em_stages (@TRX2_m RX)) with 3%nat. split; [split; [reflexivity|split]|].
  - intros i Hi. split; [destruct i as [|[|[|i]]]; [reflexivity| | |lia]; reflexivity|]. intros q Hq. replace q with 0%nat by lia.
    cbn [rmv_opt]. unfold rpoint, lcomb. cbn [seq map rsum sq nth]. rewrite !EA.
    destruct i as [|[|[|i]]]; [| | |lia]; cbn [nth TRX2_A]; rewrite ?Q0, ?Q4, ?Q2.
    + replace (1 + h * _) with 1 by ring. ring.
    + replace (1 + h * _) with u; [reflexivity|]. rewrite R1 at 1. field.
    + replace (1 + h * _) with w; [reflexivity|]. rewrite R2 at 1. unfold a. rewrite R1 at 1. field.
  - unfold rpoint, lcomb. cbn [seq map rsum nth]. rewrite !EB. cbn [nth TRX2_B]. rewrite ?Q4, ?Q2. f_equal. rewrite R2 at 1. unfold a. rewrite R1 at 1. field.
  - intros i q Hi Hq. replace q with 0%nat by lia. rewrite Rabs_mult. pose proof (Rabs_pos h).
    assert (G : forall x, 0 <= x <= 25 -> Rabs h * Rabs x <= rho) by (intros x Hx; rewrite (Rabs_pos_eq x) by lra; nra).
    destruct i as [|[|[|i]]]; [| | |lia]; cbn [nth]; apply G; nra.
Qed.
