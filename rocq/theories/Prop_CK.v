(** C40: CKdisc, the variable order method (cash.py).

    Vocabulary (model: CK.v, Ode.v; specification: SpecRK.v, [member] of CKOrder.v):
    [ck_built o fun_ t0 tb y0 c s]    CKdisc(fun_, t0, y0, tb, ...) returned a solver;
    [ck_after o fun_ t0 tb y0 c n v]  v is that solver after n returned step() calls;
    [ck_step c k v]                   one step() call with at most k trial steps;
    [ck_member ord]                   the embedded formula accepted when order_accepted = ord:
                                      stages, fraction of the trial step, weights, order, order of the estimate. *)
From Coq Require Import String ZArith Reals Lra Psatz QArith Qreals Bool Lia List.
From Verif Require Import Arith Common Stiff RK RKGen RKHist RX RKReal HStart RKInit RKInitReal RKStep RKBuilt RKMore RKTop NormReal SpecRK
  Tableaux Classes Dense Ode CK CKGen CKReal Series OrderThm OrderCheck OrderRK OrderModel OrderPair CKOrder CKTop DenseReal DenseStep DenseAcc DenseJoin DenseJoin2 Smooth QX RKEx RKRefute.
From Verif Require Prop_Order.
Import ListNotations.
Close Scope string_scope.
Open Scope nat_scope.
Open Scope R_scope.

(** the members, and that they have the orders claimed *)
Example C40_members : map (fun o => (mb_stages (ck_member o), mb_theta (ck_member o), mb_p (ck_member o), mb_pe (ck_member o))) [4; 2; 1]%nat
  = [(6, 1%Q, 5, 4); (4, 3#5, 3, 2); (2, 1#5, 2, 1)]%nat.
Proof. reflexivity. Qed.
Theorem C40_member_order ord d : In ord [4; 2; 1]%nat ->
  let M := ck_member ord in member_accurate (mb_tab RX M) (Q2R (mb_theta M)) d (mb_p M) (mb_pe M).
Proof. exact (ck_member_accurate ord d). Qed.

(** ** the control parameters, in every state of every history *)
Theorem C40_ranges o fun_ t0 tb y0 c n v : ck_after o fun_ t0 tb y0 c n v ->
  (exists a, tw0 (ost v) = Fin a /\ 11/10 <= a <= 3/2) /\ tw1 (ost v) = Fin (11/10) /\
  (exists q, qt0 (ost v) = Fin q /\ 1 <= q <= 10000) /\ (exists q, qt1 (ost v) = Fin q /\ 1 <= q <= 10000).
Proof.
  intros (s & HB & HH). eapply ck_hist_ranges; [|exact HH].
  destruct (ck_built_good _ _ _ _ _ _ _ HB) as (r & _ & (_ & _ & HL) & _). exact HL.
Qed.

(** a failure of the solver *)
Definition ok_step (v : OSolver RX (CKst RX)) : Prop := forall msg, ostat v <> OFailed msg.

Lemma ck_step_accepted o fun_ t0 tb y0 c n v k v' : ck_after o fun_ t0 tb y0 c n v -> ck_step c k v = OOk v' -> ok_step v' ->
  y (ckb (ost v)) <> [] ->
  exists r, good_cfg c r /\ RKReal.tb r = tb /\ 0 < dir r * (tb - t0) /\ direction c = Fin (dir r) /\ max_step c = o_max_step o /\ fn c = fun_ /\
    hb r = sqrt (/ 2 ^ 1022) /\
    ck_inv c r (ost v) /\ 0 < dir r * (tb - tval (ckb (ost v))) /\ ck_step_impl k c (ost v) = IDone (ost v') /\ ck_inv c r (ost v') /\
    ot_old v' = Some (t (ckb (ost v))) /\ (ostat v' = OFinished <-> dir r * (tb - tval (ckb (ost v'))) <= 0).
Proof.
  intros HA HS Hok Hne.
  destruct (ck_step_cases _ _ _ _ _ _ _ _ _ _ HA HS) as (r & HG & Etb & Hd & Hb & Em & _ & Ed & Ef & HI & HP & HC).
  exists r. repeat (split; [assumption|]).
  destruct HC as [(HD & HI' & Ho & HC)|[(msg & _ & HF & _)|(HE & _)]]; [|elim (Hok msg HF)|contradiction].
  split; [exact HD|]. split; [exact HI'|]. split; [exact Ho|].
  destruct HC as [[E H]|[E H]]; rewrite E; split; intros; auto; [discriminate|lra].
Qed.

(** ** what an accepted step is: the member of the order announced in order_accepted,
    applied to a trial step H of which the fraction theta is made; the scaled error of
    that member is below 1; rejected trials are counted and each was followed by one at
    most 9/10 and at least 1/5 of it; the next trial is at most 5 times this one, not
    larger after a rejection, and the fraction made when a lower order was accepted *)
Theorem C40_step o fun_ t0 tb y0 c n v k v' : ck_after o fun_ t0 tb y0 c n v -> ck_step c k v = OOk v' -> ok_step v' ->
  y (ckb (ost v)) <> [] ->
  let s0 := ckb (ost v) in let s1 := ckb (ost v') in
  exists ord j H0 H x x' sgn ks, let M := ck_member ord in
    In ord [4; 2; 1]%nat /\ ckord (ost v') = ord /\ t s0 = Fin x /\ t s1 = Fin x' /\
    (sgn = 1 /\ t0 < tb \/ sgn = -1 /\ tb < t0) /\ 0 < H /\ x' = x + Q2R (mb_theta M) * (sgn * H) /\
    textbook_rk (mb_tab RX M) (length (y s0)) fun_ (t s0) (y s0) (Fin (sgn * H)) ks (Fin (x + sgn * H)) (y s1) /\
    nltb RX (scaled_rms (rtol c) (atol c) (y s0) (y s1)
       (tab_error (mb_tab RX M) (length (y s0)) fun_ (Fin (sgn * H)) ks (Fin (x + sgn * H)) (y s1))) (Fin 1) = true /\
    f s1 = fun_ (t s1) (y s1) /\ y_old s1 = Some (y s0) /\ ot_old v' = Some (t s0) /\
    nfs s1 = (nfs s0 + j)%nat /\ H0 * (1/5) ^ j <= H <= H0 * (9/10) ^ j /\
    (exists H', h_abs s1 = Fin H' /\ 1/5 * H <= H' <= 5 * H /\ ((1 <= j)%nat -> H' <= H) /\ (ord <> 4%nat -> H' = Q2R (mb_theta M) * H)) /\
    exists l, calls s1 = calls s0 ++ l /\ (length l <= 5 * j + 6)%nat.
Proof.
  intros HA HS Hok Hne s0 s1.
  destruct (ck_step_accepted _ _ _ _ _ _ _ _ _ _ HA HS Hok Hne) as (r & HG & Etb & Hd & Ed & Em & Ef & Hb & HI & HP & HD & HI' & Ho & _).
  assert (Hnz : dir r * (RKReal.tb r - tval (ckb (ost v))) <> 0) by (rewrite Etb; lra).
  destruct (ck_accepted c r k _ _ HG HI Hnz HD) as (j & H & ord & q & ks & B). cbv zeta in B. fold s0 s1 in B. rewrite Ef in B.
  destruct B as (B1 & B2 & B3 & B4 & B5 & B6 & B7 & B8 & _ & _ & _ & _ & B9 & B10 & B11 & B12 & B13 & B14 & B15).
  destruct (ck_inv_fin _ _ _ HI) as (x & Hx). destruct (ck_inv_fin _ _ _ HI') as (x' & Hx'). fold s0 in Hx. fold s1 in Hx'.
  exists ord, j, (trial0 c r s0), H, x, x', (dir r), ks. cbv zeta.
  unfold tval in B6. rewrite Hx, Hx' in B6. rewrite n1_RX in B5. rewrite Hx in B4, B5 |- *.
  split; [exact B1|]. split; [exact B2|]. split; [reflexivity|]. split; [exact Hx'|].
  split; [destruct HG as (_ & ([D|D] & _) & _); rewrite D in *; [left|right]; (split; [reflexivity|lra])|].
  split; [exact B3|]. split; [exact B6|]. split; [exact B4|]. split; [exact B5|]. split; [exact B7|]. split; [exact B8|].
  split; [rewrite Ho; fold s0; rewrite Hx; reflexivity|].
  split; [exact B9|]. split; [exact B10|]. split; [|exact B15].
  destruct HI' as ((( _ & (h & Hh & _)) & _) & _). fold s1 in Hh. unfold hval in B11. rewrite Hh in B11.
  exists h. split; [exact Hh|]. subst h. split; [nra|]. split; [intros Hj; specialize (B13 Hj); nra|].
  intros Hj. rewrite (B14 Hj). ring.
Qed.

(** ** the order of the accepted solution and of its error estimate, in the step made *)
Theorem C40_order d F Y x0 u0 g : lifts d F g -> length u0 = d -> smooth_at 5 F x0 u0 -> solves F x0 u0 Y ->
  exists C del, 0 < del /\ forall o t0 tb y0 c n v k v' x', ck_after o g t0 tb y0 c n v -> ck_step c k v = OOk v' -> ok_step v' ->
    t (ckb (ost v)) = Fin x0 -> y (ckb (ost v)) = map Fin u0 -> u0 <> [] -> t (ckb (ost v')) = Fin x' -> Rabs (x' - x0) < del ->
    exists ord yr, ckord (ost v') = ord /\ y (ckb (ost v')) = map Fin yr /\
      match ord with 4 => True | 2 => True | 1 => True | _ => False end%nat /\
      forall q, (q < d)%nat -> Rabs (nth q yr 0 - nth q (Y x') 0) <=
        C * Rabs (x' - x0) ^ (match ord with 4 => 6 | 2 => 4 | _ => 3 end)%nat.
Proof.
  intros HL Hu HF HY.
  assert (HF3 : smooth_at 3 F x0 u0) by (eapply smooth_le; [|exact HF]; lia).
  assert (HF2 : smooth_at 2 F x0 u0) by (eapply smooth_le; [|exact HF]; lia).
  destruct (ck_member_accurate 4 d ltac:(simpl; auto) F x0 u0 Y g HL Hu HF HY) as (C4 & d4 & P4 & A4).
  destruct (ck_member_accurate 2 d ltac:(simpl; auto) F x0 u0 Y g HL Hu HF3 HY) as (C2 & d2 & P2 & A2).
  destruct (ck_member_accurate 1 d ltac:(simpl; auto) F x0 u0 Y g HL Hu HF2 HY) as (C1 & d1 & P1 & A1).
  exists (Rmax C4 (Rmax C2 C1)), (Rmin d4 (Rmin d2 d1)).
  split; [repeat apply Rmin_case; assumption|].
  intros o t0 tb y0 c n v k v' x' HA HS Hok E0 Eu Hne E1 Hx.
  assert (Hne' : y (ckb (ost v)) <> []) by (rewrite Eu; destruct u0; [contradiction|discriminate]).
  destruct (C40_step _ _ _ _ _ _ _ _ _ _ HA HS Hok Hne') as (ord & j & H0 & H & x & x1 & sgn & ks & B). cbv zeta in B.
  destruct B as (B1 & B2 & B3 & B4 & B5 & B6 & B7 & B8 & _).
  rewrite E0 in B3. injection B3 as <-. rewrite E1 in B4. injection B4 as <-.
  assert (Eln : length (y (ckb (ost v))) = d) by (rewrite Eu, map_length; exact Hu).
  rewrite Eln, E0, Eu in B8.
  assert (Ew : x' - x0 = Q2R (mb_theta (ck_member ord)) * (sgn * H)) by (rewrite B7; ring).
  assert (M4 : Rmin d4 (Rmin d2 d1) <= d4) by apply Rmin_l.
  assert (M2 : Rmin d4 (Rmin d2 d1) <= d2) by (eapply Rle_trans; [apply Rmin_r|apply Rmin_l]).
  assert (M1 : Rmin d4 (Rmin d2 d1) <= d1) by (eapply Rle_trans; [apply Rmin_r|apply Rmin_r]).
  assert (N4 : C4 <= Rmax C4 (Rmax C2 C1)) by apply Rmax_l.
  assert (N2 : C2 <= Rmax C4 (Rmax C2 C1)) by (eapply Rle_trans; [apply Rmax_l|apply Rmax_r]).
  assert (N1 : C1 <= Rmax C4 (Rmax C2 C1)) by (eapply Rle_trans; [apply Rmax_r|apply Rmax_r]).
  assert (Pp : forall m, 0 <= Rabs (x' - x0) ^ m) by (intros; apply pow_le, Rabs_pos).
  exists ord. destruct B1 as [<-|[<-|[<-|[]]]].
  - destruct (A4 (sgn * H) ks _ _ ltac:(rewrite <- Ew; lra) B8) as (yr & er & Ey & _ & _ & _ & HB).
    exists yr. split; [exact B2|]. split; [exact Ey|]. split; [exact I|]. intros q Hq. destruct (HB q Hq) as [HB1 _].
    rewrite <- Ew in HB1. replace (x0 + (x' - x0)) with x' in HB1 by ring. eapply Rle_trans; [exact HB1|]. apply Rmult_le_compat_r; [apply Pp|assumption].
  - destruct (A2 (sgn * H) ks _ _ ltac:(rewrite <- Ew; lra) B8) as (yr & er & Ey & _ & _ & _ & HB).
    exists yr. split; [exact B2|]. split; [exact Ey|]. split; [exact I|]. intros q Hq. destruct (HB q Hq) as [HB1 _].
    rewrite <- Ew in HB1. replace (x0 + (x' - x0)) with x' in HB1 by ring. eapply Rle_trans; [exact HB1|]. apply Rmult_le_compat_r; [apply Pp|assumption].
  - destruct (A1 (sgn * H) ks _ _ ltac:(rewrite <- Ew; lra) B8) as (yr & er & Ey & _ & _ & _ & HB).
    exists yr. split; [exact B2|]. split; [exact Ey|]. split; [exact I|]. intros q Hq. destruct (HB q Hq) as [HB1 _].
    rewrite <- Ew in HB1. replace (x0 + (x' - x0)) with x' in HB1 by ring. eapply Rle_trans; [exact HB1|]. apply Rmult_le_compat_r; [apply Pp|assumption].
Qed.

(** ** time: forward, within the interval, landing on t_bound *)
Theorem C40_monotone o fun_ t0 tb y0 c n v k v' : ck_after o fun_ t0 tb y0 c n v -> ck_step c k v = OOk v' -> ok_step v' ->
  y (ckb (ost v)) <> [] -> xleb (code_min_step c (ckb (ost v))) (max_step c) = true ->
  exists x x', t (ckb (ost v)) = Fin x /\ t (ckb (ost v')) = Fin x' /\ advances t0 tb x x' /\
    xleb (Fin (Rabs (x' - x))) (max_step c) = true /\ xleb (code_min_step c (ckb (ost v))) (Fin (5 * Rabs (x' - x))) = true /\
    (ostat v' = OFinished <-> x' = tb).
Proof.
  intros HA HS Hok Hne HM.
  destruct (ck_step_accepted _ _ _ _ _ _ _ _ _ _ HA HS Hok Hne) as (r & HG & Etb & Hd & Ed & Em & Ef & Hb & HI & HP & HD & HI' & Ho & HF).
  destruct HI as (HL & HFr). destruct (ck_inv_fin c r (ost v) (conj HL HFr)) as (x & Hx). destruct (ck_inv_fin _ _ _ HI') as (x' & Hx').
  destruct HL as (HLL & HLr).
  assert (Ems : code_min_step c (ckb (ost v)) = Fin (min_step_at r (ckb (ost v)))).
  { apply code_min_step_val; auto. }
  assert (Hmm : max_above_min c r (ckb (ost v))).
  { unfold max_above_min. rewrite Ems in HM. destruct (max_step c); auto. cbn [xleb] in HM. apply Rleb_true in HM. exact HM. }
  rewrite <- Etb in HP.
  destruct (ck_step_monotone c r k _ _ HG (conj HLL HLr) HP Hmm HD) as (M1 & M2 & M3 & M4).
  exists x, x'. split; [exact Hx|]. split; [exact Hx'|].
  unfold tval in *. rewrite Hx, Hx', ?Etb in *.
  pose proof HG as HG'. destruct HG' as (_ & (HdirC & _) & HMx).
  split; [|split; [|split]].
  - unfold advances. destruct HdirC as [D|D]; rewrite D in *; [left|right]; lra.
  - destruct (max_step c) as [M| | |] eqn:EM; cbn [xleb]; auto.
    + apply Rleb_true. exact M4.
    + exfalso. revert HM. rewrite Ems. cbn. discriminate.
    + exfalso. revert HM. rewrite Ems. cbn. discriminate.
  - rewrite Ems. cbn [xleb]. apply Rleb_true. exact M3.
  - rewrite HF. destruct HdirC as [D|D]; rewrite D in *; split; intros; lra.
Qed.
(** a step that covers the rest of the interval with the first trial at full order ends at t_bound *)
Theorem C40_lands o fun_ t0 tb y0 c n v k v' x h : ck_after o fun_ t0 tb y0 c n v -> ck_step c k v = OOk v' -> ok_step v' ->
  y (ckb (ost v)) <> [] -> nfs (ckb (ost v')) = nfs (ckb (ost v)) -> ckord (ost v') = 4%nat ->
  t (ckb (ost v)) = Fin x -> h_abs (ckb (ost v)) = Fin h ->
  xleb (code_min_step c (ckb (ost v))) (Fin h) = true -> xleb (Fin h) (max_step c) = true -> Rabs (tb - x) <= h ->
  t (ckb (ost v')) = Fin tb /\ ostat v' = OFinished.
Proof.
  intros HA HS Hok Hne Hn Ho4 Hx Hh Hm1 Hm2 Hd'.
  destruct (ck_step_accepted _ _ _ _ _ _ _ _ _ _ HA HS Hok Hne) as (r & HG & Etb & Hd & Ed & Em & Ef & Hb & HI & HP & HD & HI' & Ho & HF).
  destruct HI as (HL & HFr). destruct (ck_inv_fin _ _ _ HI') as (x' & Hx').
  rewrite <- Etb in HP. pose proof (ck_step_lands c r k _ _ HG HL HP HD Hn Ho4) as HLd.
  rewrite (code_min_step_val c r) in Hm1; [|exact HG|apply HL]. cbn [xleb] in Hm1. apply Rleb_true in Hm1.
  assert (E : tval (ckb (ost v')) = tb).
  { rewrite <- Etb. apply HLd. unfold dist, clip, hval, tval. rewrite Hh, Hx, Etb.
    destruct (Rltb_spec h (min_step_at r (ckb (ost v)))); [lra|]. cbn [orb].
    destruct (xltb (max_step c) (Fin h)) eqn:EL; [|lra].
    exfalso. destruct (max_step c) as [M| | |]; cbn [xltb xleb] in *; try discriminate.
    apply Rltb_true in EL. apply Rleb_true in Hm2. lra. }
  unfold tval in E, HF. rewrite Hx' in E, HF |- *. subst x'. split; [reflexivity|]. apply HF. lra.
Qed.

(** every accepted step keeps the invariant and covers a fifth of the smallest step *)
Lemma ck_adv c r tb k s s' : good_cfg c r -> RKReal.tb r = tb -> ck_inv c r s -> ahead ck_view tb (dir r) s -> ck_step_impl k c s = IDone s' ->
  ck_inv c r s' /\ hb r / 5 <= dir r * (tv ck_view s' - tv ck_view s).
Proof.
  intros HG E1 (HLs & HFs) HAh HD. apply (proj1 (ck_ahead _ _ _)) in HAh. rewrite <- E1 in HAh.
  destruct (ck_step_real c r k s s' HG HLs ltac:(apply Rgt_not_eq; exact HAh) HD) as (j & H1 & ord & q & _ & A2 & _ & _ & _ & A6 & _ & _ & _ & _ & _ & _ & HL' & HH1 & HF').
  split; [split; assumption|]. unfold tv. cbn [ck_view v_t]. fold (tval (ckb s')). fold (tval (ckb s)). rewrite A6.
  assert (hb r <= min_step_at r (ckb s)) by (unfold min_step_at, min_step_of; apply Rmax_r).
  pose proof (theta_pos ord). destruct HG as (_ & ([D|D] & _) & _); rewrite D; nra.
Qed.

(** ** termination of one step() call, with an explicit number of trials *)
Theorem C40_terminates o fun_ t0 tb y0 c n v N : ck_after o fun_ t0 tb y0 c n v -> ostat v = ORunning ->
  Rabs (tb - t0) * (9/10) ^ N < sqrt (/ 2 ^ 1022) -> (1 <= N)%nat ->
  forall k, (N < k)%nat -> ck_step c k v <> OFuel /\ ck_step c k v = ck_step c (S N) v.
Proof.
  intros HA Hr HN HN1 k Hk.
  destruct (ck_after_inv _ _ _ _ _ _ _ _ HA) as (r & s0 & HG & E1 & Hd & Hb & EM & Ef & Etb & Edir & HI0 & Et & HH & HO0 & HO).
  unfold oinv in HO. rewrite Hr in HO. destruct HO as [HI HAh]. apply (proj1 (ck_ahead _ _ _)) in HAh.
  pose proof HI as (HL & _). rewrite <- E1 in HAh.
  assert (Hle : dist r (ckb (ost v)) <= Rabs (tb - t0)).
  { unfold dist. rewrite E1, <- Et.
    apply (ohist_between ck_view tb (dir r) (fun k => ck_step_impl k c) (proj1 (proj1 (proj2 HG))) (ck_inv c r) (ck_inv_fin c r)
      (fun k s s' H1 H2 H3 => proj1 (ck_adv c r tb k s s' HG E1 H1 H2 H3)) _ (Rdiv_lt_0_compat _ 5 sqrt_tiny_pos ltac:(lra))
      (fun k s s' H1 H2 H3 _ => eq_ind _ (fun z => z / 5 <= _) (proj2 (ck_adv c r tb k s s' HG E1 H1 H2 H3)) _ Hb) _ _ _ HO0 HH Hr). }
  assert (Hms : sqrt (/ 2 ^ 1022) <= min_step_at r (ckb (ost v))) by (rewrite <- Hb; unfold min_step_at, min_step_of; apply Rmax_r).
  assert (Hfin : trial0 c r (ckb (ost v)) * (9/10) ^ N < min_step_at r (ckb (ost v))).
  { pose proof (pow910_le1 N) as Hp. pose proof (trial0_le_max c r (ckb (ost v)) HG (proj1 HL)) as HT.
    destruct (Rle_dec (dist r (ckb (ost v))) (min_step_at r (ckb (ost v)))).
    - assert (trial0 c r (ckb (ost v)) <= min_step_at r (ckb (ost v))) by (eapply Rle_trans; [exact HT|]; rewrite Rmax_right; lra).
      assert (0 < min_step_at r (ckb (ost v))) by (pose proof (sqrt_tiny_pos); lra).
      destruct N as [|N']; [lia|]. simpl in Hp |- *. pose proof (pow910_le1 N'). nra.
    - assert (trial0 c r (ckb (ost v)) <= dist r (ckb (ost v))) by (eapply Rle_trans; [exact HT|]; rewrite Rmax_left; lra).
      nra. }
  destruct (ck_step_terminates c r (ost v) HG HL ltac:(apply Rgt_not_eq; exact HAh) N Hfin k Hk) as (T1 & T2).
  unfold ck_step, ostep. rewrite Hr, T2. split; [|reflexivity].
  rewrite <- T2. destruct (_ || _); [discriminate|]. destruct (ck_step_impl k c (ost v)); try discriminate. contradiction.
Qed.
(** such an N exists for every interval *)
Theorem C40_bound_exists (d : R) : exists N : nat, (1 <= N)%nat /\ d * (9/10) ^ N < sqrt (/ 2 ^ 1022).
Proof.
  pose proof sqrt_tiny_pos as HT. destruct (Rle_dec d 0) as [H|H].
  - exists 1%nat. split; [lia|]. rewrite pow_1. set (e := sqrt _) in *. clearbody e. lra.
  - destruct (pow_lt_1_zero (9/10)) with (y := sqrt (/ 2 ^ 1022) / d) as (N & HN).
    + rewrite Rabs_pos_eq; lra.
    + apply Rdiv_lt_0_compat; lra.
    + specialize (HN (S N) ltac:(lia)). exists (S N). split; [lia|]. rewrite Rabs_pos_eq in HN by (apply pow_le; lra).
      apply Rmult_lt_compat_l with (r := d) in HN; [|lra]. replace (d * (sqrt (/ 2 ^ 1022) / d)) with (sqrt (/ 2 ^ 1022)) in HN by (field; lra). exact HN.
Qed.
Theorem C40_no_exception o fun_ t0 tb y0 c n v k e : ck_after o fun_ t0 tb y0 c n v -> ostat v = ORunning -> ck_step c k v <> OExn e.
Proof.
  intros _ Hr. unfold ck_step, ostep. rewrite Hr. destruct (_ || _); [discriminate|]. unfold ck_step_impl.
  destruct (reassess_stepsize c (ckb (ost v))) as [[h ms] sc].
  match goal with |- context [ck_loop k c ?x h ms false] => pose proof (ck_loop_noraise c k x h ms false) as HN; destruct (ck_loop k c x h ms false) end; try discriminate.
  intros E. injection E as ->. exact (HN e eq_refl).
Qed.
Theorem C40_steps_bounded o fun_ t0 tb y0 c n v : ck_after o fun_ t0 tb y0 c n v ->
  INR n * (sqrt (/ 2 ^ 1022) / 5) < Rabs (tb - t0) + sqrt (/ 2 ^ 1022) / 5.
Proof.
  intros HA. destruct (ck_after_inv _ _ _ _ _ _ _ _ HA) as (r & s0 & HG & E1 & Hd & Hb & EM & Ef & Etb & Edir & HI0 & Et & HH & HO0 & HO).
  pose proof (ohist_bounded ck_view tb (dir r) (fun k => ck_step_impl k c) (proj1 (proj1 (proj2 HG))) (ck_inv c r) (ck_inv_fin c r)
      (fun k s s' H1 H2 H3 => proj1 (ck_adv c r tb k s s' HG E1 H1 H2 H3)) _ (Rdiv_lt_0_compat _ 5 sqrt_tiny_pos ltac:(lra))
      (fun k s s' H1 H2 H3 _ => eq_ind _ (fun z => z / 5 <= _) (proj2 (ck_adv c r tb k s s' HG E1 H1 H2 H3)) _ Hb) _ _ _ HO0 eq_refl HH) as H.
  unfold tv in H. cbn [onew ost ck_view v_t] in H. fold (tval (ckb s0)) in H. rewrite Et in H. exact H.
Qed.
(** calling step() repeatedly ends with status 'finished' or 'failed' *)
Theorem C40_run_ends o fun_ t0 tb y0 c s : ck_built o fun_ t0 tb y0 c s ->
  exists n v, ck_after o fun_ t0 tb y0 c n v /\ (ostat v = OFinished \/ ck_failed v).
Proof.
  intros HB. assert (HA : ck_after o fun_ t0 tb y0 c 0 (onew s)) by (exists s; split; [exact HB|constructor]).
  destruct (ck_after_inv _ _ _ _ _ _ _ _ HA) as (r & s0 & HG & E1 & Hd & Hb & EM & Ef & Etb & Edir & HI0 & Et & HH & HO0 & HO).
  assert (Prog : forall s, ck_inv c r s -> ahead ck_view tb (dir r) s -> exists k s', ck_step_impl k c s = IDone s' \/ exists msg, ck_step_impl k c s = IFail s' msg).
  { intros s1 (HL & _) HAh. apply (proj1 (ck_ahead _ _ _)) in HAh. rewrite <- E1 in HAh.
    pose proof (trial0_pos c r (ckb s1) HG (proj1 HL) ltac:(apply Rgt_not_eq; exact HAh)) as Hpos.
    assert (Hms : 0 < min_step_at r (ckb s1)).
    { apply Rlt_le_trans with (hb r); [rewrite Hb; apply sqrt_tiny_pos|unfold min_step_at, min_step_of; apply Rmax_r]. }
    destruct (pow_lt_1_zero (9/10)) with (y := min_step_at r (ckb s1) / trial0 c r (ckb s1)) as (N & HN).
    { rewrite Rabs_pos_eq; lra. } { apply Rdiv_lt_0_compat; lra. }
    specialize (HN N ltac:(lia)). rewrite Rabs_pos_eq in HN by (apply pow_le; lra).
    apply Rmult_lt_compat_l with (r := trial0 c r (ckb s1)) in HN; [|lra].
    replace (trial0 c r (ckb s1) * (min_step_at r (ckb s1) / trial0 c r (ckb s1))) with (min_step_at r (ckb s1)) in HN by (field; lra).
    destruct (ck_step_terminates c r s1 HG HL ltac:(apply Rgt_not_eq; exact HAh) N HN (S N) ltac:(lia)) as (T & _).
    exists (S N). assert (NR : forall e, ck_step_impl (S N) c s1 <> IRaise e).
    { intros e. unfold ck_step_impl. destruct (reassess_stepsize c (ckb s1)) as [[h ms] sc]. apply ck_loop_noraise. }
    destruct (ck_step_impl (S N) c s1) as [s2|s2 msg|e|]; [exists s2; auto|exists s2; right; eauto|elim (NR e eq_refl)|contradiction]. }
  destruct (run_ends_gen ck_view tb (dir r) (fun k => ck_step_impl k c) (proj1 (proj1 (proj2 HG))) (ck_inv c r) (ck_inv_fin c r)
      (fun k s s' H1 H2 H3 => proj1 (ck_adv c r tb k s s' HG E1 H1 H2 H3)) _ (Rdiv_lt_0_compat _ 5 sqrt_tiny_pos ltac:(lra))
      (fun k s s' H1 H2 H3 _ => eq_ind _ (fun z => z / 5 <= _) (proj2 (ck_adv c r tb k s s' HG E1 H1 H2 H3)) _ Hb) Prog (onew s)) as (n & v & H1 & H2).
  { exact HO. } { reflexivity. }
  exists n, v. split; [exists s; split; [exact HB|rewrite Etb, Edir; exact H1]|].
  destruct (ostat v) eqn:E; [congruence|auto|right; exists msg; exact E].
Qed.

(** ** a failing step() leaves the last accepted point, in any arithmetic *)
Theorem C40_failure (A : Arith) (c : Cfg A) tb dir k v v' msg : ostep ck_view tb dir (ck_step_impl k c) v = OOk v' -> ostat v' = OFailed msg ->
  t (ckb (ost v')) = t (ckb (ost v)) /\ y (ckb (ost v')) = y (ckb (ost v)) /\ f (ckb (ost v')) = f (ckb (ost v)) /\
  y_old (ckb (ost v')) = y_old (ckb (ost v)) /\ h_abs (ckb (ost v')) = h_abs (ckb (ost v)) /\ ckord (ost v') = ckord (ost v) /\ ot_old v' = ot_old v /\
  ((msg = ck_too_small /\ exists trial_h, nltb A trial_h (pymax (nmul A (h_min_a c) (nadd A (nabs A (t (ckb (ost v)))) (h_abs (ckb (ost v))))) (h_min_b c)) = true)
   \/ msg = ck_overflow).
Proof.
  unfold ostep. destruct (ostat v); try discriminate. destruct (_ || _); [intros E; injection E as <-; discriminate|].
  destruct (ck_step_impl k c (ost v)) as [s'|s' m|e|] eqn:EI; try discriminate.
  { intros E. injection E as <-. cbn [ostat]. destruct (nleb _ _ _); discriminate. }
  intros E. injection E as <-. cbn [ostat ost ot_old]. intros E. injection E as ->. unfold ck_step_impl in EI.
  destruct (reassess_stepsize c (ckb (ost v))) as [[h ms] sc] eqn:ER.
  destruct (ck_loop_fail c _ _ _ _ _ _ _ EI) as (HC & _ & HO & HM & HS).
  destruct HC as (C1 & C2 & C3 & C4 & C5 & C6 & _). cbn [ckb with_trial t y f h_abs y_old ckord] in *.
  repeat (split; [assumption|]). split; [reflexivity|].
  destruct HM as [HM|HM]; [left|right; exact HM]. split; [exact HM|]. destruct (HS HM) as (th & Hth). exists th.
  assert (Ems : ms = pymax (nmul A (h_min_a c) (nadd A (nabs A (t (ckb (ost v)))) (h_abs (ckb (ost v))))) (h_min_b c)).
  { unfold reassess_stepsize in ER. cbv zeta in ER. repeat match type of ER with context [if ?b then _ else _] => destruct b end; injection ER; auto. }
  rewrite <- Ems. exact Hth.
Qed.

(** ** dense output *)
Section Dense4.
Variables (d : nat) (F : R -> list R -> list R) (g : num RX -> list (num RX) -> list (num RX)).
Hypothesis HL : lifts d F g.
Let rs x0 u0 h := rstages F (mq (extA CKdisc_A CKdisc_B [])) (vq (extC CKdisc_C [])) x0 u0 h 7.
Lemma ck4_tab : mb_tab RX (ck_member 4) = mk_tab 6 CKdisc_A CKdisc_B CKdisc_C (firstn 6 CKdisc_E).
Proof. reflexivity. Qed.
Lemma ck4_stages x0 u0 h ks tt u1 : length u0 = d ->
  textbook_rk (mb_tab RX (ck_member 4)) d g (Fin x0) (map Fin u0) (Fin h) ks tt u1 ->
  exists ur, u1 = map Fin ur /\ length ur = d /\ tt = Fin (x0 + h) /\ ks ++ [g (Fin (x0 + h)) u1] = map (map Fin) (rs x0 u0 h) /\
    ur = rpoint d u0 h (lcomb 6 (vq CKdisc_B) (rstages F (mq CKdisc_A) (vq CKdisc_C) x0 u0 h 6)) /\
    nth 6 (rs x0 u0 h) [] = F (x0 + h) ur.
Proof.
  intros Hu HT. rewrite ck4_tab in HT. destruct (textbook_real d F g 6 CKdisc_A CKdisc_B CKdisc_C _ x0 u0 h ks tt u1 HL Hu eq_refl HT) as (-> & -> & ->).
  set (r6 := rstages F (mq CKdisc_A) (vq CKdisc_C) x0 u0 h 6). set (ur := rpoint d u0 h (lcomb 6 (vq CKdisc_B) r6)).
  assert (Lr : length ur = d) by apply rpoint_len.
  exists ur. split; [reflexivity|]. split; [exact Lr|]. split; [reflexivity|].
  pose proof (ext_all d F g CKdisc_A CKdisc_B CKdisc_C x0 u0 h 6 HL eq_refl eq_refl eq_refl Hu) as EA. cbv zeta in EA. fold r6 in EA. fold ur in EA.
  unfold rs. rewrite EA. split; [rewrite map_app; cbn [map]; destruct (HL (x0 + h) ur Lr) as (_ & ->); reflexivity|].
  split; [reflexivity|]. rewrite app_nth2 by (unfold r6; rewrite rstages_length; lia). unfold r6. rewrite rstages_length. reflexivity.
Qed.
End Dense4.

Lemma map_Fin_inj : forall a b : list R, map Fin a = map Fin b -> a = b.
Proof. induction a as [|x a IH]; intros [|z b] E; try discriminate E; [reflexivity|]. cbn [map] in E. injection E as -> E. f_equal. auto. Qed.
Lemma ck4_horner d F g x0 u0 x1 : lifts d F g -> length u0 = d -> x1 <> x0 ->
  let h := x1 - x0 in let RSs := rstages F (mq (extA CKdisc_A CKdisc_B [])) (vq (extC CKdisc_C [])) x0 u0 h 7 in
  forall th, reals d (call (mk_horner (Fin x0) (Fin x1) (map Fin u0) (KtP d (map (map Fin) RSs) (lm CKdisc_P))) (Fin (x0 + th * h)))
    (fun q => nth q u0 0 + h * lcomb 7 (pw QN 1 (qcols CKdisc_P) CKdisc_P th) RSs q).
Proof.
  intros HL Hu Hne h RSs th. assert (Hh : h <> 0) by (unfold h; lra).
  pose proof (call_horner d CKdisc_P x0 h th (map Fin u0) _ _ _ Hh ltac:(cbv; lia) (reals_intro d u0 Hu)
     (realsK_stages d F g (mq (extA CKdisc_A CKdisc_B [])) (vq (extC CKdisc_C [])) x0 u0 h 7 HL Hu)) as HR.
  fold RSs in HR. rewrite map_length in HR. unfold RSs in HR at 2. rewrite rstages_length in HR.
  replace (x0 + h) with x1 in HR by (unfold h; ring). exact HR.
Qed.

Theorem C40_dense d F g o t0 tb y0 c n v k v' x0 u0 x1 : lifts d F g -> length u0 = d -> u0 <> [] ->
  ck_after o g t0 tb y0 c n v -> ck_step c k v = OOk v' -> ok_step v' ->
  t (ckb (ost v)) = Fin x0 -> y (ckb (ost v)) = map Fin u0 -> t (ckb (ost v')) = Fin x1 ->
  exists D u1, ot_old v' = Some (Fin x0) /\ ck_dense (Fin x0) (ost v') = Some D /\ y (ckb (ost v')) = map Fin u1 /\
    joins d D x0 u0 (F x0 u0) x1 u1 (F x1 u1).
Proof.
  intros HL Hu Hne HA HS Hok E0 Eu E1.
  assert (Hne' : y (ckb (ost v)) <> []) by (rewrite Eu; destruct u0; [contradiction|discriminate]).
  destruct (ck_step_accepted _ _ _ _ _ _ _ _ _ _ HA HS Hok Hne') as (r & HG & Etb & Hd & Ed & Em & Ef & Hb & HI & HP & HD & HI' & Ho & _).
  assert (Hnz : dir r * (RKReal.tb r - tval (ckb (ost v))) <> 0) by (rewrite Etb; lra).
  destruct (ck_accepted c r k _ _ HG HI Hnz HD) as (j & H & ord & q & ks & B). cbv zeta in B. rewrite Ef in B.
  destruct B as (B1 & B2 & B3 & B4 & _ & B6 & B7 & B8 & B9 & B10 & B11 & B12 & _).
  assert (Eln : length (y (ckb (ost v))) = d) by (rewrite Eu, map_length; exact Hu).
  rewrite Eln, E0, Eu in B4. change (nadd RX (Fin x0) (Fin (dir r * H))) with (Fin (x0 + dir r * H)) in B4.
  unfold tval in B6. rewrite E0, E1 in B6.
  assert (Hx : x1 <> x0).
  { assert (0 < Q2R (mb_theta (ck_member ord))) by (rewrite <- ck_theta_Q by auto; pose proof (theta_pos ord); lra).
    intros E. rewrite E in B6. destruct HG as (_ & ([D|D] & _) & _); rewrite D in B6; nra. }
  assert (G : exists u1, y (ckb (ost v')) = map Fin u1 /\ length u1 = d).
  { destruct B1 as [<-|[<-|[<-|[]]]].
    - destruct (ck4_stages d F g HL x0 u0 _ ks _ _ Hu B4) as (ur & E & L & _). eauto.
    - destruct (textbook_real d F g (mb_stages (ck_member 2)) (firstn (mb_stages (ck_member 2)) CKdisc_A) (mb_b (ck_member 2)) (firstn (mb_stages (ck_member 2)) CKdisc_C) (mb_e (ck_member 2)) x0 u0 _ ks _ _ HL Hu eq_refl B4) as (_ & _ & E). eexists. split; [exact E|apply rpoint_len].
    - destruct (textbook_real d F g (mb_stages (ck_member 1)) (firstn (mb_stages (ck_member 1)) CKdisc_A) (mb_b (ck_member 1)) (firstn (mb_stages (ck_member 1)) CKdisc_C) (mb_e (ck_member 1)) x0 u0 _ ks _ _ HL Hu eq_refl B4) as (_ & _ & E). eexists. split; [exact E|apply rpoint_len]. }
  destruct G as (u1 & Ey1 & L1).
  destruct (HL x0 u0 Hu) as (LF0 & G0). destruct (HL x1 u1 L1) as (LF1 & G1).
  unfold ck_dense. rewrite B8, B2, E1, Ey1, map_length, L1, Eu. cbv zeta. 
  eexists. exists u1. split; [rewrite Ho, E0; reflexivity|]. split; [reflexivity|]. split; [reflexivity|].
  destruct (Nat.eqb ord 4) eqn:E4.
  - apply Nat.eqb_eq in E4. subst ord. rewrite B12 by exact E4. rewrite E4 in *.
    assert (Eth : Q2R (mb_theta (ck_member 4)) = 1) by (cbn; unfold Q2R; simpl; lra). rewrite Eth, Rmult_1_l in B6.
    destruct (ck4_stages d F g HL x0 u0 _ ks _ _ Hu B4) as (ur & E & L & _ & EK & Eur & EF).
    assert (Ru : ur = u1) by (rewrite Ey1 in E; apply map_Fin_inj in E; auto). rewrite Ru in *. clear Ru ur.
    replace (dir r * H) with (x1 - x0) in * by lra. replace (x0 + (x1 - x0)) with x1 in * by ring.
    assert (EKf : ks ++ [f (ckb (ost v'))] = map (map Fin) (rstages F (mq (extA CKdisc_A CKdisc_B [])) (vq (extC CKdisc_C [])) x0 u0 (x1 - x0) 7)) by (rewrite B7, E1; exact EK).
    rewrite EKf.
    set (RSs := rstages F (mq (extA CKdisc_A CKdisc_B [])) (vq (extC CKdisc_C [])) x0 u0 (x1 - x0) 7) in *.
    assert (HJ : join_ok 6 CKdisc_A CKdisc_B CKdisc_C [] [] CKdisc_P = true) by (vm_compute; reflexivity).
    destruct (join_spec _ _ _ _ _ _ _ HJ) as (He & Hc & Hs & HW). change (7 + @length (list Q) [])%nat with 7%nat in HW.
    pose proof (ck4_horner d F g x0 u0 x1 HL Hu Hx) as HR. cbv zeta in HR. fold RSs in HR.
    eapply (joins_wval d _ 7 (pw QN 1 (qcols CKdisc_P) CKdisc_P) (dpw 1 (qcols CKdisc_P) CKdisc_P 0) (dpw 1 (qcols CKdisc_P) CKdisc_P 1) u0 (fun i q => nth q (nth i RSs []) 0) x0 x1 u1 _ _ 0 6); auto; try lia.
    + intros z. specialize (HR ((z - x0) / (x1 - x0))). replace (x0 + (z - x0) / (x1 - x0) * (x1 - x0)) with z in HR by (field; lra).
      destruct HR as (rr & Er & Lr & Nr). exists rr. split; [exact Er|]. split; [exact Lr|]. intros q' Hq. rewrite Nr by auto. reflexivity.
    + intros i Hi. apply HW; auto.
    + intros q' Hq. rewrite Eur, rpoint_nth by auto. f_equal. f_equal.
      rewrite (rsum_ext 7 _ (fun i => vq CKdisc_B i * nth q' (nth i RSs []) 0)) by (intros i Hi; destruct (HW i Hi) as (_ & -> & _); reflexivity).
      change (rsum 7 (fun i => vq CKdisc_B i * nth q' (nth i RSs []) 0)) with (lcomb 7 (vq CKdisc_B) RSs q').
      rewrite <- (ext_stages F CKdisc_A CKdisc_B CKdisc_C [] [] x0 u0 (x1 - x0) 6 eq_refl eq_refl). symmetry. apply lcomb_ext_zero; [lia|]. intros l Hl. apply vq_overflow. cbn. lia.
    + intros i Hi. apply dlim_pw. lia.
    + intros i Hi. apply dlim_pw. lia.
    + intros i Hi. apply HW; auto.
    + intros i Hi. apply HW; auto.
    + intros q' Hq. unfold RSs. rewrite rstages_nth0; [reflexivity|lia|]. rewrite vq_nth. apply Q2R_0'.
    + intros q' Hq. rewrite EF. reflexivity.
  - apply cubic_joins_real; auto. rewrite B10, B11, B7, E0, E1, Eu, Ey1, G0, G1. reflexivity.
Qed.

(** after a step of order 5 the dense output has error O(h^5) at every point of the step *)
Theorem C40_dense_order d F Y x0 u0 g : lifts d F g -> length u0 = d -> smooth_at 4 F x0 u0 -> solves F x0 u0 Y ->
  exists C del, 0 < del /\ forall o t0 tb y0 c n v k v' x1 th, ck_after o g t0 tb y0 c n v -> ck_step c k v = OOk v' -> ok_step v' ->
    t (ckb (ost v)) = Fin x0 -> y (ckb (ost v)) = map Fin u0 -> u0 <> [] -> t (ckb (ost v')) = Fin x1 -> ckord (ost v') = 4%nat ->
    Rabs (x1 - x0) < del -> 0 <= th <= 1 ->
    exists D r, ck_dense (Fin x0) (ost v') = Some D /\ call D (Fin (x0 + th * (x1 - x0))) = map Fin r /\ length r = d /\
      forall q, (q < d)%nat -> Rabs (nth q r 0 - nth q (Y (x0 + th * (x1 - x0))) 0) <= C * Rabs (x1 - x0) ^ 5.
Proof.
  intros HL Hu HF HY.
  assert (HJ : interp_ok 6 CKdisc_A CKdisc_B CKdisc_C [] [] CKdisc_P 4 = true) by (vm_compute; reflexivity).
  destruct (interp_real 6 CKdisc_A CKdisc_B CKdisc_C [] [] CKdisc_P 4 HJ d F x0 u0 Y Hu HF HY) as (C & del & Hdel & HB).
  exists C, del. split; [exact Hdel|]. intros o t0 tb y0 c n v k v' x1 th HA HS Hok E0 Eu Hne E1 E4 Hh Hth.
  assert (Hne' : y (ckb (ost v)) <> []) by (rewrite Eu; destruct u0; [contradiction|discriminate]).
  destruct (ck_step_accepted _ _ _ _ _ _ _ _ _ _ HA HS Hok Hne') as (r & HG & Etb & Hd & Ed & Em & Ef & Hb & HI & HP & HD & HI' & Ho & _).
  assert (Hnz : dir r * (RKReal.tb r - tval (ckb (ost v))) <> 0) by (rewrite Etb; lra).
  destruct (ck_accepted c r k _ _ HG HI Hnz HD) as (j & H & ord & q & ks & B). cbv zeta in B. rewrite Ef in B.
  destruct B as (B1 & B2 & B3 & B4 & _ & B6 & B7 & B8 & B9 & B10 & B11 & B12 & _).
  assert (Eo : ord = 4%nat) by congruence. rewrite Eo in *. clear ord Eo.
  assert (Eln : length (y (ckb (ost v))) = d) by (rewrite Eu, map_length; exact Hu).
  rewrite Eln, E0, Eu in B4. change (nadd RX (Fin x0) (Fin (dir r * H))) with (Fin (x0 + dir r * H)) in B4.
  unfold tval in B6. rewrite E0, E1 in B6.
  assert (Eth : Q2R (mb_theta (ck_member 4)) = 1) by (cbn; unfold Q2R; simpl; lra). rewrite Eth, Rmult_1_l in B6.
  assert (Hx : x1 <> x0).
  { intros E. rewrite E in B6. destruct HG as (_ & ([D|D] & _) & _); rewrite D in B6; nra. }
  replace (dir r * H) with (x1 - x0) in * by lra. 
  destruct (ck4_stages d F g HL x0 u0 _ ks _ _ Hu B4) as (ur & E & L & _ & EK & Eur & EF).
  replace (x0 + (x1 - x0)) with x1 in * by ring.
  unfold ck_dense. rewrite B8, B2, E1, E, map_length, L, Eu, B12, B7, E1 by reflexivity. cbn [Nat.eqb]. rewrite EK.
  pose proof (ck4_horner d F g x0 u0 x1 HL Hu Hx th) as HR. cbv zeta in HR. destruct HR as (rr & Er & Lr & Nr).
  eexists. exists rr. split; [reflexivity|]. split; [exact Er|]. split; [exact Lr|]. intros q' Hq. rewrite Nr by auto. apply HB; auto.
Qed.

(** ** concrete cases *)
(** the constructor accepts every problem with the default options, so the theorems about
    [ck_built] and [ck_after] are about every right-hand side *)
Example C40_builds fun_ t0 tb y0 : t0 <> tb -> y0 <> [] -> exists c s, ck_built (opts None PInf 0) fun_ t0 tb y0 c s.
Proof.
  intros Hne Hy.
  assert (HI : exists c s, rk_init CKdisc_cls (opts None PInf 0) fun_ (Fin t0) y0 (Fin tb) = inl (c, s)).
  { unfold rk_init. cbn [o_max_step opts o_rtol o_rtol_is_float o_atol o_first_step o_stiff o_sc].
    rewrite n0_RX. cbn [nleb RX xleb].
    assert (HV : exists p, validate_tol true (Fin (1/1000)) (Scalar (Fin (1/1000000))) y0 = inl p).
    { unfold validate_tol. rewrite n0_RX. cbn [negb nltb RX xltb]. unfold Rltb.
      destruct (Rlt_dec (1/1000000) 0); [lra|]. destruct (Rlt_dec (1/1000) 0); [lra|]. eauto. }
    destruct HV as ((rt, at_) & ->).
    assert (HS : exists a, init_stiff (k_stab (@CKdisc_cls RX)) 0 = inl a) by (unfold init_stiff; simpl; eauto).
    destruct HS as (nsd & ->).
    assert (HC : exists a b c d, sc_coefs (sc_or ScNone (k_sc (@CKdisc_cls RX))) = inl (a, b, c, d)) by (simpl; do 4 eexists; reflexivity).
    destruct HC as (a & b & cc & d & ->).
    destruct (h_start _ _ _ _ _ _ _ _ _ _) as [h cl]. eauto. }
  destruct HI as (c & s & HI). exists c. eexists. constructor; auto; try discriminate.
  - unfold ck_init. cbn [o_max_step opts o_rtol o_rtol_is_float o_atol o_first_step o_stiff o_sc].
    change {| o_max_step := PInf; o_rtol := Fin (1/1000); o_rtol_is_float := true; o_atol := Scalar (Fin (1/1000000)); o_first_step := None; o_stiff := 0; o_sc := ScNone |} with (opts None PInf 0).
    rewrite HI. reflexivity.
  - unfold sc_or. cbn [opts o_sc sc_truthy]. apply sc_names_ok. simpl. intuition.
Qed.

(** in rounded arithmetic: y' jumps at the end of the step, after the nodes of the lower
    order members (2 is accepted, over 3/5 of the step) or before them (1 is accepted) *)
Definition jump (a : Q) : num QX -> list (num QX) -> list (num QX) :=
  fun t _ => if q_ltb (QF a) t then [QF 1000] else [QF 0].
Definition ck_run1 (a : Q) : option (nat * num QX * num QX) :=
  match ck_init (mkopts QPInf (QF (rnd (1#1000000))) (QF 1) (@ScNone QX)) (jump a) (QF 0) [QF 1] (QF 2) with
  | inl (c, s) => match ostep ck_view (t_bound c) (direction c) (ck_step_impl 3 c) (onew s) with
                  | OOk v => Some (ckord (ost v), t (ckb (ost v)), h_abs (ckb (ost v)))
                  | _ => None end
  | inr _ => None end.
Example C40_case_orders : map (fun a => match ck_run1 a with Some (o, _, _) => o | None => 9%nat end) [2#1; 9#10; 1#2]%Q = [4; 2; 1]%nat.
Proof. vm_compute. reflexivity. Qed.

(** ** C18 for CKdisc: all embedded solutions of the full step, orders 1 to 5 (table B_all),
    and the members accepted at the fractions 3/5 and 1/5 ([C40_member_order]) *)
Theorem C18_ckdisc_embedded p d : (1 <= p <= 5)%nat ->
  member_accurate (mk_tab 6 CKdisc_A (nth p CKdisc_B_all []) CKdisc_C []) 1 d p p.
Proof. exact (ck_embedded_accurate p d). Qed.
