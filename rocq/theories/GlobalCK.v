(** C59: the accepted steps of CKdisc, whose method changes from step to step (orders 5, 3 and 2 at
    the fractions 1, 3/5 and 1/5 of a trial step), as one-step method on and near a trajectory. *)
From Coq Require Import String Reals Lra Psatz QArith Qreals Lia List Arith Bool.
From Verif Require Import Arith Common Stiff RK RKGen RX SpecRK RKSpecProofs HStart RKInit Classes Tableaux Series Trees OrderThm OrderCheck
  OrderRK OrderRKN OrderModel OrderPair Dense Ode CK CKGen RKHist RKReal CKReal CKOrder DenseReal DenseStep DenseAcc DenseJoin DenseJoin2 GOrder GDense UOrder UOrder2 UDense GlobalRK GlobalPoly GlobalRun GlobalEst GlobalDense GlobalAny.
Import ListNotations.
Close Scope string_scope.
Open Scope nat_scope.
Open Scope R_scope.

(** ** the step made, as a step of a method *)
(** coefficients divided by the fraction th *)
Definition qdiv (th : Q) (x : Q) : Q := Qred (x / th)%Q.
Lemma qdiv_R th x : (0 < th)%Q -> Q2R th * Q2R (qdiv th x) = Q2R x.
Proof.
  intros H. unfold qdiv. rewrite (Qeq_eqR _ _ (Qred_correct _)). apply Qlt_Rlt in H. rewrite Q2R_0' in H.
  rewrite Q2R_div by (intros E; apply Qeq_eqR in E; rewrite Q2R_0' in E; lra). field. lra.
Qed.
Lemma qdiv_0 th : (0 < th)%Q -> Q2R (qdiv th 0) = 0.
Proof. intros H. pose proof (qdiv_R th 0 H) as E. rewrite Q2R_0' in E. apply Qlt_Rlt in H. rewrite Q2R_0' in H. apply Rmult_integral in E. lra. Qed.
Lemma vq_div th b i : (0 < th)%Q -> Q2R th * vq (map (qdiv th) b) i = vq b i.
Proof.
  intros H. rewrite !vq_nth. destruct (le_lt_dec (length b) i) as [Hi|Hi].
  - rewrite !nth_overflow by (try rewrite map_length; lia). rewrite Q2R_0'. ring.
  - rewrite (nth_indep _ 0%Q (qdiv th 0)) by (rewrite map_length; lia). rewrite map_nth. apply qdiv_R, H.
Qed.
Lemma mq_div th A i l : (0 < th)%Q -> Q2R th * mq (map (map (qdiv th)) A) i l = mq A i l.
Proof.
  intros H. change (mq (map (map (qdiv th)) A) i l) with (vq (nth i (map (map (qdiv th)) A) []) l). change (mq A i l) with (vq (nth i A []) l).
  change (@nil Q) with (map (qdiv th) []) at 1. rewrite map_nth. apply vq_div, H.
Qed.
Lemma scaled_stages F A c th t y H : (0 < th)%Q -> forall m,
  rstages F (mq (map (map (qdiv th)) A)) (vq (map (qdiv th) c)) t y (Q2R th * H) m = rstages F (mq A) (vq c) t y H m.
Proof.
  intros Hth. induction m as [|m IH]; [reflexivity|]. cbn [rstages]. cbv zeta. rewrite IH. f_equal. f_equal.
  f_equal; [rewrite <- (vq_div th c m Hth); ring|].
  unfold rpoint. apply map_ext. intros q. f_equal. unfold lcomb. rewrite <- !rsum_scal. apply rsum_ext. intros l _. rewrite <- (mq_div th A m l Hth). ring.
Qed.

(** the point the member of order_accepted = ord reaches from (t, y) when the trial step is H *)
Definition ck_point (F : R -> list R -> list R) (d ord : nat) (t : R) (y : list R) (H : R) : list R :=
  let M := ck_member ord in
  rpoint d y H (lcomb (mb_stages M) (vq (mb_b M)) (rstages F (mq (firstn (mb_stages M) CKdisc_A)) (vq (firstn (mb_stages M) CKdisc_C)) t y H (mb_stages M))).
(** the solver went from (t, y) to (t + h, y') with one of the members *)
Definition ck_move (F : R -> list R -> list R) (d : nat) (ords : list nat) (t : R) (y : list R) (h : R) (y' : list R) : Prop :=
  exists ord H, In ord ords /\ h = Q2R (mb_theta (ck_member ord)) * H /\ y' = ck_point F d ord t y H.

Lemma ck_method ord p : In ord [4; 2; 1]%nat -> (p <= mb_p (ck_member ord))%nat ->
  exists W (M : method (S (mb_stages (ck_member ord))) p W), meps M = 0 /\ forall F d t y H, length y = d ->
    rk_step F d M t y (Q2R (mb_theta (ck_member ord)) * H) = ck_point F d ord t y H.
Proof.
  intros Ho.
  assert (G : forall s A b c th p2, (0 < th)%Q -> member_ok s (map (map (qdiv th)) A) (map (qdiv th) b) (map (qdiv th) c) [] 1 p2 0 = true -> (p <= p2)%nat ->
    exists W (M : method (S s) p W), meps M = 0 /\ forall F d t y H, length y = d ->
    rk_step F d M t y (Q2R th * H) = rpoint d y H (lcomb s (vq b) (rstages F (mq A) (vq c) t y H s))).
  { intros s A b c th p2 Hth HP Hp. destruct (member_ok_spec _ _ _ _ _ _ _ _ HP) as (LA & LB & LC & _ & _ & _ & Hlow & _ & HV & _).
    rewrite Q2R_1' in HV. assert (HV' := fun n fs (Hn : (n < p)%nat) => HV n fs (Nat.lt_le_trans _ _ _ Hn Hp)).
    destruct (the_method s _ _ _ p 0 LA LB LC Hlow (Rle_refl 0) (order_near _ _ _ _ _ HV')) as (W & M & Em & HM).
    exists W, M. split; [exact Em|]. intros F d t y H Ly. rewrite HM by exact Ly. rewrite scaled_stages by exact Hth.
    unfold rpoint. apply map_ext. intros q. f_equal. unfold lcomb. rewrite <- !rsum_scal. apply rsum_ext. intros l _. rewrite <- (vq_div th b l Hth). ring. }
  destruct Ho as [<-|[<-|[<-|[]]]]; intros Hp; match goal with |- context [ck_member ?o] => apply (fun A b c => G (mb_stages (ck_member o)) A b c (mb_theta (ck_member o)) (mb_p (ck_member o))) end;
    [reflexivity|vm_compute; reflexivity|exact Hp|reflexivity|vm_compute; reflexivity|exact Hp|reflexivity|vm_compute; reflexivity|exact Hp].
Qed.

Section Contract.
Variables (d : nat) (F : R -> list R -> list R) (lo hi : R) (Y : R -> list R) (p : nat).
Hypothesis HY : solution_on d F lo hi Y.
Hypothesis HS : smooth_along p d F lo hi Y.


Lemma ck_point_len ord t y H : length (ck_point F d ord t y H) = d.
Proof. apply rpoint_length. Qed.
Lemma one_ord L r : lipschitz_near d F lo hi Y L r -> forall ord, In ord [4; 2; 1]%nat -> (p <= mb_p (ck_member ord))%nat ->
  exists Lam C del, 0 <= Lam /\ 0 <= C /\ 0 < del /\ one_step d p lo hi Y (ck_move F d [ord]) Lam C 0 (r / 4) del.
Proof.
  intros HLip ord Ho Hp. destruct (ck_method ord p Ho Hp) as (W & M & Em & HM). set (s := S (mb_stages (ck_member ord))) in *.
  destruct (local_error d p F lo hi Y HY s W HS) as (C1 & d2 & HC1 & Hd2 & Hloc).
  destruct (stability d p F lo hi Y HY s W HS L r HLip) as (d1 & Hd1 & Hst).
  exists (Lamb s W L), C1, (Rmin d1 d2). split. { unfold Lamb. pose proof (pos_INR s); pose proof (Rabs_pos W). destruct HLip as (HL0 & _). repeat apply Rmult_le_pos; lra. }
  split; [exact HC1|]. split; [apply Rmin_case; auto|]. intros t y h y' e Ht _ Ly Hh He Hy (ord' & H & Hin & Eh & Ey').
  destruct Hin as [<-|[]]. subst y' h. split; [apply ck_point_len|]. rewrite <- (HM F d t y H Ly). set (h := Q2R _ * H) in *.
  pose proof (Hst t M y h e Ht Ly ltac:(eapply Rlt_le_trans; [exact Hh|apply Rmin_l]) He Hy) as S1.
  pose proof (Hloc t M h Ht ltac:(eapply Rlt_le_trans; [exact Hh|apply Rmin_r])) as S2. rewrite Em in S2.
  exact (close_trans _ _ _ _ _ _ S1 S2).
Qed.
Lemma all_ords L r : lipschitz_near d F lo hi Y L r -> forall ords, Forall (fun ord => In ord [4; 2; 1]%nat /\ (p <= mb_p (ck_member ord))%nat) ords ->
  exists Lam C del, 0 <= Lam /\ 0 <= C /\ 0 < del /\ one_step d p lo hi Y (ck_move F d ords) Lam C 0 (r / 4) del.
Proof.
  intros HLip ords. induction ords as [|ord ords IH]; intros HA.
  - exists 0, 0, 1. split; [lra|]. split; [lra|]. split; [lra|]. intros t y h y' e _ _ _ _ _ _ (ord & H & [] & _).
  - inversion HA as [|? ? (Ho & Hp) HA']; subst. destruct (IH HA') as (Lam & C & del & H1 & H2 & H3 & H4).
    destruct (one_ord L r HLip ord Ho Hp) as (Lam' & C' & del' & H1' & H2' & H3' & H4').
    exists (Rmax Lam Lam'), (Rmax C C'), (Rmin del del'). split; [eapply Rle_trans; [exact H1|apply Rmax_l]|]. split; [eapply Rle_trans; [exact H2|apply Rmax_l]|]. split; [apply Rmin_case; auto|].
    intros t y h y' e Ht Ht' Ly Hh He Hy (o & H & Hin & Eh & Ey').
    assert (B : forall l c, l <= Rmax Lam Lam' -> c <= Rmax C C' -> (1 + Rabs h * l) * e + c * (0 * Rabs h + Rabs h ^ S p) <= (1 + Rabs h * Rmax Lam Lam') * e + Rmax C C' * (0 * Rabs h + Rabs h ^ S p)).
    { intros l c Q1 Q2. pose proof (Rabs_pos h) as Hh0. assert (0 <= Rabs h ^ S p) by (apply pow_le; auto). apply Rplus_le_compat; [apply Rmult_le_compat_r; [lra|]; apply Rplus_le_compat_l, Rmult_le_compat_l; auto|apply Rmult_le_compat_r; lra]. }
    destruct Hin as [<-|Hin].
    + destruct (H4' t y h y' e Ht Ht' Ly ltac:(eapply Rlt_le_trans; [exact Hh|apply Rmin_r]) He Hy) as (Q1 & Q2).
      { exists ord, H. split; [left; reflexivity|]. auto. }
      split; [exact Q1|]. eapply close_le; [exact Q2|apply B; apply Rmax_r].
    + destruct (H4 t y h y' e Ht Ht' Ly ltac:(eapply Rlt_le_trans; [exact Hh|apply Rmin_l]) He Hy) as (Q1 & Q2).
      { exists o, H. auto. }
      split; [exact Q1|]. eapply close_le; [exact Q2|apply B; apply Rmax_l].
Qed.
Theorem ck_global ords : Forall (fun ord => In ord [4; 2; 1]%nat /\ (p <= mb_p (ck_member ord))%nat) ords -> (0 < p)%nat -> lipschitz_along d F lo hi Y ->
  exists C del, 0 <= C /\ 0 < del /\ forall H ta t y, 0 <= H < del -> lo <= ta <= hi ->
  spath lo hi Y (ck_move F d ords) H ta t y -> length y = d /\ lo <= t <= hi /\ close d y (Y t) (C * H ^ p).
Proof.
  intros HA Hp (L & r & HLip). destruct (all_ords L r HLip ords HA) as (Lam & C & del & H1 & H2 & H3 & H4).
  assert (Hr : 0 < r) by apply HLip.
  destruct (global_any_del d p lo hi Y (Y_len d F lo hi Y HY) (ck_move F d ords) Lam C 0 (r / 4) del H1 H2 ltac:(lra) ltac:(lra) H3 Hp ltac:(rewrite Rmult_0_r; lra) H4) as (del' & Hd' & H5).
  exists (C * growth lo hi Lam), del'. split; [apply Rmult_le_pos; auto; unfold growth; apply Rmult_le_pos; [apply Rabs_pos|left; apply exp_pos]|]. split; [auto|].
  intros H ta t y HH Hta HP. destruct (H5 H ta t y HH Hta HP) as (Q1 & Q2 & Q3). split; [auto|]. split; [auto|]. rewrite Rplus_0_l in Q3. exact Q3.
Qed.
End Contract.

(** ** dense output *)
(** tableau of the step made and weights of the dense output: CKdisc's interpolant after a step of
    order 5; the cubic that joins the ends of the step after the others *)
Definition hermP (s : nat) (b : list Q) : list (list Q) :=
  let dl k i := if Nat.eqb i k then 1%Q else 0%Q in
  map (fun i => [dl 0%nat i; Qred (3 * nth i b 0 - 2 * dl 0%nat i - dl s i); Qred ((-2) * nth i b 0 + dl 0%nat i + dl s i)]%Q) (seq 0 (S s)).
Definition ck_dA (ord : nat) : list (list Q) := let M := ck_member ord in map (map (qdiv (mb_theta M))) (firstn (mb_stages M) CKdisc_A).
Definition ck_db (ord : nat) : list Q := let M := ck_member ord in map (qdiv (mb_theta M)) (mb_b M).
Definition ck_dc (ord : nat) : list Q := let M := ck_member ord in map (qdiv (mb_theta M)) (firstn (mb_stages M) CKdisc_C).
Definition ck_dP (ord : nat) : list (list Q) := if Nat.eqb ord 4 then CKdisc_P else hermP (mb_stages (ck_member ord)) (ck_db ord).
Lemma ck_d_ok ord : In ord [4; 2; 1]%nat -> let M := ck_member ord in
  interp_ok (mb_stages M) (ck_dA ord) (ck_db ord) (ck_dc ord) [] [] (ck_dP ord) (mb_p M - 1) = true.
Proof. intros Ho. destruct Ho as [<-|[<-|[<-|[]]]]; vm_compute; reflexivity. Qed.
(** the value of the dense output at the fraction th of a step of size h *)
Definition ck_interp (F : R -> list R -> list R) (ord : nat) (t : R) (y : list R) (h th : R) (q : nat) : R :=
  let M := ck_member ord in let N := (S (mb_stages M) + length (@nil (list Q)))%nat in
  point N F (mq (extA (ck_dA ord) (ck_db ord) [])) (vq (extC (ck_dc ord) [])) (pw QN 1 (qcols (ck_dP ord)) (ck_dP ord)) t y h th q.

Section DenseOut.
Variables (d : nat) (F : R -> list R -> list R) (lo hi : R) (Y : R -> list R) (p : nat).
Hypothesis HY : solution_on d F lo hi Y.
Hypothesis HS : smooth_along p d F lo hi Y.
Lemma ck_dense_one L r : lipschitz_near d F lo hi Y L r -> forall ord, In ord [4; 2; 1]%nat -> (0 < p <= mb_p (ck_member ord))%nat ->
  exists C del, 0 <= C /\ 0 < del /\ forall t y h th e, lo <= t <= hi -> length y = d -> 0 <= th <= 1 -> Rabs h < del -> 0 <= e <= r / 4 -> close d y (Y t) e ->
  forall q, (q < d)%nat -> Rabs (ck_interp F ord t y h th q - nth q (Y (t + th * h)) 0) <= C * (e + Rabs h ^ p).
Proof.
  intros HLip ord Ho Hp. pose proof (ck_d_ok ord Ho) as HOK. cbv zeta in HOK. destruct (interp_cond _ _ _ _ _ _ _ _ HOK) as (He & Hc & HD).
  destruct (ext_ok_spec _ _ _ _ _ _ He) as (_ & _ & _ & _ & _ & Hlow & _).
  assert (HD' : dense1 (S (mb_stages (ck_member ord)) + length (@nil (list Q)))%nat (mq (extA (ck_dA ord) (ck_db ord) [])) (vq (extC (ck_dc ord) [])) 0 (pw QN 1 (qcols (ck_dP ord)) (ck_dP ord)) (p - 1)).
  { intros th n fs Hth Hn Hf. apply HD; auto. lia. }
  destruct (dense_close d (p - 1) _ F lo hi Y HY (smooth_weaken _ _ _ _ _ _ _ (Nat.le_sub_l p 1) HS) _ _ _ 0 Hlow (pw_wb _ _) (Rle_refl 0) HD' L r HLip) as (C & del & HC & Hdel & H1).
  exists C, del. split; [exact HC|]. split; [exact Hdel|]. intros t y h th e Ht Ly Hth Hh He' Hy q Hq.
  specialize (H1 q t y h th e Hq Ht Ly Hth Hh He' Hy). rewrite Rmult_0_l, Rplus_0_r in H1. replace (S (p - 1)) with p in H1 by lia. exact H1.
Qed.
Lemma ck_dense_all L r : lipschitz_near d F lo hi Y L r -> forall ords, (0 < p)%nat -> Forall (fun ord => In ord [4; 2; 1]%nat /\ (p <= mb_p (ck_member ord))%nat) ords ->
  exists C del, 0 <= C /\ 0 < del /\ forall ord t y h th e, In ord ords -> lo <= t <= hi -> length y = d -> 0 <= th <= 1 -> Rabs h < del -> 0 <= e <= r / 4 -> close d y (Y t) e ->
  forall q, (q < d)%nat -> Rabs (ck_interp F ord t y h th q - nth q (Y (t + th * h)) 0) <= C * (e + Rabs h ^ p).
Proof.
  intros HLip ords Hp. induction ords as [|o ords IH]; intros HA; [exists 0, 1; split; [lra|]; split; [lra|]; intros ord t y h th e []|].
  inversion HA as [|? ? (Ho & Hpo) HA']; subst. destruct (IH HA') as (C & del & HC & Hdel & H1).
  destruct (ck_dense_one L r HLip o Ho ltac:(lia)) as (C' & del' & HC' & Hdel' & H1').
  exists (Rmax C C'), (Rmin del del'). split; [eapply Rle_trans; [exact HC|apply Rmax_l]|]. split; [apply Rmin_case; auto|].
  intros ord t y h th e Hin Ht Ly Hth Hh He Hy q Hq. assert (P : 0 <= e + Rabs h ^ p) by (apply Rplus_le_le_0_compat; [lra|apply pow_le, Rabs_pos]).
  destruct Hin as [<-|Hin].
  - eapply Rle_trans; [apply (H1' t y h th e); auto; eapply Rlt_le_trans; [exact Hh|apply Rmin_r]|]. apply Rmult_le_compat_r; [exact P|apply Rmax_r].
  - eapply Rle_trans; [apply (H1 ord t y h th e); auto; eapply Rlt_le_trans; [exact Hh|apply Rmin_l]|]. apply Rmult_le_compat_r; [exact P|apply Rmax_l].
Qed.
End DenseOut.

(** the cubic is [ck_interp] *)
Lemma ck_point_scaled F d ord t y H : In ord [4; 2; 1]%nat -> let M := ck_member ord in
  ck_point F d ord t y H = rpoint d y (Q2R (mb_theta M) * H) (lcomb (mb_stages M) (vq (ck_db ord)) (rstages F (mq (ck_dA ord)) (vq (ck_dc ord)) t y (Q2R (mb_theta M) * H) (mb_stages M))).
Proof.
  intros Ho M. assert (Hth : (0 < mb_theta M)%Q) by (unfold M; destruct Ho as [<-|[<-|[<-|[]]]]; reflexivity).
  unfold ck_point, ck_dA, ck_dc, ck_db. cbv zeta. fold M. rewrite scaled_stages by exact Hth. unfold rpoint. apply map_ext. intros q. f_equal. unfold lcomb.
  rewrite <- !rsum_scal. apply rsum_ext. intros l _. rewrite <- (vq_div (mb_theta M) (mb_b M) l Hth). ring.
Qed.
Lemma ck_cubic_interp d F g ord t y H th q : lifts d F g -> length y = d -> (q < d)%nat -> In ord [2; 1]%nat -> H <> 0 -> let h := Q2R (mb_theta (ck_member ord)) * H in
  let y1 := ck_point F d ord t y H in
  cubic t h (nth q y 0) (nth q (F t y) 0) (nth q y1 0) (nth q (F (t + h) y1) 0) (t + th * h) = ck_interp F ord t y h th q.
Proof.
  intros HL Ly Hq Ho HH h y1. assert (Ho' : In ord [4; 2; 1]%nat) by (right; exact Ho). set (s := mb_stages (ck_member ord)).
  assert (Hh : h <> 0). { unfold h. apply Rmult_integral_contrapositive. split; [|exact HH]. destruct Ho as [<-|[<-|[]]]; unfold Q2R; simpl; lra. }
  assert (LA : length (ck_dA ord) = s /\ length (ck_db ord) = s /\ length (ck_dc ord) = s /\ nth 0 (ck_dc ord) 0%Q = 0%Q) by (unfold s; destruct Ho as [<-|[<-|[]]]; vm_compute; auto).
  destruct LA as (LA & LB & LC & C0).
  pose proof (ext_all d F g (ck_dA ord) (ck_db ord) (ck_dc ord) t y h s HL LA LB LC Ly) as EA. cbv zeta in EA.
  pose proof (ck_point_scaled F d ord t y H Ho') as EP. cbv zeta in EP. fold h in EP. fold s in EP. fold y1 in EP. rewrite <- EP in EA.
  set (RS := rstages F (mq (extA (ck_dA ord) (ck_db ord) [])) (vq (extC (ck_dc ord) [])) t y h (S s)) in *.
  assert (K0 : nth 0 RS [] = F t y).
  { unfold RS. apply rstages_nth0; [lia|]. unfold s in LC. destruct Ho as [<-|[<-|[]]]; vm_compute (extC _ _); rewrite vq_nth; apply Q2R_0'. }
  assert (Ks : nth s RS [] = F (t + h) y1). { rewrite EA. rewrite app_nth2 by (rewrite rstages_length; lia). rewrite rstages_length, Nat.sub_diag. reflexivity. }
  assert (E1 : nth q y1 0 = nth q y 0 + h * rsum s (fun i => vq (ck_db ord) i * nth q (nth i RS []) 0)).
  { rewrite EP, rpoint_nth by auto. f_equal. f_equal. unfold lcomb. apply rsum_ext. intros i Hi. rewrite EA, app_nth1 by (rewrite rstages_length; lia). reflexivity. }
  rewrite <- K0, <- Ks, E1. unfold ck_interp, point. cbv zeta. fold s. rewrite Nat.add_0_r. fold RS.
  clearbody RS y1. clear EA K0 Ks E1 EP LA LB LC C0.
  unfold cubic, lcomb. cbv zeta. replace ((t + th * h - t) / h) with th by (field; exact Hh). clear Hh. clearbody h. subst s.
  set (k := fun i => nth q (nth i RS []) 0). set (yq := nth q y 0).
  change (fun i => vq (ck_db ord) i * nth q (nth i RS []) 0) with (fun i => vq (ck_db ord) i * k i).
  change (fun l => pw QN 1 (qcols (ck_dP ord)) (ck_dP ord) th l * nth q (nth l RS []) 0) with (fun l => pw QN 1 (qcols (ck_dP ord)) (ck_dP ord) th l * k l).
  change (nth q (nth 0 RS []) 0) with (k 0%nat). change (nth q (nth (mb_stages (ck_member ord)) RS []) 0) with (k (mb_stages (ck_member ord))).
  clearbody k yq. clear - Ho.
  destruct Ho as [<-|[<-|[]]].
  - let P := eval vm_compute in (ck_dP 2) in change (ck_dP 2) with P. let b := eval vm_compute in (ck_db 2) in change (ck_db 2) with b.
    change (mb_stages (ck_member 2)) with 4%nat. unfold pw, mR, vq, vR, qcols. cbn [rsum nth length Nat.add fold_right map Nat.max cv c_0 QN]. unfold Q2R. cbn [Qnum Qden]. field.
  - let P := eval vm_compute in (ck_dP 1) in change (ck_dP 1) with P. let b := eval vm_compute in (ck_db 1) in change (ck_db 1) with b.
    change (mb_stages (ck_member 1)) with 2%nat. unfold pw, mR, vq, vR, qcols. cbn [rsum nth length Nat.add fold_right map Nat.max cv c_0 QN]. unfold Q2R. cbn [Qnum Qden]. field.
Qed.
