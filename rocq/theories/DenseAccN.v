(** Order of accuracy of the dense outputs of the Nystrom methods. *)
From Coq Require Import String Reals Lra QArith Qreals Lia List Arith Bool FunctionalExtensionality.
From Verif Require Import Arith Common RK RKGen RKHist RX SpecRK RKSpecProofs RKTop Classes Tableaux Series Trees OrderThm OrderCheck OrderRK OrderRKN OrderModel OrderPair OrderPairN Dense DenseReal DenseStep DenseAcc.
Import ListNotations.
Close Scope string_scope.
Open Scope nat_scope.
Open Scope R_scope.

Definition interpn_ok (uV : bool) (s : nat) (A Ap : list (list Q)) (b bp c : list Q) (X Xp : list (list Q)) (x : list Q)
    (P Pp : list (list Q)) (p : nat) : bool :=
  let A' := extA A b X in let Ap' := extA Ap bp Xp in let c' := extC c x in
  let tb := snd (tables QN true uV c' A' Ap' p) in
  Nat.eqb (length A) s && Nat.eqb (length Ap) s && Nat.eqb (length b) s && Nat.eqb (length bp) s && Nat.eqb (length c) s &&
  Nat.eqb (length x) (length X) && Nat.eqb (length Xp) (length X) &&
  lower A' && lower Ap' && match nth 0 c 0%Q with (0 # 1)%Q => true | _ => false end &&
  Nat.leb 1 (qcols P) && Nat.leb 1 (qcols Pp) && Nat.leb 1 p &&
  checkP QN tb (p - 1) (qcols P) P (rhsU QN) && checkP QN tb p (qcols Pp) Pp (rhsV QN).

Lemma pw_bound_a a P cols th i : Rabs th <= 1 -> Rabs (pw QN a cols P th i) <= rsum cols (fun j => Rabs (mR QN P i j)).
Proof.
  intros H. unfold pw. apply rsum_abs_le'. intros j _. rewrite Rabs_mult. rewrite <- (Rmult_1_r (Rabs (mR QN P i j))) at 2.
  apply Rmult_le_compat_l; [apply Rabs_pos|]. rewrite <- RPow_abs. rewrite <- (pow1 (j + a)). apply pow_incr. split; [apply Rabs_pos|auto].
Qed.

Section InterpN.
Variables (uV : bool) (s : nat) (A Ap : list (list Q)) (b bp c : list Q) (X Xp : list (list Q)) (x : list Q) (P Pp : list (list Q)) (p : nat).
Hypothesis HOK : interpn_ok uV s A Ap b bp c X Xp x P Pp p = true.
Notation N := (S s + length X)%nat.
Notation RS n G t y h := (nstages n G (mq (extA A b X)) (mq (extA Ap bp Xp)) (vq (extC c x)) t y h N).

Lemma interpn_spec : length A = s /\ length Ap = s /\ length b = s /\ length bp = s /\ length c = s /\ length x = length X /\ length Xp = length X /\
  nth 0 c 0%Q = 0%Q /\ (1 <= qcols P)%nat /\ (1 <= qcols Pp)%nat /\ (1 <= p)%nat /\
  (forall i l, (i <= l)%nat -> mq (extA A b X) i l = 0) /\ (forall i l, (i <= l)%nat -> mq (extA Ap bp Xp) i l = 0) /\
  (forall th, order_U true uV N (mq (extA A b X)) (mq (extA Ap bp Xp)) (vq (extC c x)) (pw QN 2 (qcols P) P th) th (p - 1)) /\
  (forall th, order_V true uV N (mq (extA A b X)) (mq (extA Ap bp Xp)) (vq (extC c x)) (pw QN 1 (qcols Pp) Pp th) th p).
Proof.
  pose proof HOK as H. unfold interpn_ok in H. cbv zeta in H. repeat rewrite andb_true_iff in H.
  destruct H as ((((((((((((((HA & HAp) & Hb) & Hbp) & Hc) & Hx) & HXp) & Hlow) & Hlow2) & Hc0) & Hq) & Hqp) & Hp) & HU) & HV).
  apply Nat.eqb_eq in HA, HAp, Hb, Hbp, Hc, Hx, HXp. apply Nat.leb_le in Hq, Hqp, Hp.
  assert (L1 : length (extC c x) = N) by (unfold extC; rewrite app_length; simpl; lia).
  assert (L2 : length (extA A b X) = N) by (unfold extA; rewrite app_length; simpl; lia).
  assert (L3 : length (extA Ap bp Xp) = N) by (unfold extA; rewrite app_length; simpl; lia).
  pose (K2 := fun (_ : true = true) => eq_trans L2 (eq_sym L1)). pose (K3 := fun (_ : uV = true) => eq_trans L3 (eq_sym L1)).
  assert (R1 := fun th => checkP_U QN true uV (extC c x) (extA A b X) (extA Ap bp Xp) K2 K3 p (p - 1) (qcols P) P th ltac:(lia) HU).
  assert (R2 := fun th => checkP_V QN true uV (extC c x) (extA A b X) (extA Ap bp Xp) K2 K3 p p (qcols Pp) Pp th ltac:(lia) HV).
  change (@length QN (extC c x)) with (length (extC c x)) in *. rewrite L1 in *.
  do 7 (split; [auto|]). split; [destruct (nth 0 c 0%Q) as [[| |] [| |]]; try discriminate Hc0; reflexivity|].
  do 3 (split; [auto|]). split; [apply lower_spec; auto|]. split; [apply lower_spec; auto|]. auto.
Qed.

Lemma interpn_real n G t0 y0 Y : length y0 = (n + n)%nat -> (uV = false -> velocity_free n G) -> smooth_at2 n p G t0 y0 -> solves2 n G t0 y0 Y ->
  exists C del, 0 < del /\ forall th h, 0 <= th <= 1 -> Rabs h < del -> forall q, (q < n)%nat ->
    Rabs (nth q y0 0 + (th * h * nth (n + q) y0 0 + h * (h * lcomb N (pw QN 2 (qcols P) P th) (RS n G t0 y0 h) q)) - nth q (Y (t0 + th * h)) 0) <= C * Rabs h ^ S p /\
    Rabs (nth (n + q) y0 0 + h * lcomb N (pw QN 1 (qcols Pp) Pp th) (RS n G t0 y0 h) q - nth (n + q) (Y (t0 + th * h)) 0) <= C * Rabs h ^ S p.
Proof.
  intros Hy Hvf HF HY.
  destruct interpn_spec as (LA & LAp & LB & LBp & LC & Lx & LXp & C0 & Hq & Hqp & Hp & Hl1 & Hl2 & HU & HV).
  destruct (weights_bound N (fun i => rsum (qcols P) (fun j => Rabs (mR QN P i j)))) as (B & HB & Hb).
  destruct (weights_bound N (fun i => rsum (qcols Pp) (fun j => Rabs (mR QN Pp i j)))) as (B' & HB' & Hb').
  destruct (uniform_q n (S p) (fun th => 0 <= th <= 1) (fun q th h => nth q y0 0 + (th * h * nth (n + q) y0 0 + h * (h * lcomb N (pw QN 2 (qcols P) P th) (RS n G t0 y0 h) q)) - nth q (Y (t0 + th * h)) 0)) as (C1 & d1 & Hd1 & H1).
  { intros q Hqn. replace (S p) with (S (S (p - 1))) by lia.
    apply (rkn_order_x uV n G t0 y0 Hy p HF Hvf Y HY N (mq (extA A b X)) (mq (extA Ap bp Xp)) (vq (extC c x)) Hl1 Hl2 (fun th => 0 <= th <= 1) (pw QN 2 (qcols P) P) B (p - 1) q); try lia; auto.
    intros th Hth. assert (Ha : Rabs th <= 1) by (apply Rabs_le; lra). split; [exact Ha|]. split; [|apply HU].
    intros i Hi. eapply Rle_trans; [apply pw_bound_a; exact Ha|]. eapply Rle_trans; [apply Rle_abs|apply Hb; exact Hi]. }
  destruct (uniform_q n (S p) (fun th => 0 <= th <= 1) (fun q th h => nth (n + q) y0 0 + h * lcomb N (pw QN 1 (qcols Pp) Pp th) (RS n G t0 y0 h) q - nth (n + q) (Y (t0 + th * h)) 0)) as (C2 & d2 & Hd2 & H2).
  { intros q Hqn.
    apply (rkn_order_v uV n G t0 y0 Hy p HF Hvf Y HY N (mq (extA A b X)) (mq (extA Ap bp Xp)) (vq (extC c x)) Hl1 Hl2 (fun th => 0 <= th <= 1) (pw QN 1 (qcols Pp) Pp) B' p q); try lia; auto.
    intros th Hth. assert (Ha : Rabs th <= 1) by (apply Rabs_le; lra). split; [exact Ha|]. split; [|apply HV].
    intros i Hi. eapply Rle_trans; [apply pw_bound_a; exact Ha|]. eapply Rle_trans; [apply Rle_abs|apply Hb'; exact Hi]. }
  exists (Rmax C1 C2), (Rmin d1 d2). split; [apply Rmin_case; auto|]. intros th h Hth Hh q Hqn.
  apply Rmin_Rgt_l in Hh. destruct Hh as [A1 A2]. assert (Pw : 0 <= Rabs h ^ S p) by (apply pow_le, Rabs_pos).
  split; (eapply Rle_trans; [first [apply (H1 th h Hth A1 q Hqn)|apply (H2 th h Hth A2 q Hqn)]|]); (apply Rmult_le_compat_r; [exact Pw|]); [apply Rmax_l|apply Rmax_r].
Qed.
End InterpN.

(** ** extra stages *)
Lemma realsK_nstages n G g A Ap c t y h m : lifts2 n G g -> length y = (n + n)%nat ->
  realsK n (map (map Fin) (nstages n G A Ap c t y h m)) (fun i q => nth q (nth i (nstages n G A Ap c t y h m) []) 0).
Proof. intros HL Ly. apply realsK_fin. apply nstages_Forall; auto. intros; apply HL; auto. Qed.

Lemma ext_prefix_n n G A Ap b bp c X Xp x t y h s : length A = s -> length Ap = s -> length c = s ->
  nstages n G (mq (extA A b X)) (mq (extA Ap bp Xp)) (vq (extC c x)) t y h (S s) = nstages n G (mq (extA A b [])) (mq (extA Ap bp [])) (vq (extC c [])) t y h (S s).
Proof.
  intros LA LAp LC. apply nstages_ext.
  - intros i Hi. rewrite !vq_nth. unfold extC. destruct (Nat.eq_dec i s) as [->|].
    + rewrite !app_nth2 by lia. rewrite LC, Nat.sub_diag. reflexivity.
    + rewrite !app_nth1 by lia. reflexivity.
  - intros i l Hi _. unfold mq, mR, extA. destruct (Nat.eq_dec i s) as [->|].
    + rewrite !app_nth2 by lia. rewrite LA, Nat.sub_diag. reflexivity.
    + rewrite !app_nth1 by lia. reflexivity.
  - intros i l Hi _. unfold mq, mR, extA. destruct (Nat.eq_dec i s) as [->|].
    + rewrite !app_nth2 by lia. rewrite LAp, Nat.sub_diag. reflexivity.
    + rewrite !app_nth1 by lia. reflexivity.
Qed.

Lemma extra_point_n n G g M Mp cx t y h m r rp z : lifts2 n G g -> length y = (n + n)%nat -> nth m M [] = r -> nth m Mp [] = rp ->
  let ks := nstages n G (mq M) (mq Mp) cx t y h m in
  vadd (map Fin y) (vadd (map (fun a => nmul RX a (nmul RX (Fin h) (Fin h))) (lincomb n (firstn m (lv r)) (map (map Fin) ks))) (vscale (nmul RX (lit z) (Fin h)) (@skipn (num RX) n (map Fin y)))
     ++ map (fun a => nmul RX a (Fin h)) (lincomb n (firstn m (lv rp)) (map (map Fin) ks)))
  = map Fin (npoint n y h (Q2R z) (lcomb m (mq M m) ks) (lcomb m (mq Mp m) ks)).
Proof.
  intros HL Ly Er Erp ks. rewrite !lv_fin, !firstn_map.
  pose proof (realsK_nstages n G g (mq M) (mq Mp) cx t y h m HL Ly) as HK. fold ks in HK.
  change (nmul RX (Fin h) (Fin h)) with (Fin (h * h)).
  change (nmul RX (lit z) (Fin h)) with (Fin (Q2R z * h)).
  pose proof (reals_intro (n + n) y Ly) as HY0.
  pose proof (reals_mulr n (h * h) _ _ (lincomb_reals n (map Q2R (firstn m r)) _ _ HK)) as H1.
  pose proof (reals_mulr n h _ _ (lincomb_reals n (map Q2R (firstn m rp)) _ _ HK)) as H2.
  pose proof (reals_scale n (Q2R z * h) _ _ (reals_skipn n n _ _ HY0)) as H3.
  pose proof (reals_add (n + n) _ _ _ _ HY0 (reals_app n n _ _ _ _ (reals_add n _ _ _ _ H1 H3) H2)) as H4.
  eapply reals_eq; [exact H4|apply npoint_length|]. 
  assert (LK : length ks = m) by apply nstages_length.
  assert (EW : forall (M : list (list Q)) r q, nth m M [] = r -> rsum m (fun i => nth i (map Q2R (firstn m r)) 0 * nth q (nth i ks []) 0) = lcomb m (mq M m) ks q).
  { intros M0 r0 q E0. unfold lcomb. apply rsum_ext. intros l Hl. f_equal. rewrite nth_Q2R, vq_nth. unfold mq, mR, vR. cbn [cv QN c_0]. subst r0. f_equal. apply nth_firstn_lt; exact Hl. }
  intros q Hq. cbn beta. rewrite !map_length, !LK. destruct (Nat.ltb_spec q n) as [Hn|Hn].
  - rewrite npoint_x by auto. rewrite (EW M r q Er). ring.
  - replace q with (n + (q - n))%nat at 1 by lia. rewrite npoint_v by lia. rewrite (EW Mp rp _ Erp). replace (n + (q - n))%nat with q by lia. ring.
Qed.

Lemma extra_stages_n_real n G g A Ap b bp c X Xp x t y h : lifts2 n G g -> length A = length c -> length Ap = length c -> length y = (n + n)%nat -> length x = length X -> length Xp = length X ->
  forall X2 Xp2 X1 Xp1 x1 x2 cl, X = X1 ++ X2 -> Xp = Xp1 ++ Xp2 -> x = x1 ++ x2 -> length X1 = length x1 -> length Xp1 = length x1 ->
  exists cl', extra_stages_n g n (Fin t) (map Fin y) (Fin h) (lm X2) (lm Xp2) (lv x2)
    (map (map Fin) (nstages n G (mq (extA A b X)) (mq (extA Ap bp Xp)) (vq (extC c x)) t y h (S (length A) + length X1))) cl
  = (map (map Fin) (nstages n G (mq (extA A b X)) (mq (extA Ap bp Xp)) (vq (extC c x)) t y h (S (length A) + length X)), cl').
Proof.
  intros HL LC LC2 Ly Lx LXp X2.
  induction X2 as [|r X2 IH]; intros Xp2 X1 Xp1 x1 x2 cl EX EXp Ex L1 L1p.
  - exists cl. rewrite EX, app_nil_r. reflexivity.
  - destruct x2 as [|z x2]; [exfalso; rewrite EX, Ex, !app_length in Lx; simpl in Lx; lia|].
    destruct Xp2 as [|rp Xp2]; [exfalso; rewrite EXp, EX, !app_length in LXp; simpl in LXp; lia|].
    cbn [lm lv map extra_stages_n].
    set (M := extA A b X). set (Mp := extA Ap bp Xp). set (cx := vq (extC c x)).
    set (m := (S (length A) + length X1)%nat). set (ks := nstages n G (mq M) (mq Mp) cx t y h m).
    assert (LK : @length (list (num RX)) (map (map Fin) ks) = m) by (rewrite map_length; unfold ks; rewrite nstages_length; reflexivity).
    assert (Ec : cx m = Q2R z).
    { unfold cx. rewrite ext_rows_C by (unfold m; lia). rewrite vq_nth, Ex. replace (m - S (length c))%nat with (length x1) by (unfold m; lia).
      rewrite app_nth2, Nat.sub_diag by lia. reflexivity. }
    assert (Er : nth m M [] = r).
    { unfold M. rewrite ext_rows_A by (unfold m; lia). rewrite EX. replace (m - S (length A))%nat with (length X1) by (unfold m; lia).
      rewrite app_nth2, Nat.sub_diag by lia. reflexivity. }
    assert (Erp : nth m Mp [] = rp).
    { unfold Mp. rewrite ext_rows_A by (unfold m; lia). rewrite EXp. replace (m - S (length Ap))%nat with (length Xp1) by (unfold m; lia).
      rewrite app_nth2, Nat.sub_diag by lia. reflexivity. }
    pose proof (extra_point_n n G g M Mp cx t y h m r rp z HL Ly Er Erp) as E1. cbv zeta in E1. fold ks in E1.
    set (pt := npoint n y h (Q2R z) (lcomb m (mq M m) ks) (lcomb m (mq Mp m) ks)) in *.
    destruct (IH Xp2 (X1 ++ [r]) (Xp1 ++ [rp]) (x1 ++ [z]) x2 (cl ++ [(Fin (t + Q2R z * h), map Fin pt)])) as (cl' & HE);
      [rewrite <- app_assoc; auto|rewrite <- app_assoc; auto|rewrite <- app_assoc; auto|rewrite !app_length; simpl; lia|rewrite !app_length; simpl; lia|].
    exists cl'. refine (eq_trans _ HE).
    replace (S (length A) + length (X1 ++ [r]))%nat with (S m) by (rewrite app_length; simpl; unfold m; lia).
    cbn [nstages]. rewrite map_app. cbn [map]. fold M Mp cx ks.
    assert (EG : g (Fin (t + Q2R z * h)) (map Fin pt) = map Fin (G (t + cx m * h) (npoint n y h (cx m) (lcomb m (mq M m) ks) (lcomb m (mq Mp m) ks)))).
    { rewrite Ec. apply HL. apply npoint_length. }
    rewrite <- EG. fold (lm (A := RX) X2) (lv (A := RX) x2) (lv (A := RX) r) (lm (A := RX) Xp2) (lv (A := RX) rp). cbn [fst snd]. unfold lm at 1 2. fold (lm (A := RX) X2) (lm (A := RX) Xp2).
    rewrite LK. fold (@lit RX z). rewrite E1. reflexivity.
Qed.

Lemma extra_all_n n G g A Ap b bp c X Xp x t y h s cl : lifts2 n G g -> length A = s -> length Ap = s -> length c = s -> length y = (n + n)%nat -> length x = length X -> length Xp = length X ->
  exists cl', extra_stages_n g n (Fin t) (map Fin y) (Fin h) (lm X) (lm Xp) (lv x)
    (map (map Fin) (nstages n G (mq (extA A b [])) (mq (extA Ap bp [])) (vq (extC c [])) t y h (S s))) cl
  = (map (map Fin) (nstages n G (mq (extA A b X)) (mq (extA Ap bp Xp)) (vq (extC c x)) t y h (S s + length X)), cl').
Proof.
  intros HL LA LAp LC Ly Lx LXp. rewrite <- (ext_prefix_n n G A Ap b bp c X Xp x t y h s LA LAp LC).
  destruct (extra_stages_n_real n G g A Ap b bp c X Xp x t y h HL ltac:(lia) ltac:(lia) Ly Lx LXp X Xp [] [] [] x cl eq_refl eq_refl eq_refl eq_refl eq_refl) as (cl' & E).
  rewrite LA in E. simpl (length []) in E. rewrite Nat.add_0_r in E. exists cl'. exact E.
Qed.

(** ** dense output of a Nystrom solver *)
Definition dense_accurate_n (vel : bool) (T : TabN RX) (impl : dimpl RX) (n p : nat) : Prop :=
  forall G t0 y0 Y g, lifts2 n G g -> length y0 = (n + n)%nat -> (vel = false -> velocity_free n G) -> smooth_at2 n p G t0 y0 -> solves2 n G t0 y0 Y ->
  exists C del, 0 < del /\ forall m c v v' t1 th, uses_tabn m T n -> made_step m c v v' -> fn c = g ->
    t (st v) = Fin t0 -> y (st v) = map Fin y0 -> t (st v') = Fin t1 -> t1 <> t0 -> Rabs (t1 - t0) < del -> 0 <= th <= 1 ->
    exists D s' r, dense_output impl c v' = DenseOk D s' /\
      call D (Fin (t0 + th * (t1 - t0))) = map Fin r /\ length r = (n + n)%nat /\
      forall q, (q < n + n)%nat -> Rabs (nth q r 0 - nth q (Y (t0 + th * (t1 - t0))) 0) <= C * Rabs (t1 - t0) ^ S p.

Lemma made_step_real_n n G g s A Ap b bp c e ep m cf v v' t0 y0 t1 : lifts2 n G g -> length y0 = (n + n)%nat -> length A = s -> length Ap = s -> length c = s ->
  nth 0 c 0%Q = 0%Q -> uses_tabn m (mk_tabn s A Ap b bp c e ep) n -> made_step m cf v v' -> fn cf = g -> t (st v) = Fin t0 -> y (st v) = map Fin y0 ->
  t (st v') = Fin t1 ->
  let h := t1 - t0 in let rs := nstages n G (mq A) (mq Ap) (vq c) t0 y0 h s in
  exists ks, step_facts cf v v' (Fin h) ks /\ y (st v') = map Fin (npoint n y0 h 1 (lcomb s (vq b) rs) (lcomb s (vq bp) rs)) /\
    K (st v') = map (map Fin) (nstages n G (mq (extA A b [])) (mq (extA Ap bp [])) (vq (extC c [])) t0 y0 h (S s)).
Proof.
  intros HL Hy LA LAp LC C0 HU HM Hg E0 Ey E1 h rs.
  destruct (made_step_facts_n m _ n cf v v' HU HM) as (hx & ks & HT & SF).
  pose proof (sf_t _ _ _ _ _ SF) as Et. rewrite E0, E1 in Et. symmetry in Et. apply Fin_add_inv in Et. fold h in Et. subst hx.
  rewrite E0, E1, Ey, Hg in HT.
  destruct (textbook_real_n n G g s A Ap b bp c e ep t0 y0 h ks _ _ HL Hy C0 HT) as (Eks & _ & EY). fold rs in Eks, EY.
  exists ks. split; [exact SF|]. split; [exact EY|]. rewrite (sf_K _ _ _ _ _ SF), Hg, E1, EY.
  rewrite (ext_all_n n G g A Ap b bp c t0 y0 h s HL LA LAp LC Hy). fold rs. rewrite map_app, Eks. f_equal. cbn [map]. f_equal.
  replace (t0 + h) with t1 by (unfold h; ring). apply HL. apply npoint_length.
Qed.

(** a dense output whose object is the Nystrom polynomial over the extra stages X *)
Definition nystrom_impl (impl : dimpl RX) (n : nat) (X Xp : list (list Q)) (x : list Q) (P Pp : list (list Q)) : Prop :=
  forall c to s yo h, y_old s = Some yo -> h_previous s = Some h -> exists s',
    impl c to s = Some (mk_nystrom to (t s) n yo (KtP n (fst (extra_stages_n (fn c) n to yo h (lm X) (lm Xp) (lv x) (K s) (calls s))) (lm P))
                                    (KtP n (fst (extra_stages_n (fn c) n to yo h (lm X) (lm Xp) (lv x) (K s) (calls s))) (lm Pp)), s').

Theorem dense_n_accurate uV s A Ap b bp c e ep X Xp x P Pp p n impl : interpn_ok uV s A Ap b bp c X Xp x P Pp p = true ->
  nystrom_impl impl n X Xp x P Pp -> dense_accurate_n uV (mk_tabn s A Ap b bp c e ep) impl n p.
Proof.
  intros HOK HI G t0 y0 Y g HL Hy Hvf HF HY.
  destruct (interpn_real _ _ _ _ _ _ _ _ _ _ _ _ _ HOK n G t0 y0 Y Hy Hvf HF HY) as (C & del & Hdel & H).
  exists C, del. split; auto. intros m cf v v' t1 th HU HM Hg E0 Ey E1 Hne Hh Hth.
  destruct (interpn_spec _ _ _ _ _ _ _ _ _ _ _ _ _ HOK) as (LA & LAp & LB & LBp & LC & Lx & LXp & C0 & Hq & Hqp & Hp & _ & _ & _ & _).
  assert (Hd : (0 < n + n)%nat) by (apply (y0_pos y0 _ Hy); rewrite <- Ey; apply (made_step_ne m cf v v' HM)).
  destruct (made_step_real_n n G g s A Ap b bp c e ep m cf v v' t0 y0 t1 HL Hy LA LAp LC C0 HU HM Hg E0 Ey E1) as (ks & SF & EY & EK).
  rewrite (dense_enter _ cf v v' _ ks t0 t1 SF E0 E1 Hne) by (rewrite EY, map_length, npoint_length; lia).
  set (h := t1 - t0) in *.
  assert (SY := sf_yold _ _ _ _ _ SF). rewrite Ey in SY.
  destruct (HI cf (Fin t0) (st v') (map Fin y0) (Fin h) SY (sf_h _ _ _ _ _ SF)) as (s' & ES). rewrite ES, EK, Hg, E1.
  destruct (extra_all_n n G g A Ap b bp c X Xp x t0 y0 h s (calls (st v')) HL LA LAp LC Hy Lx LXp) as (cl' & EX). rewrite EX. cbn [fst].
  pose proof (call_nystrom n P Pp t0 h th (map Fin y0) _ _ _ ltac:(unfold h; lra) Hq Hqp (reals_intro _ y0 Hy)
     (realsK_nstages n G g (mq (extA A b X)) (mq (extA Ap bp Xp)) (vq (extC c x)) t0 y0 h (S s + length X) HL Hy)) as HR.
  replace (t0 + h) with t1 in HR by (unfold h; ring). destruct HR as (r & Er & Lr & Nr).
  eexists. eexists. exists r. split; [reflexivity|]. split; [exact Er|]. split; [exact Lr|].
  intros q Hqn. rewrite Nr by auto. rewrite map_length, nstages_length.
  destruct (Nat.ltb_spec q n) as [Hn|Hn].
  - exact (proj1 (H th h Hth Hh q Hn)).
  - destruct (H th h Hth Hh (q - n)%nat ltac:(lia)) as [_ H2]. replace (n + (q - n))%nat with q in H2 by lia. exact H2.
Qed.

Lemma nystrom_impl_free n P Pp : nystrom_impl (dense_rkn n (lm P) (lm Pp)) n [] [] [] P Pp.
Proof. intros c to s yo h Hy Hh. unfold dense_rkn. rewrite Hy. eexists. reflexivity. Qed.
Lemma nystrom_impl_fi5n i n : (i <> 0)%nat -> let '(xa, xap, xc, P, Pp) := fi5n_extra i in nystrom_impl (dense_fi5n i n) n xa xap xc P Pp.
Proof.
  intros Hi. destruct i as [|i]; [lia|]. unfold dense_fi5n. destruct (fi5n_extra (S i)) as [[[[xa xap] xc] P] Pp].
  intros c to s yo h Hy Hh. rewrite Hy, Hh. destruct (extra_stages_n _ _ _ _ _ _ _ _ _ _) as [K' cl]. eexists. reflexivity.
Qed.
Lemma nystrom_impl_mu5 n : nystrom_impl (dense_mu5 false n) n [Mu5Nmb_A_extra] [Mu5Nmb_Ap_extra] [Mu5Nmb_C_extra] Mu5Nmb_P_better Mu5Nmb_Pp_better.
Proof.
  intros c to s yo h Hy Hh. unfold dense_mu5. rewrite Hy, Hh. cbn [lm lv map].
  destruct (extra_stages_n _ _ _ _ _ _ _ _ _ _) as [K' cl]. eexists. reflexivity.
Qed.
