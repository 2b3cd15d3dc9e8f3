(** C22 for the interpolant with decimal coefficients of the Nystrom classes, Fi5N interpolant 3: it starts exactly
    at the old point, its velocity is the derivative of its position, and it ends at the new point up to the
    error of the coefficients. *)
From Coq Require Import String Reals Lra Psatz QArith Qreals Lia List Arith Bool.
From Coquelicot Require Import Coquelicot.
From Verif Require Import Arith Common RK RKGen RKHist RX SpecRK RKSpecProofs RKTop Classes Tableaux Series Trees OrderThm OrderCheck
  OrderRK OrderRKN OrderModel OrderPair OrderPairN Dense DenseReal DenseStep DenseAcc DenseAccN DenseJoin DenseJoin2 Prop_Dense.
Import ListNotations.
Close Scope string_scope.
Open Scope nat_scope.
Open Scope R_scope.

(** ** specification *)
(** after a successful step from (t0, y0) to (t1, y1): dense_output() leaves y as it is and returns a function of
    class C1 that passes through (t0, y0) with velocity and acceleration of the problem; at t1 its position,
    velocity and acceleration differ from those of the new point by at most eps times the sum of the stage
    accelerations ks, times h^2, h and 1 *)
Definition dense_nearly_joins_n (T : TabN RX) (impl : dimpl RX) (n : nat) (eps : R) : Prop :=
  forall G g m c v v' t0 y0 t1, lifts2 n G g -> uses_tabn m T n -> made_step m c v v' -> fn c = g ->
    length y0 = (n + n)%nat -> t (st v) = Fin t0 -> y (st v) = map Fin y0 -> t (st v') = Fin t1 -> t1 <> t0 ->
    exists D s' y1 (ks : list (list R)) (r : R -> list R), dense_output impl c v' = DenseOk D s' /\ y (st v') = map Fin y1 /\ length y1 = (n + n)%nat /\ y s' = y (st v') /\
      (forall x, call D (Fin x) = map Fin (r x) /\ length (r x) = (n + n)%nat) /\ r t0 = y0 /\
      (forall q, (q < n)%nat -> forall x, derivable_pt_lim (fun x => nth q (r x) 0) x (nth (n + q) (r x) 0)) /\
      forall q, (q < n)%nat -> let total := eps * rsum (length ks) (fun i => Rabs (nth q (nth i ks []) 0)) in
        derivable_pt_lim (fun x => nth (n + q) (r x) 0) t0 (nth q (G t0 y0) 0) /\
        Rabs (nth q (r t1) 0 - nth q y1 0) <= (t1 - t0) ^ 2 * total /\
        Rabs (nth (n + q) (r t1) 0 - nth (n + q) y1 0) <= Rabs (t1 - t0) * total /\
        exists l, derivable_pt_lim (fun x => nth (n + q) (r x) 0) t1 l /\ Rabs (l - nth q (G t1 y1) 0) <= total.

Definition joinn_near_ok (e : Q) (s N : nat) (bx bp : list Q) (P Pp : list (list Q)) : bool :=
  Nat.leb 1 (qcols P) && Nat.eqb (qcols P) (qcols Pp) && forallb (fun r => Nat.eqb (length r) (qcols P)) P && forallb (fun r => Nat.eqb (length r) (qcols P)) Pp &&
  Nat.eqb (length P) N && Nat.eqb (length Pp) N &&
  forallb (fun i => Qnear e (qsum (nth i P [])) (nth i bx 0%Q) && Qnear e (qsum (nth i Pp [])) (nth i bp 0%Q) &&
                    Qeq_bool (nth 0 (nth i Pp []) 0%Q) (qdelta 0 i) && Qnear e (qdsum 1 (nth i Pp [])) (qdelta s i) &&
                    forallb (fun j => Qeq_bool (nth j (nth i Pp []) 0%Q) ((Z.of_nat (j + 2) # 1) * nth j (nth i P []) 0%Q)) (seq 0 (qcols P))) (seq 0 N).
Lemma joinn_near_spec e s N bx bp P Pp : joinn_near_ok e s N bx bp P Pp = true -> (1 <= qcols P)%nat /\ qcols P = qcols Pp /\ forall i, (i < N)%nat ->
  Rabs (pw QN 2 (qcols P) P 1 i - vq bx i) <= Q2R e /\ Rabs (pw QN 1 (qcols Pp) Pp 1 i - vq bp i) <= Q2R e /\ dpw 1 (qcols Pp) Pp 0 i = delta 0 i /\ Rabs (dpw 1 (qcols Pp) Pp 1 i - delta s i) <= Q2R e /\
  (forall th, dpw 2 (qcols P) P th i = pw QN 1 (qcols Pp) Pp th i).
Proof.
  intros H. unfold joinn_near_ok in H. rewrite !andb_true_iff in H. destruct H as ((((((Hc & Hcc) & HR) & HRp) & HL) & HLp) & HC).
  apply Nat.leb_le in Hc. apply Nat.eqb_eq in HL, HLp, Hcc. split; [auto|]. split; [auto|]. intros i Hi.
  rewrite forallb_forall in HC. specialize (HC i ltac:(apply in_seq; lia)). rewrite !andb_true_iff in HC. destruct HC as ((((C1 & C2) & C3) & C4) & C5).
  apply Qnear_spec in C1, C2, C4. apply Qeq_bool_eq, Qeq_eqR in C3.
  rewrite forallb_forall in HR, HRp. assert (Lr : length (nth i P []) = qcols P) by (apply Nat.eqb_eq, HR, nth_In; lia).
  assert (Lrp : length (nth i Pp []) = qcols Pp) by (rewrite <- Hcc; apply Nat.eqb_eq, HRp, nth_In; lia).
  assert (EM : forall P j, mR QN P i j = Q2R (nth j (nth i P []) 0%Q)) by reflexivity.
  split; [|split; [|split; [|split]]].
  - unfold pw. rewrite (rsum_ext _ _ (fun j => Q2R (nth j (nth i P []) 0%Q))) by (intros; rewrite pow1, EM, Rmult_1_r; reflexivity).
    rewrite (qsum_rsum _ _ Lr), vq_nth. exact C1.
  - unfold pw. rewrite (rsum_ext _ _ (fun j => Q2R (nth j (nth i Pp []) 0%Q))) by (intros; rewrite pow1, EM, Rmult_1_r; reflexivity).
    rewrite (qsum_rsum _ _ Lrp), vq_nth. exact C2.
  - unfold dpw. destruct (qcols Pp) as [|n] eqn:EQ; [lia|]. rewrite rsum_split. rewrite rsum_zero.
    2:{ intros j _. replace (S j + 1 - 1)%nat with (S j) by lia. rewrite pow_ne_zero by lia. ring. }
    cbn [Nat.add Nat.sub pow]. change (mq Pp i 0) with (Q2R (nth 0 (nth i Pp []) 0%Q)). rewrite C3, qdelta_delta. simpl. ring.
  - rewrite qdelta_delta in C4. unfold dpw. rewrite (rsum_ext _ _ (fun j => Q2R (nth j (nth i Pp []) 0%Q) * INR (j + Pos.to_nat 1))).
    + rewrite (qdsum_rsum _ _ 1 Lrp). exact C4.
    + intros j _. rewrite pow1. change (mq Pp i j) with (Q2R (nth j (nth i Pp []) 0%Q)). rewrite Rmult_1_r. reflexivity.
  - intros th. rewrite forallb_forall in C5. unfold dpw, pw. rewrite <- Hcc. apply rsum_ext. intros j Hj. specialize (C5 j ltac:(apply in_seq; lia)). apply Qeq_bool_eq, Qeq_eqR in C5.
    change (mq P i j) with (Q2R (nth j (nth i P []) 0%Q)). change (mR QN Pp i j) with (Q2R (nth j (nth i Pp []) 0%Q)). rewrite C5, Q2R_mult.
    replace (Q2R (Z.of_nat (j + 2) # 1)) with (INR (j + 2)) by (rewrite INR_IZR_INZ; unfold Q2R; cbn [Qnum Qden]; rewrite Rinv_1, Rmult_1_r; reflexivity).
    replace (j + 2 - 1)%nat with (j + 1)%nat by lia. ring.
Qed.
Lemma rsum_near N (w b : nat -> R) (k : nat -> R) e : (forall i, (i < N)%nat -> Rabs (w i - b i) <= e) ->
  Rabs (rsum N (fun i => w i * k i) - rsum N (fun i => b i * k i)) <= e * rsum N (fun i => Rabs (k i)).
Proof.
  intros H. replace (rsum N (fun i => w i * k i) - rsum N (fun i => b i * k i)) with (rsum N (fun i => (w i - b i) * k i)).
  - rewrite <- rsum_scal. apply rsum_abs_le. intros i Hi. rewrite Rabs_mult. apply Rmult_le_compat_r; [apply Rabs_pos|]. auto.
  - rewrite (rsum_ext N _ (fun i => w i * k i + - (1) * (b i * k i))) by (intros; ring). rewrite rsum_plus, rsum_scal. ring.
Qed.

Theorem nystrom_nearly_joins eps s A Ap b bp c e ep X Xp x P Pp n impl :
  length A = s -> length Ap = s -> length b = s -> length bp = s -> length c = s -> nth 0 c 0%Q = 0%Q -> length x = length X -> length Xp = length X -> (1 <= s)%nat ->
  joinn_near_ok eps s (S s + length X) b bp P Pp = true ->
  nystrom_impl impl n X Xp x P Pp -> nystrom_state impl n X Xp x true [] -> dense_nearly_joins_n (mk_tabn s A Ap b bp c e ep) impl n (Q2R eps).
Proof.
  intros LA LAp LB LBp LC C0 Lx LXp Hs HOK HI HS G g m cf v v' t0 y0 t1 HL HU HM Hg Hy E0 Ey E1 Hne.
  destruct (joinn_near_spec _ _ _ _ _ _ _ HOK) as (Hc & Hcc & HW).
  assert (Hd : (0 < n + n)%nat) by (apply (y0_pos y0 _ Hy); rewrite <- Ey; apply (made_step_ne m cf v v' HM)).
  destruct (made_step_real_n n G g s A Ap b bp c e ep m cf v v' t0 y0 t1 HL Hy LA LAp LC C0 HU HM Hg E0 Ey E1) as (ks & SF & EY & EK).
  set (h := t1 - t0) in *. assert (Hh : h <> 0) by (unfold h; lra).
  match type of EY with _ = map Fin ?z => set (yn := z) in * end.
  assert (Ln : length yn = (n + n)%nat) by apply npoint_length.
  rewrite (dense_enter _ cf v v' _ ks t0 t1 SF E0 E1 Hne) by (rewrite EY, map_length, Ln; lia).
  assert (SY := sf_yold _ _ _ _ _ SF). rewrite Ey in SY.
  destruct (HI cf (Fin t0) (st v') (map Fin y0) (Fin h) SY (sf_h _ _ _ _ _ SF)) as (s' & ES). rewrite ES.
  pose proof (HS _ _ _ _ _ _ _ SY (sf_h _ _ _ _ _ SF) ES) as EYs.
  cbv iota in EYs. rewrite EK, Hg, E1.
  destruct (extra_all_n n G g A Ap b bp c X Xp x t0 y0 h s (calls (st v')) HL LA LAp LC Hy Lx LXp) as (cl' & EX). rewrite EX. cbn [fst].
  set (N := (S s + length X)%nat) in *. set (RSs := nstages n G (mq (extA A b X)) (mq (extA Ap bp Xp)) (vq (extC c x)) t0 y0 h N) in *.
  assert (LR : length RSs = N) by apply nstages_length.
  assert (RK : realsK n (map (map Fin) RSs) (fun i q => nth q (nth i RSs []) 0)) by (apply (realsK_nstages n G g _ _ _ t0 y0 h N HL Hy)).
  (* the step in terms of all N stages *)
  assert (Epre : forall q w l, length l = s -> w = vq l -> lcomb s w (nstages n G (mq A) (mq Ap) (vq c) t0 y0 h s) q = lcomb N w RSs q).
  { intros q w l Ll ->. rewrite <- (nstages_ext n G (mq (extA A b X)) (mq (extA Ap bp Xp)) (vq (extC c x)) (mq A) (mq Ap) (vq c)); [apply lcomb_ext_zero2; [unfold N; lia|]; intros i Hi; apply vq_overflow; lia| | |].
    - intros i Hi. rewrite !vq_nth. unfold extC. rewrite app_nth1 by lia. reflexivity.
    - intros i l0 Hi _; unfold mq, mR, extA; rewrite app_nth1 by lia; reflexivity.
    - intros i l0 Hi _; unfold mq, mR, extA; rewrite app_nth1 by lia; reflexivity. }
  assert (Nz : forall q, (q < n)%nat -> nth q yn 0 = nth q y0 0 + (h * h * lcomb N (vq b) RSs q + h * nth (n + q) y0 0)).
  { intros q Hq. unfold yn. rewrite npoint_x by auto. rewrite (Epre q (vq b) b LB eq_refl). ring. }
  assert (Vz : forall q, (q < n)%nat -> nth (n + q) yn 0 = nth (n + q) y0 0 + h * lcomb N (vq bp) RSs q).
  { intros q Hq. unfold yn. rewrite npoint_v by auto. rewrite (Epre q (vq bp) bp LBp eq_refl). reflexivity. }
  set (k i q := nth q (nth i RSs []) 0).
  set (px q z := nth q y0 0 + ((z - t0) / h * h * nth (n + q) y0 0 + h * (h * rsum N (fun i => pw QN 2 (qcols P) P ((z - t0) / h) i * k i q)))).
  set (pv q z := wval N (pw QN 1 (qcols Pp) Pp) (fun q => nth (n + q) y0 0) k t0 h z q).
  set (val x q := if Nat.ltb q n then px q x else pv (q - n)%nat x).
  match goal with |- context [DenseOk ?D _] => set (DD := D) end.
  exists DD, s', yn, RSs, (fun x => ind (n + n) (val x)). split; [reflexivity|]. split; [exact EY|]. split; [exact Ln|]. split; [exact EYs|].
  assert (HV : forall z, call DD (Fin z) = map Fin (ind (n + n) (val z)) /\ length (ind (n + n) (val z)) = (n + n)%nat).
  { intros z. split; [|apply ind_len].
    pose proof (call_nystrom n P Pp t0 h ((z - t0) / h) (map Fin y0) _ _ _ Hh ltac:(lia) ltac:(lia) (reals_intro _ y0 Hy) RK) as HR.
    replace (t0 + h) with t1 in HR by (unfold h; ring). replace (t0 + (z - t0) / h * h) with z in HR by (field; auto).
    destruct HR as (r & Er & Lr & Nr). unfold DD. refine (eq_trans Er _). f_equal. apply nth_eq_list; [rewrite ind_len; auto|]. intros q Hq. rewrite ind_nth by congruence. rewrite Nr by congruence.
    rewrite map_length, LR. unfold val. destruct (Nat.ltb_spec q n); [reflexivity|]. unfold pv, wval. replace (n + (q - n))%nat with q by lia. reflexivity. }
  assert (Vx : forall x q, (q < n)%nat -> nth q (ind (n + n) (val x)) 0 = px q x).
  { intros z q Hq. rewrite ind_nth by lia. unfold val. destruct (Nat.ltb_spec q n); [reflexivity|lia]. }
  assert (Vv : forall x q, (q < n)%nat -> nth (n + q) (ind (n + n) (val x)) 0 = pv q x).
  { intros z q Hq. rewrite ind_nth by lia. unfold val. destruct (Nat.ltb_spec (n + q) n); [lia|]. replace (n + q - n)%nat with q by lia. reflexivity. }
  assert (T1 : (t1 - t0) / h = 1) by (unfold h; field; unfold h in Hh; auto).
  assert (T0 : (t0 - t0) / h = 0) by (field; auto).
  set (pd q th := nth (n + q) y0 0 + h * rsum N (fun i => dpw 2 (qcols P) P th i * k i q)).
  assert (Dx : forall q z, derivable_pt_lim (px q) z (pd q ((z - t0) / h))).
  { intros q z. unfold px. apply dlim_shift. unfold pd.
    replace z with (t0 + (z - t0) / h * h) at 1 by (field; auto). set (th := (z - t0) / h).
    replace (nth (n + q) y0 0 + h * rsum N (fun i => dpw 2 (qcols P) P th i * k i q)) with ((h * nth (n + q) y0 0 + h * (h * rsum N (fun i => dpw 2 (qcols P) P th i * k i q))) / h) by (field; auto).
    apply (dlim_lin (fun s => s * h * nth (n + q) y0 0 + h * (h * rsum N (fun i => pw QN 2 (qcols P) P s i * k i q)))); auto.
    apply (derivable_pt_lim_plus (fun s => s * h * nth (n + q) y0 0)).
    - replace (h * nth (n + q) y0 0) with (1 * (h * nth (n + q) y0 0)) by ring. eapply derivable_pt_lim_ext; [|apply (dlim_scal_r (h * nth (n + q) y0 0) id), derivable_pt_lim_id]. intros; unfold id; simpl; ring.
    - apply dlim_scal, dlim_scal. apply (dlim_rsum N (fun i s => pw QN 2 (qcols P) P s i * k i q) (fun i => dpw 2 (qcols P) P th i * k i q)). intros i Hi. apply dlim_scal_r. apply dlim_pw. lia. }
  assert (D0 : forall q, pd q 0 = nth (n + q) y0 0).
  { intros q. unfold pd. rewrite rsum_zero; [ring|]. intros i _. unfold dpw. rewrite rsum_zero; [ring|]. intros j _. rewrite (pow_ne_zero (j + 2 - 1)) by lia. ring. }
  assert (Dv : forall q z, pd q ((z - t0) / h) = pv q z).
  { intros q z. unfold pd, pv, wval. f_equal. f_equal. apply rsum_ext. intros i Hi. destruct (HW i Hi) as (_ & _ & _ & _ & E). rewrite E. reflexivity. }
  assert (PZ : forall e0 i, (0 < e0)%nat -> forall cols M, pw QN e0 cols M 0 i = 0).
  { intros e0 i He0 cols M. unfold pw. apply rsum_zero. intros j _. rewrite pow_ne_zero by lia. ring. }
  assert (P0 : forall q, px q t0 = nth q y0 0).
  { intros q. unfold px. rewrite T0. rewrite rsum_zero; [ring|]. intros i _. rewrite PZ by lia. ring. }
  assert (P1 : forall q, (q < n)%nat -> Rabs (px q t1 - nth q yn 0) <= h ^ 2 * (Q2R eps * rsum N (fun i => Rabs (k i q)))).
  { intros q Hq. unfold px. rewrite T1, Nz by auto. unfold lcomb. change (rsum N (fun i => vq b i * nth q (nth i RSs []) 0)) with (rsum N (fun i => vq b i * k i q)).
    pose proof (rsum_near N (pw QN 2 (qcols P) P 1) (vq b) (fun i => k i q) (Q2R eps) (fun i Hi => proj1 (HW i Hi))) as L. cbv beta in L.
    set (U := rsum N (fun i => pw QN 2 (qcols P) P 1 i * k i q)) in *. set (W := rsum N (fun i => vq b i * k i q)) in *. set (S0 := rsum N (fun i => Rabs (k i q))) in *.
    match goal with |- Rabs ?z <= _ => replace z with (h ^ 2 * (U - W)) by ring end. rewrite Rabs_mult, (Rabs_pos_eq (h ^ 2)) by apply pow2_ge_0. apply Rmult_le_compat_l; [apply pow2_ge_0|exact L]. }
  assert (V0 : forall q, pv q t0 = nth (n + q) y0 0).
  { intros q. unfold pv, wval. rewrite T0. rewrite rsum_zero; [ring|]. intros i _. rewrite PZ by lia. ring. }
  assert (V1 : forall q, (q < n)%nat -> Rabs (pv q t1 - nth (n + q) yn 0) <= Rabs h * (Q2R eps * rsum N (fun i => Rabs (k i q)))).
  { intros q Hq. unfold pv, wval. rewrite T1, Vz by auto. unfold lcomb. change (rsum N (fun i => vq bp i * nth q (nth i RSs []) 0)) with (rsum N (fun i => vq bp i * k i q)).
    pose proof (rsum_near N (pw QN 1 (qcols Pp) Pp 1) (vq bp) (fun i => k i q) (Q2R eps) (fun i Hi => proj1 (proj2 (HW i Hi)))) as L. cbv beta in L.
    set (U := rsum N (fun i => pw QN 1 (qcols Pp) Pp 1 i * k i q)) in *. set (W := rsum N (fun i => vq bp i * k i q)) in *. set (S0 := rsum N (fun i => Rabs (k i q))) in *.
    match goal with |- Rabs ?z <= _ => replace z with (h * (U - W)) by ring end. rewrite Rabs_mult. apply Rmult_le_compat_l; [apply Rabs_pos|exact L]. }
  assert (K0 : forall q, k 0%nat q = nth q (G t0 y0) 0).
  { intros q. unfold k, RSs. rewrite nstages_nth by (unfold N; lia). rewrite vq_nth. unfold extC. rewrite app_nth1 by lia. rewrite C0, Q2R_0'. replace (t0 + 0 * h) with t0 by ring.
    f_equal. f_equal. apply nth_eq_list; [rewrite npoint_length; auto|]. intros j Hj. rewrite npoint_length in Hj. destruct (Nat.ltb_spec j n).
    - rewrite npoint_x by auto. unfold lcomb. simpl. ring.
    - replace j with (n + (j - n))%nat by lia. rewrite npoint_v by lia. unfold lcomb. simpl. ring. }
  assert (K1 : forall q, k s q = nth q (G t1 yn) 0).
  { intros q. unfold k, RSs.
    pose proof (ext_all_n n G g A Ap b bp c t0 y0 h s HL LA LAp LC Hy) as EA. cbv zeta in EA. fold yn in EA. rewrite <- (ext_prefix_n n G A Ap b bp c X Xp x t0 y0 h s LA LAp LC) in EA.
    rewrite nstages_nth by (unfold N; lia).
    rewrite <- (nstages_nth n G (mq (extA A b X)) (mq (extA Ap bp Xp)) (vq (extC c x)) t0 y0 h (S s) s) by lia. rewrite EA.
    rewrite app_nth2 by (rewrite nstages_length; lia). rewrite nstages_length, Nat.sub_diag. cbn [nth]. replace (t0 + h) with t1 by (unfold h; ring). reflexivity. }
  assert (A0 : forall q, derivable_pt_lim (pv q) t0 (nth q (G t0 y0) 0)).
  { intros q. pose proof (wval_lim N (pw QN 1 (qcols Pp) Pp) (dpw 1 (qcols Pp) Pp 0) (fun q => nth (n + q) y0 0) k t0 h 0 q Hh (fun i _ => dlim_pw 1 _ _ i 0 ltac:(lia))) as L. rewrite Rmult_0_l, Rplus_0_r in L.
    rewrite (rsum_ext N _ (fun i => delta 0 i * k i q)) in L by (intros i Hi; destruct (HW i Hi) as (_ & _ & -> & _); reflexivity). rewrite (rsum_delta N 0 (fun i => k i q)) in L by (unfold N; lia). rewrite K0 in L. exact L. }
  assert (A1 : forall q, derivable_pt_lim (pv q) t1 (rsum N (fun i => dpw 1 (qcols Pp) Pp 1 i * k i q)) /\
    Rabs (rsum N (fun i => dpw 1 (qcols Pp) Pp 1 i * k i q) - nth q (G t1 yn) 0) <= Q2R eps * rsum N (fun i => Rabs (k i q))).
  { intros q. pose proof (wval_lim N (pw QN 1 (qcols Pp) Pp) (dpw 1 (qcols Pp) Pp 1) (fun q => nth (n + q) y0 0) k t0 h 1 q Hh (fun i _ => dlim_pw 1 _ _ i 1 ltac:(lia))) as L. replace (t0 + 1 * h) with t1 in L by (unfold h; ring).
    split; [exact L|]. rewrite <- K1. rewrite <- (rsum_delta N s (fun i => k i q)) by (unfold N; lia).
    apply (rsum_near N (dpw 1 (qcols Pp) Pp 1) (delta s) (fun i => k i q)). intros i Hi. apply (HW i Hi). }
  split; [exact HV|]. split; [|split].
  - apply nth_eq_list; [rewrite ind_len; auto|]. intros q Hq. rewrite ind_len in Hq. destruct (Nat.ltb_spec q n).
    * rewrite Vx by auto. apply P0.
    * replace q with (n + (q - n))%nat by lia. rewrite Vv by lia. apply V0.
  - intros q Hq z. rewrite Vv by auto. rewrite <- Dv. apply (derivable_pt_lim_ext (px q)); [intros z'; symmetry; apply Vx; auto|apply Dx].
  - intros q Hq. rewrite LR. destruct (A1 q) as (A2 & A3). split; [|split; [|split]].
    + apply (derivable_pt_lim_ext (pv q)); [intros z; symmetry; apply Vv; auto|apply A0].
    + rewrite Vx by auto. apply P1. exact Hq.
    + rewrite Vv by auto. apply V1. exact Hq.
    + eexists. split; [apply (derivable_pt_lim_ext (pv q)); [intros z; symmetry; apply Vv; auto|exact A2]|exact A3].
Qed.

Lemma nystrom_state_fi5n3 n : nystrom_state (dense_fi5n 3 n) n Fi5N_A_extra3 Fi5N_Ap_extra3 Fi5N_C_extra3 true [].
Proof.
  intros c to s yo h D s' Hy Hh H. unfold dense_fi5n in H. rewrite Hy, Hh in H. cbn [fi5n_extra] in H.
  destruct (extra_stages_n _ _ _ _ _ _ _ _ _ _) as [K' cl]. injection H as _ <-. reflexivity.
Qed.
Theorem C22_nearly_joins_nystrom n : dense_nearly_joins_n Fi5N_tab (dense_fi5n 3 n) n (Q2R (2 # 10 ^ 13)).
Proof.
  apply (nystrom_nearly_joins (2 # 10 ^ 13) Fi5N_n_stages Fi5N_A Fi5N_Ap Fi5N_B Fi5N_Bp Fi5N_C Fi5N_E Fi5N_Ep Fi5N_A_extra3 Fi5N_Ap_extra3 Fi5N_C_extra3 Fi5N_P3 Fi5N_Pp3 n);
    [reflexivity|reflexivity|reflexivity|reflexivity|reflexivity|reflexivity|reflexivity|reflexivity|apply Nat.leb_le; reflexivity|vm_compute; reflexivity|exact (nystrom_impl_fi5n 3 n ltac:(lia))|apply nystrom_state_fi5n3].
Qed.
