(** Local order of implicit Runge-Kutta methods, with exact or nearly satisfied order conditions. *)
From Coq Require Import Reals Lra Psatz QArith Qreals Qabs Lia List Arith Bool.
From Verif Require Import Series Trees OrderThm OrderCheck OrderRK GOrder.
Import ListNotations.
Open Scope R_scope.

(** ** the stage equations *)
(** ks are s slopes in dimension d = length y0 with k_i = F(t0 + c_i h, y0 + h sum_l a_il k_l) *)
Definition stage_solution (F : R -> list R -> list R) (s : nat) (A : nat -> nat -> R) (c : nat -> R) (t0 : R) (y0 : list R) (h : R) (ks : list (list R)) : Prop :=
  forall i q, (i < s)%nat -> (q < length y0)%nat ->
    nth q (nth i ks []) 0 = nth q (F (t0 + c i * h) (rpoint (length y0) y0 h (lcomb s (A i) ks))) 0.
(** every h k_i is at most rho in the maximum norm *)
Definition slopes_within (s d : nat) (h rho : R) (ks : list (list R)) : Prop :=
  forall i q, (i < s)%nat -> (q < d)%nat -> Rabs (h * nth q (nth i ks []) 0) <= rho.

Section IRK.
Variable F : R -> list R -> list R.
Variable t0 : R.
Variable y0 : list R.
Notation d := (length y0).
Variable p : nat.
Variable T : nat -> list nat -> R.
Hypothesis HT : taylor_at (S d) d (fo F d) (pt t0 y0) T p.
Variable Y : R -> list R.
Hypothesis HY : solves F t0 y0 Y.
Variable s : nat.
Variable A : nat -> nat -> R.
Variable c : nat -> R.

Let arg (h : R) (ks : list (list R)) (i j : nat) : R := match j with O => c i * h | S j' => h * lcomb s (A i) ks j' end.
Lemma stage_fo h ks i q : nth q (F (t0 + c i * h) (rpoint d y0 h (lcomb s (A i) ks))) 0 = fo F d (fun j => pt t0 y0 j + arg h ks i j) q.
Proof. reflexivity. Qed.

(** the slopes near the base point are bounded *)
Lemma slopes_bounded : exists rho B del, 0 < rho /\ 0 < del /\ forall h ks, Rabs h < del -> stage_solution F s A c t0 y0 h ks -> slopes_within s d h rho ks ->
  forall i q, (i < s)%nat -> (q < d)%nat -> Rabs (nth q (nth i ks []) 0) <= B.
Proof.
  destruct (taylor_bounded _ _ _ _ _ _ HT) as (B & d1 & Hd1 & H1).
  assert (HA : exists a, 0 < a /\ forall i, (i < s)%nat -> rsum s (fun l => Rabs (A i l)) < a /\ Rabs (c i) < a).
  { clear. assert (G : forall n, exists a, 0 < a /\ forall i, (i < n)%nat -> rsum s (fun l => Rabs (A i l)) < a /\ Rabs (c i) < a); [|apply (G s)].
    induction n as [|n (a & Ha & H)]; [exists 1; split; [lra|]; intros; lia|].
    assert (P : 0 <= rsum s (fun l => Rabs (A n l))) by (apply rsum_nonneg; intros; apply Rabs_pos). pose proof (Rabs_pos (c n)).
    exists (a + rsum s (fun l => Rabs (A n l)) + Rabs (c n) + 1). split; [lra|]. intros i Hi. destruct (Nat.eq_dec i n) as [->|Hn]; [split; lra|]. destruct (H i ltac:(lia)). split; lra. }
  destruct HA as (a & Ha & HA). exists (d1 / a), B, (d1 / a). assert (P : 0 < d1 / a) by (apply Rdiv_lt_0_compat; assumption).
  split; [exact P|]. split; [exact P|]. intros h ks Hh HS HW i q Hi Hq. rewrite (HS i q Hi Hq), stage_fo. destruct (HA i Hi) as (HA1 & HA2).
  apply H1; [|exact Hq]. intros [|j] Hj; unfold arg.
  - rewrite Rabs_mult. apply Rmult_lt_compat_r with (r := a) in Hh; [|exact Ha]. replace (d1 / a * a) with d1 in Hh by (field; lra).
    pose proof (Rabs_pos h). pose proof (Rabs_pos (c i)). nra.
  - unfold lcomb. rewrite <- rsum_scal.
    eapply Rle_lt_trans; [apply (rsum_abs_le' s _ (fun l => d1 / a * Rabs (A i l)))|].
    + intros l Hl. replace (h * (A i l * nth j (nth l ks []) 0)) with ((h * nth j (nth l ks []) 0) * A i l) by ring. rewrite Rabs_mult.
      apply Rmult_le_compat_r; [apply Rabs_pos|]. apply HW; [exact Hl|lia].
    + rewrite rsum_scal. apply Rmult_lt_reg_r with (r := / (d1 / a)); [apply Rinv_0_lt_compat, P|].
      replace (d1 / a * rsum s (fun k => Rabs (A i k)) * / (d1 / a)) with (rsum s (fun k => Rabs (A i k))) by (field; lra).
      replace (d1 * / (d1 / a)) with a by (field; lra). exact HA1.
Qed.

Section Bounded.
Variable B : R.
Definition Sol : Type := { x : R * list (list R) | stage_solution F s A c t0 y0 (fst x) (snd x) /\
  forall i q, (i < s)%nat -> (q < d)%nat -> Rabs (nth q (nth i (snd x) []) 0) <= B }.
Definition sh (x : Sol) : R := fst (proj1_sig x).
Definition sk (i : nat) (x : Sol) (q : nat) : R := nth q (nth i (snd (proj1_sig x)) []) 0.

Lemma sk_bounded i q : (i < s)%nat -> (q < d)%nat -> GOrder.Oh Sol sh 0 (fun x => sk i x q).
Proof. intros Hi Hq. exists B, 1. split; [lra|]. intros x _. simpl. rewrite Rmult_1_r. apply (proj2_sig x); assumption. Qed.
Lemma sk_eq : exists del, 0 < del /\ forall x, Rabs (sh x) < del -> forall i q, (i < s)%nat -> (q < d)%nat ->
  sk i x q = fo F d (fun j => pt t0 y0 j + gstage_arg Sol sh false true ell1 pu1 (pv1 y0) s (fun _ _ => 0) A c sk i x j) q.
Proof.
  exists 1. split; [lra|]. intros x _ i q Hi Hq. unfold sk at 1. rewrite (proj1 (proj2_sig x) i q Hi Hq). rewrite stage_fo. unfold fo, gstage_arg, pt, opt0, inj, arg, sh. f_equal. f_equal.
  - simpl. rewrite (rsum_zero s) by (intros; ring). ring.
  - apply map_ext_in. intros j Hj. apply in_seq in Hj. simpl. destruct (Nat.ltb_spec j d); [|lia]. unfold lcomb, sk. ring.
Qed.

Lemma irk_V eps b m q : (q < d)%nat -> (m <= p)%nat -> near_V false true s (fun _ _ => 0) A c eps b m ->
  exists C del, 0 < del /\ forall x, Rabs (sh x) < del ->
    Rabs (nth q y0 0 + sh x * rsum s (fun i => b i * sk i x q) - nth q (Y (t0 + sh x)) 0) <= eps * rsum m (fun n => mass false true (S d) T ell1 pu1 (pv1 y0) n q * Rabs (sh x) ^ S n) + C * Rabs (sh x) ^ S m.
Proof.
  intros Hq Hm HO. assert (HF : smooth_at p F t0 y0) by (exists T; exact HT).
  destruct (g_order_V Sol sh false true (S d) d p T ell1 pu1 (pv1 y0) (pu1_lt y0) (pv1_lt y0) (fo F d) (pt t0 y0) HT s (fun _ _ => 0) A c eps sk sk_bounded sk_eq
    (K1 F t0 Y) (YV1 t0 Y) (fun _ _ => 0) (HYV1 F t0 y0 Y HY) ltac:(discriminate) (HKb1 F t0 y0 p HF Y HY) (HK1 F t0 y0 Y HY) b m q Hq Hm HO) as (C & del & Hd & H).
  exists C, del. split; [exact Hd|]. intros x Hx. specialize (H x Hx). unfold YV1 in H. destruct HY as (HY0 & _). replace (t0 + 0) with t0 in H by ring. rewrite HY0 in H.
  replace (nth q y0 0 + sh x * rsum s (fun i => b i * sk i x q) - nth q (Y (t0 + sh x)) 0) with (sh x * rsum s (fun i => b i * sk i x q) - (nth q (Y (t0 + sh x)) 0 - nth q y0 0)) by ring. exact H.
Qed.
Lemma irk_Z eps b m q : (q < d)%nat -> (m <= p)%nat -> near_Z false true s (fun _ _ => 0) A c eps b m ->
  exists C del, 0 < del /\ forall x, Rabs (sh x) < del ->
    Rabs (sh x * rsum s (fun i => b i * sk i x q)) <= eps * rsum m (fun n => mass false true (S d) T ell1 pu1 (pv1 y0) n q * Rabs (sh x) ^ S n) + C * Rabs (sh x) ^ S m.
Proof.
  intros Hq Hm HO.
  exact (g_order_Z Sol sh false true (S d) d p T ell1 pu1 (pv1 y0) (pu1_lt y0) (pv1_lt y0) (fo F d) (pt t0 y0) HT s (fun _ _ => 0) A c eps sk sk_bounded sk_eq b m q Hq Hm HO).
Qed.
End Bounded.

Theorem irk_order eps epse b be m me : (m <= p)%nat -> (me <= p)%nat -> near_V false true s (fun _ _ => 0) A c eps b m -> near_Z false true s (fun _ _ => 0) A c epse be me ->
  exists rho C del, 0 < rho /\ 0 < del /\ forall h ks, Rabs h < del -> stage_solution F s A c t0 y0 h ks -> slopes_within s d h rho ks ->
    forall q, (q < d)%nat ->
    Rabs (nth q y0 0 + h * lcomb s b ks q - nth q (Y (t0 + h)) 0) <= eps * rsum m (fun n => mass false true (S d) T ell1 pu1 (pv1 y0) n q * Rabs h ^ S n) + C * Rabs h ^ S m /\
    Rabs (h * lcomb s be ks q) <= epse * rsum me (fun n => mass false true (S d) T ell1 pu1 (pv1 y0) n q * Rabs h ^ S n) + C * Rabs h ^ S me.
Proof.
  intros Hm Hme HV HZ. destruct slopes_bounded as (rho & B & dB & Hr & HdB & HB). 
  assert (G : forall n, (n <= d)%nat -> exists C del, 0 < del /\ forall x : Sol B, Rabs (sh B x) < del -> forall q, (q < n)%nat ->
    Rabs (nth q y0 0 + sh B x * rsum s (fun i => b i * sk B i x q) - nth q (Y (t0 + sh B x)) 0) <= eps * rsum m (fun n => mass false true (S d) T ell1 pu1 (pv1 y0) n q * Rabs (sh B x) ^ S n) + C * Rabs (sh B x) ^ S m /\
    Rabs (sh B x * rsum s (fun i => be i * sk B i x q)) <= epse * rsum me (fun n => mass false true (S d) T ell1 pu1 (pv1 y0) n q * Rabs (sh B x) ^ S n) + C * Rabs (sh B x) ^ S me).
  { induction n as [|n IH]; intros Hn; [exists 0, 1; split; [lra|]; intros; lia|].
    destruct IH as (C0 & d0 & Hd0 & H0); [lia|]. destruct (irk_V B eps b m n ltac:(lia) Hm HV) as (C1 & d1 & Hd1 & H1).
    destruct (irk_Z B epse be me n ltac:(lia) Hme HZ) as (C2 & d2 & Hd2 & H2).
    exists (Rabs C0 + Rabs C1 + Rabs C2), (Rmin d0 (Rmin d1 d2)). split; [repeat apply Rmin_case; assumption|]. intros x Hx q Hq.
    assert (A0 : Rabs (sh B x) < d0) by (eapply Rlt_le_trans; [exact Hx|apply Rmin_l]).
    assert (A1 : Rabs (sh B x) < d1) by (eapply Rlt_le_trans; [exact Hx|eapply Rle_trans; [apply Rmin_r|apply Rmin_l]]).
    assert (A2 : Rabs (sh B x) < d2) by (eapply Rlt_le_trans; [exact Hx|eapply Rle_trans; [apply Rmin_r|apply Rmin_r]]).
    assert (P : forall C r, Rabs C <= Rabs C0 + Rabs C1 + Rabs C2 -> C * Rabs (sh B x) ^ r <= (Rabs C0 + Rabs C1 + Rabs C2) * Rabs (sh B x) ^ r).
    { intros C r HC. apply Rmult_le_compat_r; [apply pow_le, Rabs_pos|]. pose proof (Rle_abs C). lra. }
    pose proof (Rabs_pos C0). pose proof (Rabs_pos C1). pose proof (Rabs_pos C2).
    destruct (Nat.eq_dec q n) as [->|Hne].
    - split; [eapply Rle_trans; [apply H1, A1|]|eapply Rle_trans; [apply H2, A2|]]; apply Rplus_le_compat_l; apply P; lra.
    - destruct (H0 x A0 q ltac:(lia)) as (X1 & X2). split; [eapply Rle_trans; [exact X1|]|eapply Rle_trans; [exact X2|]]; apply Rplus_le_compat_l; apply P; lra. }
  destruct (G d (le_n _)) as (C & del & Hd & H). exists rho, C, (Rmin del dB). split; [exact Hr|]. split; [apply Rmin_case; assumption|].
  intros h ks Hh HS HW q Hq.
  assert (A0 : Rabs h < del) by (eapply Rlt_le_trans; [exact Hh|apply Rmin_l]). assert (A1 : Rabs h < dB) by (eapply Rlt_le_trans; [exact Hh|apply Rmin_r]).
  exact (H (exist _ (h, ks) (conj HS (HB h ks A1 HS HW))) A0 q Hq).
Qed.
End IRK.

(** ** checking the conditions by computation *)
Section NearCheck.
Variable N : CN.
Variable m1 : N.
Hypothesis Hm1 : cv N m1 = -1.
Variable small : N -> Q -> bool.
Hypothesis Hsmall : forall x e, small x e = true -> Rabs (cv N x) <= Q2R e.
Variables uU uV : bool.
Variable cc : list N.
Variables MU MV : list (list N).
Hypothesis HMU : uU = true -> length MU = length cc.
Hypothesis HMV : uV = true -> length MV = length cc.
Notation s := (length cc).
Notation vR := (vR N). Notation mR := (mR N).

Definition ncheck (tb : list (list (list N * N))) (eps : Q) (m : nat) (b : list N) (rhs : nat -> N -> N) : bool :=
  forallb (fun n => forallb (fun en => small (c_add N (cdot N b (fst en)) (c_mul N m1 (rhs n (snd en)))) eps) (nth n tb [])) (seq 0 m).
Lemma ncheck_sound M eps m b rhs : (m <= S M)%nat -> ncheck (snd (tables N uU uV cc MU MV M)) eps m b rhs = true ->
  forall n fs, (n < m)%nat -> In fs (FOREST uU uV n) ->
  exists x, cv N x = exact_weight fs /\ Rabs (rsum s (fun i => vR b i * stage_weight s (mR MU) (mR MV) (vR cc) fs i) - cv N (rhs n x)) <= Q2R eps.
Proof.
  intros HM HC n fs Hn Hfs. destruct (FOREST_sound uU uV n fs Hfs) as [E Hok].
  destruct (cover_tables N uU uV cc MU MV HMU HMV M) as (_ & _ & _ & HF). destruct (HF fs Hok ltac:(lia)) as (en & Hen & (R1 & R2 & R3)).
  rewrite E in Hen. unfold ncheck in HC. rewrite forallb_forall in HC. specialize (HC n). rewrite in_seq in HC.
  specialize (HC ltac:(lia)). rewrite forallb_forall in HC. specialize (HC en Hen). apply Hsmall in HC.
  exists (snd en). split; [exact R3|]. rewrite cvadd, cvmul, Hm1, (cdot_val N b (fst en) s R1) in HC.
  eapply Rle_trans; [|exact HC]. right. f_equal. unfold Rminus. f_equal; [|ring]. apply rsum_ext. intros i Hi. rewrite R2 by auto. reflexivity.
Qed.
Lemma ncheck_V M eps m b : (m <= S M)%nat -> ncheck (snd (tables N uU uV cc MU MV M)) eps m b (rhsV N) = true ->
  near_V uU uV s (mR MU) (mR MV) (vR cc) (Q2R eps) (vR b) m.
Proof.
  intros HM HC n fs Hn Hfs. destruct (ncheck_sound M eps m b (rhsV N) HM HC n fs Hn Hfs) as (x & Hx & E).
  unfold rhsV in E. rewrite cvmul, cvinv, Hx in E by lia. exact E.
Qed.
Lemma ncheck_U M eps m b : (m <= S M)%nat -> ncheck (snd (tables N uU uV cc MU MV M)) eps m b (rhsU N) = true ->
  near_U uU uV s (mR MU) (mR MV) (vR cc) (Q2R eps) (vR b) m.
Proof.
  intros HM HC n fs Hn Hfs. destruct (ncheck_sound M eps m b (rhsU N) HM HC n fs Hn Hfs) as (x & Hx & E).
  unfold rhsU in E. rewrite !cvmul, !cvinv, Hx in E by lia. unfold Rdiv. rewrite Rinv_mult. exact E.
Qed.
Lemma ncheck_Z M eps m b : (m <= S M)%nat -> ncheck (snd (tables N uU uV cc MU MV M)) eps m b (rhsZ N) = true ->
  near_Z uU uV s (mR MU) (mR MV) (vR cc) (Q2R eps) (vR b) m.
Proof.
  intros HM HC n fs Hn Hfs. destruct (ncheck_sound M eps m b (rhsZ N) HM HC n fs Hn Hfs) as (x & Hx & E).
  unfold rhsZ in E. rewrite cv0, Rminus_0_r in E. exact E.
Qed.
End NearCheck.

(** rationals *)
Definition qsmall (x : QN) (e : Q) : bool := Qle_bool (Qabs x) e.
Lemma Q2R_abs q : Q2R (Qabs q) = Rabs (Q2R q).
Proof.
  destruct (Qlt_le_dec q 0) as [H|H].
  - rewrite (Qeq_eqR _ _ (Qabs_neg q (Qlt_le_weak _ _ H))), Q2R_opp. apply Qlt_le_weak, Qle_Rle in H. rewrite Q2R_0' in H. rewrite Rabs_left1; [reflexivity|exact H].
  - rewrite (Qeq_eqR _ _ (Qabs_pos q H)). apply Qle_Rle in H. rewrite Q2R_0' in H. rewrite Rabs_pos_eq; [reflexivity|exact H].
Qed.
Lemma qsmall_ok x e : qsmall x e = true -> Rabs (cv QN x) <= Q2R e.
Proof. intros H. apply Qle_bool_iff, Qle_Rle in H. rewrite Q2R_abs in H. exact H. Qed.
Lemma qm1_ok : cv QN ((-1)%Q : QN) = -1.
Proof. cbn. unfold Q2R. cbn. lra. Qed.

(** a + b sqrt 2, with a rational enclosure of sqrt 2 *)
Definition r2 : Q := 1414213562373095048801688724209698078569671875376948073176679737990732478462 # 1000000000000000000000000000000000000000000000000000000000000000000000000000.
Definition r2e : Q := 1 # 1000000000000000000000000000000000000000000000000000000000000.
Lemma r2_sqrt : Rabs (sqrt 2 - Q2R r2) <= Q2R r2e.
Proof.
  assert (H1 : (Q2R r2 - Q2R r2e) * (Q2R r2 - Q2R r2e) <= 2).
  { rewrite <- Q2R_minus, <- Q2R_mult. replace 2 with (Q2R 2) by (unfold Q2R; simpl; lra). apply Qle_Rle. vm_compute. discriminate. }
  assert (H2 : 2 <= (Q2R r2 + Q2R r2e) * (Q2R r2 + Q2R r2e)).
  { rewrite <- Q2R_plus, <- Q2R_mult. replace 2 with (Q2R 2) by (unfold Q2R; simpl; lra). apply Qle_Rle. vm_compute. discriminate. }
  assert (H3 : 0 <= Q2R r2 - Q2R r2e) by (rewrite <- Q2R_minus, <- Q2R_0'; apply Qle_Rle; vm_compute; discriminate).
  assert (H4 : 0 <= Q2R r2e) by (rewrite <- Q2R_0'; apply Qle_Rle; vm_compute; discriminate).
  assert (S1 : Q2R r2 - Q2R r2e <= sqrt 2) by (rewrite <- (sqrt_square (Q2R r2 - Q2R r2e)) by exact H3; apply sqrt_le_1_alt; exact H1).
  assert (S2 : sqrt 2 <= Q2R r2 + Q2R r2e) by (rewrite <- (sqrt_square (Q2R r2 + Q2R r2e)) by lra; apply sqrt_le_1_alt; exact H2).
  apply Rabs_le. lra.
Qed.
Definition q2small (x : Q2N) (e : Q) : bool := Qle_bool (Qabs (fst x + snd x * r2) + Qabs (snd x) * r2e) e.
Lemma q2small_ok x e : q2small x e = true -> Rabs (cv Q2N x) <= Q2R e.
Proof.
  intros H. apply Qle_bool_iff, Qle_Rle in H. rewrite Q2R_plus, Q2R_mult, !Q2R_abs, Q2R_plus, Q2R_mult in H.
  eapply Rle_trans; [|exact H]. cbn [cv Q2N].
  replace (Q2R (fst x) + Q2R (snd x) * sqrt 2) with ((Q2R (fst x) + Q2R (snd x) * Q2R r2) + Q2R (snd x) * (sqrt 2 - Q2R r2)) by ring.
  eapply Rle_trans; [apply Rabs_triang|]. apply Rplus_le_compat_l. rewrite Rabs_mult. apply Rmult_le_compat_l; [apply Rabs_pos|exact r2_sqrt].
Qed.
Lemma q2m1_ok : cv Q2N ((-1, 0)%Q : Q2N) = -1.
Proof. cbn. unfold Q2R. cbn. lra. Qed.
