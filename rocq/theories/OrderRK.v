(** Local order of explicit Runge-Kutta methods on real initial value problems:
    instance of OrderThm.v for y' = F(t, y), y a list of d reals. *)
From Coq Require Import Reals Lra QArith Qreals Lia List Arith Bool.
From Verif Require Import Series Trees OrderThm OrderCheck.
Import ListNotations.
Open Scope R_scope.

(** ** generic facts about [taylor_at] *)
Lemma prod_abs_le1 (z : nat -> R) js : (forall j, In j js -> Rabs (z j) <= 1) ->
  Rabs (fold_right (fun j pr => z j * pr) 1 js) <= 1.
Proof.
  induction js as [|j js IH]; intros H; simpl; [rewrite Rabs_R1; lra|].
  rewrite Rabs_mult. pose proof (H j (or_introl eq_refl)). pose proof (IH (fun k Hk => H k (or_intror Hk))).
  pose proof (Rabs_pos (z j)). pose proof (Rabs_pos (fold_right (fun j pr => z j * pr) 1 js)). nra.
Qed.
Lemma lsum_abs_le {X} (l : list X) (g : X -> R) (G : X -> R) : (forall x, In x l -> Rabs (g x) <= G x) -> Rabs (lsum l g) <= lsum l G.
Proof.
  induction l as [|x l IH]; intros H; simpl; [rewrite Rabs_R0; lra|].
  eapply Rle_trans; [apply Rabs_triang|]. apply Rplus_le_compat; [apply H; left; auto|apply IH; intros; apply H; right; auto].
Qed.
Lemma rsum_abs_le' m (g G : nat -> R) : (forall i, (i < m)%nat -> Rabs (g i) <= G i) -> Rabs (rsum m g) <= rsum m G.
Proof.
  induction m as [|m IH]; intros H; simpl; [rewrite Rabs_R0; lra|].
  eapply Rle_trans; [apply Rabs_triang|]. apply Rplus_le_compat; [apply IH; intros; apply H; lia|apply H; lia].
Qed.
Lemma rsum_le m (g G : nat -> R) : (forall i, (i < m)%nat -> g i <= G i) -> rsum m g <= rsum m G.
Proof. induction m as [|m IH]; intros H; simpl; [lra|]. apply Rplus_le_compat; [apply IH; intros; apply H; lia|apply H; lia]. Qed.
Lemma rsum_nonneg m (g : nat -> R) : (forall i, (i < m)%nat -> 0 <= g i) -> 0 <= rsum m g.
Proof. intros H. rewrite <- (rsum_zero m (fun _ => 0)) by auto. apply rsum_le. auto. Qed.
Lemma rsum_const m c : rsum m (fun _ => c) = INR m * c.
Proof. induction m as [|m IH]; [simpl; ring|]. cbn [rsum]. rewrite IH, S_INR. ring. Qed.

Lemma taylor_bounded e d f w0 T p : taylor_at e d f w0 T p ->
  exists B del, 0 < del /\ forall z, (forall j, (j < e)%nat -> Rabs (z j) < del) -> forall q, (q < d)%nat ->
    Rabs (f (fun j => w0 j + z j) q) <= B.
Proof.
  intros HT.
  assert (H : forall m, (m <= d)%nat -> exists B del, 0 < del /\ forall z, (forall j, (j < e)%nat -> Rabs (z j) < del) ->
     forall q, (q < m)%nat -> Rabs (f (fun j => w0 j + z j) q) <= B).
  { induction m as [|m IH]; intros Hm; [exists 0, 1; split; [lra|]; intros; lia|].
    destruct IH as (B & d1 & Hd1 & H1); [lia|]. destruct (HT m ltac:(lia)) as (C & d2 & Hd2 & H2).
    exists (Rabs B + (Rabs C * INR e ^ p + rsum p (fun r => lsum (idx e r) (fun js => Rabs (T m js))))), (Rmin 1 (Rmin d1 d2)).
    split; [apply Rmin_case; [lra|apply Rmin_case; auto]|]. intros z Hz q Hq.
    assert (A0 : forall j, (j < e)%nat -> Rabs (z j) < 1) by (intros; eapply Rlt_le_trans; [apply Hz; auto|apply Rmin_l]).
    assert (A1 : forall j, (j < e)%nat -> Rabs (z j) < d1) by (intros; eapply Rlt_le_trans; [apply Hz; auto|eapply Rle_trans; [apply Rmin_r|apply Rmin_l]]).
    assert (A2 : forall j, (j < e)%nat -> Rabs (z j) < d2) by (intros; eapply Rlt_le_trans; [apply Hz; auto|eapply Rle_trans; [apply Rmin_r|apply Rmin_r]]).
    assert (P1 : 0 <= rsum p (fun r => lsum (idx e r) (fun js => Rabs (T m js)))).
    { eapply Rle_trans; [apply Rabs_pos|]. apply (rsum_abs_le' p (fun r => lsum (idx e r) (fun js => T m js))).
      intros. apply lsum_abs_le. intros; lra. }
    assert (P2 : 0 <= Rabs C * INR e ^ p) by (apply Rmult_le_pos; [apply Rabs_pos|apply pow_le, pos_INR]).
    destruct (Nat.eq_dec q m) as [->|Hne].
    2:{ specialize (H1 z A1 q ltac:(lia)). pose proof (Rle_abs B). lra. }
    specialize (H2 z A2).
    set (S := rsum p (fun r => lsum (idx e r) (fun js => T m js * fold_right (fun j pr => z j * pr) 1 js))) in *.
    replace (f (fun j => w0 j + z j) m) with ((f (fun j => w0 j + z j) m - S) + S) by ring.
    eapply Rle_trans; [apply Rabs_triang|].
    assert (Q1 : C * rsum e (fun j => Rabs (z j)) ^ p <= Rabs C * INR e ^ p).
    { eapply Rle_trans; [apply Rle_abs|]. rewrite Rabs_mult. apply Rmult_le_compat_l; [apply Rabs_pos|].
      assert (Hs : 0 <= rsum e (fun j => Rabs (z j)) <= INR e).
      { split; [apply rsum_nonneg; intros; apply Rabs_pos|]. rewrite <- (Rmult_1_r (INR e)), <- rsum_const. apply rsum_le.
        intros j Hj. specialize (A0 j Hj). lra. }
      rewrite Rabs_pos_eq by (apply pow_le; lra). apply pow_incr. exact Hs. }
    assert (Q2 : Rabs S <= rsum p (fun r => lsum (idx e r) (fun js => Rabs (T m js)))).
    { unfold S. apply rsum_abs_le'. intros r _. apply lsum_abs_le. intros js Hjs. rewrite Rabs_mult.
      rewrite <- (Rmult_1_r (Rabs (T m js))) at 2. apply Rmult_le_compat_l; [apply Rabs_pos|]. apply prod_abs_le1.
      intros j Hj. apply idx_in in Hjs. rewrite Forall_forall in Hjs. specialize (A0 j (Hjs j Hj)). lra. }
    pose proof (Rabs_pos B). lra. }
  apply H; auto.
Qed.

(** a function bounded near 0 *)
Lemma Oh0_intro (g : R -> R) B del : 0 < del -> (forall h, Rabs h < del -> Rabs (g h) <= B) -> Oh 0 g.
Proof. intros Hd H. exists B, del. split; auto. intros h Hh. simpl. rewrite Rmult_1_r. auto. Qed.

Lemma Oh_small n (g : R -> R) eps : Oh (S n) g -> 0 < eps -> exists del, 0 < del /\ forall h, Rabs h < del -> Rabs (g h) < eps.
Proof.
  intros H He. destruct (Oh_pos _ _ H) as (C & d1 & HC & Hd & H1).
  exists (Rmin d1 (eps / (C + 1))). split; [apply Rmin_case; [lra|apply Rdiv_lt_0_compat; lra]|].
  intros h Hh. assert (A1 : Rabs h < d1) by (eapply Rlt_le_trans; [exact Hh|apply Rmin_l]).
  assert (A2 : Rabs h < eps / (C + 1)) by (eapply Rlt_le_trans; [exact Hh|apply Rmin_r]).
  specialize (H1 h A1). cbn [pow] in H1.
  assert (P : Rabs h ^ n <= 1).
  { rewrite <- (pow1 n). apply pow_incr. split; [apply Rabs_pos|lra]. }
  assert (P0 : 0 <= Rabs h ^ n) by (apply pow_le, Rabs_pos). pose proof (Rabs_pos h).
  apply Rmult_lt_compat_r with (r := C + 1) in A2; [|lra].
  replace (eps / (C + 1) * (C + 1)) with eps in A2 by (field; lra).
  eapply Rle_lt_trans; [exact H1|]. eapply Rle_lt_trans; [|exact A2].
  assert (Rabs h * Rabs h ^ n <= Rabs h) by nra. nra.
Qed.

(** common neighbourhood for finitely many indices *)
Lemma common_del (m : nat) (P : nat -> R -> Prop) :
  (forall i, (i < m)%nat -> exists del, 0 < del /\ forall h, Rabs h < del -> P i h) ->
  exists del, 0 < del /\ forall h, Rabs h < del -> forall i, (i < m)%nat -> P i h.
Proof.
  induction m as [|m IH]; intros H; [exists 1; split; [lra|]; intros; lia|].
  destruct IH as (d1 & Hd1 & H1); [intros; apply H; lia|]. destruct (H m ltac:(lia)) as (d2 & Hd2 & H2).
  exists (Rmin d1 d2). split; [apply Rmin_case; auto|]. intros h Hh i Hi.
  assert (A1 : Rabs h < d1) by (eapply Rlt_le_trans; [exact Hh|apply Rmin_l]).
  assert (A2 : Rabs h < d2) by (eapply Rlt_le_trans; [exact Hh|apply Rmin_r]).
  destruct (Nat.eq_dec i m) as [->|Hne]; [auto|apply H1; auto; lia].
Qed.

(** explicit stages are bounded for small h *)
Section ExplicitBounded.
Variables uU uV : bool.
Variables e d p s : nat.
Variable T : nat -> list nat -> R.
Variable ell : nat -> R.
Variables pu pv : nat -> option nat.
Hypothesis Hpu : forall j q, pu j = Some q -> (q < d)%nat.
Hypothesis Hpv : forall j q, pv j = Some q -> (q < d)%nat.
Variable f : (nat -> R) -> nat -> R.
Variable w0 : nat -> R.
Hypothesis HT : taylor_at e d f w0 T p.
Variables AU AV : nat -> nat -> R.
Variable c : nat -> R.
Hypothesis HAU : forall i l, (i <= l)%nat -> AU i l = 0.
Hypothesis HAV : forall i l, (i <= l)%nat -> AV i l = 0.
Variable k : nat -> R -> nat -> R.
Hypothesis Hk : exists del, 0 < del /\ forall h, Rabs h < del -> forall i q, (i < s)%nat -> (q < d)%nat ->
  k i h q = f (fun j => w0 j + stage_arg uU uV ell pu pv s AU AV c k i h j) q.

Lemma Oh_term A P i j (HP : forall j q, P j = Some q -> (q < d)%nat) :
  (forall l, (i <= l)%nat -> A l = 0) -> (i <= s)%nat ->
  (forall l q, (l < i)%nat -> (q < d)%nat -> Oh 0 (fun h => k l h q)) ->
  Oh 0 (fun h => rsum s (fun l => A l * inj P (k l h) j)).
Proof.
  intros HA Hi IH. apply Oh_rsum. intros l Hl.
  destruct (le_lt_dec i l) as [H|H].
  - apply (Oh_ext 0 (fun _ => 0)); [intros; rewrite HA by auto; ring|apply Oh_zero].
  - apply Oh_scal. unfold inj. destruct (P j) as [q|] eqn:E; [apply IH; eauto|apply Oh_zero].
Qed.
Lemma explicit_bounded : forall i q, (i < s)%nat -> (q < d)%nat -> Oh 0 (fun h => k i h q).
Proof.
  induction i as [i IH] using lt_wf_ind. intros q Hi Hq.
  destruct (taylor_bounded e d f w0 T p HT) as (B & d1 & Hd1 & H1).
  destruct Hk as (d2 & Hd2 & H2).
  assert (Hz : forall j, (j < e)%nat -> exists del, 0 < del /\ forall h, Rabs h < del ->
     Rabs (stage_arg uU uV ell pu pv s AU AV c k i h j) < d1).
  { intros j _. apply (Oh_small 0); auto. unfold stage_arg.
    assert (Hh : Oh 1 (fun h => h)) by (apply (Oh_ext 1 (fun h => h ^ 1)); [intros; ring|apply Oh_pow]).
    assert (O1 : forall g, Oh 0 g -> Oh 1 (fun h => h * g h)) by (intros g Hg; exact (Oh_mult 1 0 _ _ Hh Hg)).
    apply Oh_plus; [apply Oh_plus|].
    - apply O1. apply Oh_const.
    - destruct uU; [|apply Oh_zero]. unfold opt0. apply O1. apply (Oh_weaken 1); [lia|]. apply O1.
      apply (Oh_term (AU i) pu i j Hpu); auto; [lia|]. intros; apply IH; auto; lia.
    - destruct uV; [|apply Oh_zero]. unfold opt0. apply O1.
      apply (Oh_term (AV i) pv i j Hpv); auto; [lia|]. intros; apply IH; auto; lia. }
  destruct (common_del e _ Hz) as (d3 & Hd3 & H3).
  apply (Oh0_intro _ B (Rmin d2 d3)); [apply Rmin_case; auto|]. intros h Hh.
  assert (A2 : Rabs h < d2) by (eapply Rlt_le_trans; [exact Hh|apply Rmin_l]).
  assert (A3 : Rabs h < d3) by (eapply Rlt_le_trans; [exact Hh|apply Rmin_r]).
  rewrite (H2 h A2 i q Hi Hq). apply H1; auto.
Qed.
End ExplicitBounded.

(** ** first order initial value problems *)
(** the right-hand side as a function of the argument vector (t, y_0, ..., y_(d-1)) *)
Definition fo (F : R -> list R -> list R) (d : nat) (w : nat -> R) (q : nat) : R :=
  nth q (F (w 0%nat) (map (fun j => w (S j)) (seq 0 d))) 0.
Definition pt (t0 : R) (y0 : list R) (j : nat) : R := nth j (t0 :: y0) 0.
(** F has a Taylor expansion of order p at (t0, y0), with remainder O(|(dt,dy)|^p) *)
Definition smooth_at (p : nat) (F : R -> list R -> list R) (t0 : R) (y0 : list R) : Prop :=
  exists T, taylor_at (S (length y0)) (length y0) (fo F (length y0)) (pt t0 y0) T p.
(** Y solves y' = F(t, y) near t0 with Y(t0) = y0 *)
Definition solves (F : R -> list R -> list R) (t0 : R) (y0 : list R) (Y : R -> list R) : Prop :=
  Y t0 = y0 /\ exists del, 0 < del /\ forall t, Rabs (t - t0) < del -> length (Y t) = length y0 /\
    forall q, (q < length y0)%nat -> derivable_pt_lim (fun x => nth q (Y x) 0) t (nth q (F t (Y t)) 0).
(** the real Runge-Kutta stages: stage i is F(t + c_i h, y + h sum_(l<i) a_il k_l) *)
Definition lcomb (s : nat) (w : nat -> R) (ks : list (list R)) (q : nat) : R := rsum s (fun l => w l * nth q (nth l ks []) 0).
Definition rpoint (d : nat) (y : list R) (h : R) (g : nat -> R) : list R := map (fun q => nth q y 0 + h * g q) (seq 0 d).
Fixpoint rstages (F : R -> list R -> list R) (A : nat -> nat -> R) (c : nat -> R) (t : R) (y : list R) (h : R) (m : nat) : list (list R) :=
  match m with
  | O => []
  | S i => let ks := rstages F A c t y h i in
           ks ++ [F (t + c i * h) (rpoint (length y) y h (lcomb i (A i) ks))]
  end.

Lemma rstages_length F A c t y h m : length (rstages F A c t y h m) = m.
Proof. induction m as [|m IH]; [reflexivity|]. simpl. rewrite app_length, IH. simpl. lia. Qed.
Lemma rstages_nth F A c t y h m : forall i, (i < m)%nat ->
  nth i (rstages F A c t y h m) [] = F (t + c i * h) (rpoint (length y) y h (lcomb i (A i) (rstages F A c t y h i))).
Proof.
  induction m as [|m IH]; intros i Hi; [lia|]. simpl. destruct (Nat.eq_dec i m) as [->|Hne].
  - rewrite app_nth2; rewrite rstages_length; [|lia]. rewrite Nat.sub_diag. reflexivity.
  - rewrite app_nth1; [|rewrite rstages_length; lia]. apply IH. lia.
Qed.
Lemma rstages_prefix F A c t y h m n : (n <= m)%nat -> firstn n (rstages F A c t y h m) = rstages F A c t y h n.
Proof.
  induction m as [|m IH]; intros Hn; [replace n with 0%nat by lia; reflexivity|].
  destruct (Nat.eq_dec n (S m)) as [->|Hne]; [rewrite firstn_all2; [reflexivity|rewrite rstages_length; lia]|].
  simpl. rewrite firstn_app, rstages_length. replace (n - m)%nat with 0%nat by lia. rewrite firstn_O, app_nil_r. apply IH. lia.
Qed.
Lemma lcomb_prefix F A c t y h m n w q : (n <= m)%nat -> lcomb n w (rstages F A c t y h n) q = lcomb n w (rstages F A c t y h m) q.
Proof.
  intros Hn. apply rsum_ext. intros l Hl. f_equal. f_equal.
  rewrite !rstages_nth by lia. reflexivity.
Qed.
Lemma lcomb_zero_tail n m w ks q : (n <= m)%nat -> (forall l, (n <= l)%nat -> w l = 0) -> lcomb n w ks q = lcomb m w ks q.
Proof.
  intros Hn Hw. unfold lcomb. induction m as [|m IH]; [replace n with 0%nat by lia; reflexivity|].
  destruct (Nat.eq_dec n (S m)) as [->|Hne]; [reflexivity|]. cbn [rsum]. rewrite <- IH by lia. rewrite (Hw m) by lia. ring.
Qed.
Lemma map_seq_nth d (y : list R) : length y = d -> map (fun j => nth j y 0) (seq 0 d) = y.
Proof.
  intros H. apply (nth_ext _ _ 0 0); [rewrite map_length, seq_length; auto|]. intros n Hn.
  rewrite map_length, seq_length in Hn. rewrite (nth_indep _ 0 (nth 0 y 0)) by (rewrite map_length, seq_length; auto).
  rewrite (map_nth (fun j => nth j y 0) (seq 0 d) 0%nat n), seq_nth by auto. reflexivity.
Qed.
Lemma nth_map_seq (g : nat -> R) d q : (q < d)%nat -> nth q (map g (seq 0 d)) 0 = g q.
Proof.
  intros H. rewrite (nth_indep _ 0 (g 0%nat)) by (rewrite map_length, seq_length; auto).
  rewrite (map_nth g), seq_nth by auto. reflexivity.
Qed.

Section FirstOrder.
Variable F : R -> list R -> list R.
Variable t0 : R.
Variable y0 : list R.
Notation d := (length y0).
Variable p : nat.
Hypothesis HF : smooth_at p F t0 y0.
Variable Y : R -> list R.
Hypothesis HY : solves F t0 y0 Y.

Definition ell1 (j : nat) : R := match j with O => 1 | _ => 0 end.
Definition pv1 (j : nat) : option nat := match j with O => None | S j' => if Nat.ltb j' d then Some j' else None end.
Definition pu1 (_ : nat) : option nat := None.
Lemma pv1_lt j q : pv1 j = Some q -> (q < d)%nat.
Proof. destruct j as [|j]; simpl; [discriminate|]. destruct (Nat.ltb_spec j d); [|discriminate]. intros E. injection E as <-. auto. Qed.
Lemma pu1_lt j q : pu1 j = Some q -> (q < d)%nat.
Proof. discriminate. Qed.

Definition YV1 (h : R) (q : nat) : R := nth q (Y (t0 + h)) 0.
Definition K1 (h : R) (q : nat) : R := nth q (F (t0 + h) (Y (t0 + h))) 0.

Lemma shift_derive (g : R -> R) h l : derivable_pt_lim g (t0 + h) l -> derivable_pt_lim (fun x => g (t0 + x)) h l.
Proof.
  intros H eps He. destruct (H eps He) as (del & Hd). exists del. intros x Hx Hxd.
  specialize (Hd x Hx Hxd). rewrite Rplus_assoc in Hd. exact Hd.
Qed.
Lemma HYV1 : exists del, 0 < del /\ forall h, Rabs h < del -> forall q, (q < d)%nat -> derivable_pt_lim (fun x => YV1 x q) h (K1 h q).
Proof.
  destruct HY as (_ & del & Hd & H). exists del. split; auto. intros h Hh q Hq.
  destruct (H (t0 + h)) as (_ & H1); [replace (t0 + h - t0) with h by ring; auto|].
  unfold YV1. apply (shift_derive (fun x => nth q (Y x) 0)). apply H1; auto.
Qed.
Lemma exact_arg1 h j : (j < S d)%nat -> length (Y (t0 + h)) = d ->
  pt t0 y0 j + exact_arg false true ell1 pu1 pv1 YV1 (fun _ _ => 0) h j = pt (t0 + h) (Y (t0 + h)) j.
Proof.
  intros Hj HL. unfold exact_arg, opt0, inj, pt. destruct j as [|j]; simpl; [ring|].
  destruct (Nat.ltb_spec j d); [|lia]. unfold YV1. destruct HY as (HY0 & _). replace (t0 + 0) with t0 by ring. rewrite HY0. ring.
Qed.
Lemma HK1 : exists del, 0 < del /\ forall h, Rabs h < del -> forall q, (q < d)%nat ->
  K1 h q = fo F d (fun j => pt t0 y0 j + exact_arg false true ell1 pu1 pv1 YV1 (fun _ _ => 0) h j) q.
Proof.
  destruct HY as (HY0 & del & Hd & H). exists del. split; auto. intros h Hh q Hq.
  destruct (H (t0 + h)) as (HL & _); [replace (t0 + h - t0) with h by ring; auto|].
  unfold K1, fo. f_equal. f_equal.
  - rewrite exact_arg1 by (auto; lia). reflexivity.
  - transitivity (map (fun j => nth j (Y (t0 + h)) 0) (seq 0 d)); [symmetry; apply map_seq_nth; auto|].
    apply map_ext_in. intros j Hj. apply in_seq in Hj. rewrite exact_arg1 by (auto; lia). reflexivity.
Qed.
Lemma HKb1 : forall q, (q < d)%nat -> Oh 0 (fun h => K1 h q).
Proof.
  intros q Hq. destruct HF as (T & HT). destruct (taylor_bounded _ _ _ _ _ _ HT) as (B & d1 & Hd1 & H1).
  destruct HK1 as (d2 & Hd2 & H2).
  assert (Hz : forall j, (j < S d)%nat -> exists del, 0 < del /\ forall h, Rabs h < del ->
     Rabs (exact_arg false true ell1 pu1 pv1 YV1 (fun _ _ => 0) h j) < d1).
  { intros j Hj. destruct j as [|j].
    - exists d1. split; auto. intros h Hh. unfold exact_arg, opt0, inj. simpl. rewrite Rmult_1_r, !Rplus_0_r. exact Hh.
    - destruct HYV1 as (d3 & Hd3 & H3). specialize (H3 0 ltac:(rewrite Rabs_R0; auto) j ltac:(lia)).
      assert (Hc : continuity_pt (fun x => YV1 x j) 0).
      { apply derivable_continuous_pt. exists (K1 0 j). exact H3. }
      destruct (Hc d1 Hd1) as (d4 & Hd4 & H4). exists d4. split; [lra|]. intros h Hh.
      unfold exact_arg, opt0, inj. simpl. destruct (Nat.ltb_spec j d); [|lia].
      rewrite Rmult_0_r, !Rplus_0_l. unfold dist in H4. simpl in H4. unfold R_dist in H4.
      destruct (Req_dec h 0) as [->|Hne]; [rewrite Rminus_diag_eq by auto; rewrite Rabs_R0; auto|].
      apply H4. split; [split; [exact I|auto]|]. rewrite Rminus_0_r. exact Hh. }
  destruct (common_del _ _ Hz) as (d3 & Hd3 & H3).
  apply (Oh0_intro _ B (Rmin d2 d3)); [apply Rmin_case; auto|]. intros h Hh.
  assert (A2 : Rabs h < d2) by (eapply Rlt_le_trans; [exact Hh|apply Rmin_l]).
  assert (A3 : Rabs h < d3) by (eapply Rlt_le_trans; [exact Hh|apply Rmin_r]).
  rewrite (H2 h A2 q Hq). apply H1; auto.
Qed.

(** stages *)
Variable s : nat.
Variable A : nat -> nat -> R.
Variable c : nat -> R.
Hypothesis HA : forall i l, (i <= l)%nat -> A i l = 0.
Definition kk (i : nat) (h : R) (q : nat) : R := nth q (nth i (rstages F A c t0 y0 h s) []) 0.
Lemma Hk1 : exists del, 0 < del /\ forall h, Rabs h < del -> forall i q, (i < s)%nat -> (q < d)%nat ->
  kk i h q = fo F d (fun j => pt t0 y0 j + stage_arg false true ell1 pu1 pv1 s (fun _ _ => 0) A c kk i h j) q.
Proof.
  exists 1. split; [lra|]. intros h _ i q Hi Hq. unfold kk at 1. rewrite rstages_nth by auto. unfold fo. f_equal. f_equal.
  - unfold stage_arg, pt, opt0, inj. simpl. rewrite (rsum_zero s) by (intros; ring). ring.
  - unfold rpoint. apply map_ext_in. intros j Hj. apply in_seq in Hj. unfold stage_arg, pt, opt0, inj. simpl.
    destruct (Nat.ltb_spec j d); [|lia]. rewrite Rmult_0_r, Rmult_0_r, !Rplus_0_l. f_equal. f_equal.
    rewrite (lcomb_prefix F A c t0 y0 h s) by lia. rewrite (lcomb_zero_tail i s) by (auto; lia). reflexivity.
Qed.
Lemma HB1 : forall i q, (i < s)%nat -> (q < d)%nat -> Oh 0 (fun h => kk i h q).
Proof.
  destruct HF as (T & HT). apply (explicit_bounded false true (S d) d p s T ell1 pu1 pv1 pu1_lt pv1_lt (fo F d) (pt t0 y0) HT (fun _ _ => 0) A c); auto.
  apply Hk1.
Qed.

(** weights with the order conditions give an approximation of Y(t0 + th h) *)
Theorem rk_order (D : R -> Prop) (b : R -> nat -> R) (B : R) (m q : nat) :
  (q < d)%nat -> (m <= p)%nat -> 0 <= B ->
  (forall th, D th -> Rabs th <= 1 /\ (forall i, (i < s)%nat -> Rabs (b th i) <= B) /\ order_V false true s (fun _ _ => 0) A c (b th) th m) ->
  exists C del, 0 < del /\ forall th h, D th -> Rabs h < del ->
    Rabs (nth q y0 0 + h * lcomb s (b th) (rstages F A c t0 y0 h s) q - nth q (Y (t0 + th * h)) 0) <= C * Rabs h ^ S m.
Proof.
  intros Hq Hm HB HD. destruct HF as (T & HT).
  destruct (order_V_error false true (S d) d p T ell1 pu1 pv1 pu1_lt pv1_lt (fo F d) (pt t0 y0) HT s (fun _ _ => 0) A c kk HB1 Hk1
    K1 YV1 (fun _ _ => 0) HYV1) with (D := D) (b := b) (B := B) (m := m) (q := q) as (C & del & Hd & H); auto.
  - discriminate.
  - exact HKb1.
  - exact HK1.
  - exists C, del. split; auto. intros th h HDt Hh. specialize (H th h HDt Hh).
    unfold YV1 in H. destruct HY as (HY0 & _). replace (t0 + 0) with t0 in H by ring. rewrite HY0 in H.
    unfold lcomb. fold (kk). 
    replace (nth q y0 0 + h * rsum s (fun l => b th l * nth q (nth l (rstages F A c t0 y0 h s) []) 0) - nth q (Y (t0 + th * h)) 0)
      with (h * rsum s (fun i => b th i * kk i h q) - (nth q (Y (t0 + th * h)) 0 - nth q y0 0)) by (unfold kk; ring).
    exact H.
Qed.
Theorem rk_small (b : nat -> R) (m q : nat) : (q < d)%nat -> (m <= p)%nat -> order_Z false true s (fun _ _ => 0) A c b m ->
  exists C del, 0 < del /\ forall h, Rabs h < del ->
    Rabs (h * lcomb s b (rstages F A c t0 y0 h s) q) <= C * Rabs h ^ S m.
Proof.
  intros Hq Hm HO. destruct HF as (T & HT).
  destruct (order_Z_bound false true (S d) d p T ell1 pu1 pv1 pu1_lt pv1_lt (fo F d) (pt t0 y0) HT s (fun _ _ => 0) A c kk HB1 Hk1 b m q Hq Hm HO)
    as (C & del & Hd & H). exists C, del. split; auto. intros h Hh. specialize (H h Hh).
  rewrite Rabs_mult. replace (C * Rabs h ^ S m) with (Rabs h * (C * Rabs h ^ m)) by (simpl; ring).
  apply Rmult_le_compat_l; [apply Rabs_pos|]. exact H.
Qed.
End FirstOrder.
