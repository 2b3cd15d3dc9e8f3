(** The order theorem: order conditions on trees imply that the numerical step
    agrees with every solution up to O(h^(p+1)), for every right-hand side that has
    a Taylor expansion of order p at the base point.  Any dimension. *)
From Coq Require Import Reals Lra Psatz Lia List Arith Bool.
From Verif Require Import Series Trees.
Import ListNotations.
Open Scope R_scope.

(** f (with e arguments, d values) has the Taylor expansion with coefficients T at w0:
    f(w0 + z) = sum_{m < p} sum_{j1..jm} T [j1..jm] z_j1 ... z_jm + O(|z|^p) *)
Definition taylor_at (e d : nat) (f : (nat -> R) -> nat -> R) (w0 : nat -> R) (T : nat -> list nat -> R) (p : nat) : Prop :=
  forall q, (q < d)%nat -> exists C del, 0 < del /\
    forall z : nat -> R, (forall j, (j < e)%nat -> Rabs (z j) < del) ->
      Rabs (f (fun j => w0 j + z j) q
            - rsum p (fun m => lsum (idx e m) (fun js => T q js * fold_right (fun j pr => z j * pr) 1 js)))
      <= C * rsum e (fun j => Rabs (z j)) ^ p.

Section Boot.
Variables uU uV : bool.
Variable s : nat.
Variable c : nat -> R.
Variables Uop Vop : nat -> (nat -> R) -> nat -> R.
Hypothesis HU : forall n, linop (Uop n).
Hypothesis HV : forall n, linop (Vop n).
Variables e d p : nat.
Variable T : nat -> list nat -> R.
Variable ell : nat -> R.
Variables pu pv : nat -> option nat.
Variable f : (nat -> R) -> nat -> R.
Variable w0 : nat -> R.
Hypothesis HT : taylor_at e d f w0 T p.
Variable k z : nat -> R -> nat -> R.
Notation Ac := (Acoef uU uV c Uop Vop e T ell pu pv).
Notation Zc := (Zcoef uU uV c Uop Vop e T ell pu pv).
Hypothesis Hb : forall i q, (i < s)%nat -> (q < d)%nat -> Oh 0 (fun h => k i h q).
Hypothesis Hz : forall n, (forall i q, (i < s)%nat -> (q < d)%nat -> asy n (fun h => k i h q) (Ac i q)) ->
  forall i j, (i < s)%nat -> (j < e)%nat -> asy (S n) (fun h => z i h j) (Zc i j).
Hypothesis Hk : exists del, 0 < del /\ forall h, Rabs h < del -> forall i q, (i < s)%nat -> (q < d)%nat ->
  k i h q = f (fun j => w0 j + z i h j) q.

Lemma z_O1 i j : (i < s)%nat -> (j < e)%nat -> Oh 1 (fun h => z i h j).
Proof.
  intros Hi Hj. assert (H : asy 1 (fun h => z i h j) (Zc i j)).
  { apply Hz; auto. intros. apply asy_0. apply Hb; auto. }
  apply (Oh_ext 1 (fun h => z i h j - rsum 1 (fun r => Zc i j r * h ^ r))); [|exact H].
  intros h. simpl. rewrite Zcoef_0. ring.
Qed.

Lemma z_small i del : 0 < del -> (i < s)%nat -> exists d1, 0 < d1 /\ forall h, Rabs h < d1 -> forall j, (j < e)%nat -> Rabs (z i h j) < del.
Proof.
  intros Hd Hi.
  assert (H : forall m, (m <= e)%nat -> exists d1, 0 < d1 /\ forall h, Rabs h < d1 -> forall j, (j < m)%nat -> Rabs (z i h j) < del).
  { induction m as [|m IH]; intros Hm; [exists 1; split; [lra|]; intros; lia|].
    destruct IH as (d1 & Hd1 & H1); [lia|].
    destruct (Oh_pos _ _ (z_O1 i m Hi ltac:(lia))) as (C & d2 & HC & Hd2 & H2).
    exists (Rmin d1 (Rmin d2 (del / (C + 1)))). split.
    { apply Rmin_case; auto. apply Rmin_case; [lra|]. apply Rdiv_lt_0_compat; lra. }
    intros h Hh j Hj.
    assert (A1 : Rabs h < d1) by (eapply Rlt_le_trans; [exact Hh|apply Rmin_l]).
    assert (A2 : Rabs h < d2) by (eapply Rlt_le_trans; [exact Hh|eapply Rle_trans; [apply Rmin_r|apply Rmin_l]]).
    assert (A3 : Rabs h < del / (C + 1)) by (eapply Rlt_le_trans; [exact Hh|eapply Rle_trans; [apply Rmin_r|apply Rmin_r]]).
    destruct (Nat.eq_dec j m) as [->|Hne]; [|apply H1; auto; lia].
    eapply Rle_lt_trans; [apply H2; auto|]. simpl. rewrite Rmult_1_r.
    apply Rmult_lt_compat_r with (r := C + 1) in A3; [|lra].
    replace (del / (C + 1) * (C + 1)) with del in A3 by (field; lra).
    pose proof (Rabs_pos h). nra. }
  apply H; auto.
Qed.

Theorem bootstrap n : (n <= p)%nat -> forall i q, (i < s)%nat -> (q < d)%nat -> asy n (fun h => k i h q) (Ac i q).
Proof.
  induction n as [|n IH]; intros Hn i q Hi Hq; [apply asy_0, Hb; auto|].
  specialize (IH ltac:(lia)). pose proof (Hz n IH) as HZ.
  destruct (HT q Hq) as (C & del & Hdel & HTq).
  destruct (z_small i del Hdel Hi) as (d1 & Hd1 & Hz1).
  destruct Hk as (d2 & Hd2 & Hk2).
  set (G := fun h => rsum p (fun m => lsum (idx e m) (fun js => T q js * fold_right (fun j pr => z i h j * pr) 1 js))).
  assert (HR : Oh (S n) (fun h => k i h q - G h)).
  { apply (Oh_weaken p); [lia|].
    apply (Oh_le p _ (fun h => C * rsum e (fun j => Rabs (z i h j)) ^ p)).
    - exists (Rmin d1 d2). split; [apply Rmin_case; auto|]. intros h Hh.
      assert (A1 : Rabs h < d1) by (eapply Rlt_le_trans; [exact Hh|apply Rmin_l]).
      assert (A2 : Rabs h < d2) by (eapply Rlt_le_trans; [exact Hh|apply Rmin_r]).
      rewrite (Hk2 h A2 i q Hi Hq). eapply Rle_trans; [apply HTq, Hz1, A1|]. apply Rle_abs.
    - apply Oh_scal.
      assert (H1 : Oh 1 (fun h => rsum e (fun j => Rabs (z i h j)))).
      { apply Oh_rsum. intros j Hj. apply (Oh_le 1 _ (fun h => z i h j)); [|apply z_O1; auto].
        exists 1. split; [lra|]. intros. rewrite Rabs_Rabsolu. lra. }
      clear - H1. induction p as [|p0 IHp]; [apply (Oh_const 1)|]. exact (Oh_mult 1 p0 _ _ H1 IHp). }
  assert (HG : asy (S n) G (Ac i q)).
  { apply (asy_ext (S n) G (fun r => rsum p (fun m => lsum (idx e m) (fun js => T q js * convl (map (Zc i) js) r)))).
    { intros r Hr. symmetry. apply Acoef_eq; auto. lia. }
    apply asy_rsum. intros m Hm. apply asy_lsum. intros js Hjs. apply asy_scal.
    apply (asy_prod (S n) js (fun j h => z i h j) (Zc i)). intros j Hj. apply HZ; auto.
    apply idx_in in Hjs. rewrite Forall_forall in Hjs. auto. }
  unfold asy. apply (Oh_ext (S n) (fun h => (k i h q - G h) + (G h - rsum (S n) (fun r => Ac i q r * h ^ r)))); [intros; ring|].
  apply Oh_plus; auto.
Qed.
End Boot.

(** ** the two integrators *)
Definition st_op (s : nat) (M : nat -> nat -> R) (_ : nat) (x : nat -> R) (i : nat) : R := rsum s (fun l => M i l * x l).
Definition ex_U (n : nat) (x : nat -> R) (i : nat) : R := x i / (INR n * INR (n - 1)).
Definition ex_V (n : nat) (x : nat -> R) (i : nat) : R := x i / INR n.

Lemma st_op_lin s M n : linop (st_op s M n).
Proof.
  unfold st_op. split; [|split]; intros.
  - apply rsum_ext. intros; rewrite H; reflexivity.
  - rewrite <- rsum_plus. apply rsum_ext. intros; ring.
  - rewrite <- rsum_scal. apply rsum_ext. intros; ring.
Qed.
Lemma ex_U_lin n : linop (ex_U n).
Proof. unfold ex_U, Rdiv. split; [|split]; intros; [rewrite H; reflexivity|ring|ring]. Qed.
Lemma ex_V_lin n : linop (ex_V n).
Proof. unfold ex_V, Rdiv. split; [|split]; intros; [rewrite H; reflexivity|ring|ring]. Qed.

Definition opt0 (b : bool) (x : R) : R := if b then x else 0.
Lemma asy_opt0 n b f a : (b = true -> asy n f a) -> asy n (fun h => opt0 b (f h)) (fun r => opt0 b (a r)).
Proof. intros H. destruct b; [exact (H eq_refl)|apply asy_zero]. Qed.

Section Main.
Variables uU uV : bool.
Variables e d p : nat.
Variable T : nat -> list nat -> R.
Variable ell : nat -> R.
Variables pu pv : nat -> option nat.
Hypothesis Hpu : forall j q, pu j = Some q -> (q < d)%nat.
Hypothesis Hpv : forall j q, pv j = Some q -> (q < d)%nat.
Variable f : (nat -> R) -> nat -> R.
Variable w0 : nat -> R.
Hypothesis HT : taylor_at e d f w0 T p.

Lemma asy_inj (n : nat) (P : nat -> option nat) (g : R -> nat -> R) (a : nat -> nat -> R) j :
  (forall j q, P j = Some q -> (q < d)%nat) ->
  (forall q, (q < d)%nat -> asy n (fun h => g h q) (a q)) ->
  asy n (fun h => inj P (g h) j) (fun r => inj P (fun q => a q r) j).
Proof. intros HP H. unfold inj. destruct (P j) as [q|] eqn:E; [apply H; eauto|apply asy_zero]. Qed.

(** *** stages *)
Section Stages.
Variable s : nat.
Variables AU AV : nat -> nat -> R.
Variable c : nat -> R.
Variable k : nat -> R -> nat -> R.

Definition stage_arg (i : nat) (h : R) (j : nat) : R :=
  h * (c i * ell j) + opt0 uU (h * (h * rsum s (fun l => AU i l * inj pu (k l h) j)))
  + opt0 uV (h * rsum s (fun l => AV i l * inj pv (k l h) j)).

Hypothesis Hb : forall i q, (i < s)%nat -> (q < d)%nat -> Oh 0 (fun h => k i h q).
Hypothesis Hk : exists del, 0 < del /\ forall h, Rabs h < del -> forall i q, (i < s)%nat -> (q < d)%nat ->
  k i h q = f (fun j => w0 j + stage_arg i h j) q.

Notation Ac := (Acoef uU uV c (st_op s AU) (st_op s AV) e T ell pu pv).

Theorem stages_expand i q : (i < s)%nat -> (q < d)%nat -> asy p (fun h => k i h q) (Ac i q).
Proof.
  intros Hi Hq. eapply (bootstrap uU uV s c (st_op s AU) (st_op s AV)) with (f := f) (w0 := w0) (d := d) (z := stage_arg); eauto using st_op_lin.
  clear i q Hi Hq. intros n IH i j Hi Hj.
  set (aU := fun r => match r with O => 0 | S r' => rsum s (fun l => AU i l * inj pu (fun q => Ac l q r') j) end).
  set (aV := fun r => rsum s (fun l => AV i l * inj pv (fun q => Ac l q r) j)).
  apply (asy_ext (S n) _ (fun r => (shift (fun r => match r with O => c i * ell j | _ => 0 end) r
     + opt0 uU (shift aU r)) + opt0 uV (shift aV r))).
  { intros r Hr. destruct r as [|r]; [rewrite Zcoef_0; unfold opt0; simpl; destruct uU, uV; ring|].
    rewrite Zcoef_S by (intros; apply st_op_lin). unfold opt0. simpl shift.
    unfold aU, aV, st_op. destruct uU, uV, r; ring. }
  unfold stage_arg. apply asy_plus; [apply asy_plus|].
  - apply (asy_shift n (fun _ => c i * ell j)). apply asy_const.
  - apply asy_opt0; intros Hu.
    apply (asy_weaken (S (S n))); [lia|]. apply asy_shift. 
    apply (asy_ext (S n) _ (shift (fun r => rsum s (fun l => AU i l * inj pu (fun q => Ac l q r) j)))).
    { intros [|r] Hr; reflexivity. }
    apply asy_shift. apply asy_rsum. intros l Hl. apply asy_scal. apply (asy_inj n pu (k l) (Ac l)); auto.
  - apply asy_opt0; intros Hu.
    apply asy_shift. apply asy_rsum. intros l Hl. apply asy_scal. apply (asy_inj n pv (k l) (Ac l)); auto.
Qed.
End Stages.

(** *** the exact solution *)
Section Exact.
(** K: value of f along the solution at time s; YV its integral; YU the integral of YV - YV 0 *)
Variables K YV YU : R -> nat -> R.
Definition exact_arg (h : R) (j : nat) : R :=
  h * ell j + opt0 uU (inj pu (fun q => YU h q - YU 0 q) j) + opt0 uV (inj pv (fun q => YV h q - YV 0 q) j).
Hypothesis HYV : exists del, 0 < del /\ forall h, Rabs h < del -> forall q, (q < d)%nat -> derivable_pt_lim (fun x => YV x q) h (K h q).
Hypothesis HYU : uU = true -> exists del, 0 < del /\ forall h, Rabs h < del -> forall q, (q < d)%nat -> derivable_pt_lim (fun x => YU x q) h (YV h q - YV 0 q).
Hypothesis Hb : forall q, (q < d)%nat -> Oh 0 (fun h => K h q).
Hypothesis Hk : exists del, 0 < del /\ forall h, Rabs h < del -> forall q, (q < d)%nat ->
  K h q = f (fun j => w0 j + exact_arg h j) q.

Notation Ac := (Acoef uU uV (fun _ => 1) ex_U ex_V e T ell pu pv).

Lemma YV_expand n q : (q < d)%nat -> asy n (fun h => K h q) (Ac 0%nat q) ->
  asy (S n) (fun h => YV h q - YV 0 q) (fun r => match r with O => 0 | S r' => Ac 0%nat q r' / INR r end).
Proof.
  intros Hq H. apply (asy_integrate n (fun h => YV h q) (fun h => K h q)); auto.
  destruct HYV as (del & Hd & H1). exists del. auto.
Qed.
Lemma YU_expand n q : uU = true -> (q < d)%nat -> asy n (fun h => K h q) (Ac 0%nat q) ->
  asy (S (S n)) (fun h => YU h q - YU 0 q)
    (fun r => match r with O => 0 | S O => 0 | S (S r') => Ac 0%nat q r' / (INR r * INR (r - 1)) end).
Proof.
  intros Hu Hq H.
  apply (asy_ext (S (S n)) _ (fun r => match r with O => 0 | S r' => (match r' with O => 0 | S r'' => Ac 0%nat q r'' / INR r' end) / INR r end)).
  { intros [|[|r]] Hr; [reflexivity|unfold Rdiv; ring|].
    replace (S (S r) - 1)%nat with (S r) by lia. field. split; apply not_0_INR; lia. }
  apply (asy_integrate (S n) (fun h => YU h q) (fun h => YV h q - YV 0 q)).
  - destruct (HYU Hu) as (del & Hd & H1). exists del. auto.
  - apply YV_expand; auto.
Qed.

Theorem exact_expand q : (q < d)%nat -> asy p (fun h => K h q) (Ac 0%nat q).
Proof.
  intros Hq.
  assert (Hk' : exists del, 0 < del /\ forall h, Rabs h < del -> forall i q, (i < 1)%nat -> (q < d)%nat ->
    K h q = f (fun j => w0 j + exact_arg h j) q).
  { destruct Hk as (del & Hd & H). exists del. split; auto. }
  eapply (bootstrap uU uV 1 (fun _ => 1) ex_U ex_V) with (p := p) (k := fun _ => K) (z := fun _ => exact_arg) (i := 0%nat);
    eauto using ex_U_lin, ex_V_lin.
  clear q Hq.
  intros n IH i j Hi Hj. assert (i = 0%nat) by lia. subst i.
  assert (IHq : forall q, (q < d)%nat -> asy n (fun h => K h q) (Ac 0%nat q)) by (intros; apply (IH 0%nat); auto).
  set (aV := fun q r => match r with O => 0 | S r' => Ac 0%nat q r' / INR r end).
  set (aU := fun q r => match r with O => 0 | S O => 0 | S (S r') => Ac 0%nat q r' / (INR r * INR (r - 1)) end).
  apply (asy_ext (S n) _ (fun r => (shift (fun r => match r with O => ell j | _ => 0 end) r
     + opt0 uU (inj pu (fun q => aU q r) j)) + opt0 uV (inj pv (fun q => aV q r) j))).
  { intros r Hr. destruct r as [|r].
    - rewrite Zcoef_0. unfold opt0, inj, aU, aV. simpl. destruct uU, uV, (pu j), (pv j); ring.
    - rewrite Zcoef_S by (intros; auto using ex_U_lin, ex_V_lin). unfold opt0, inj, aU, aV, ex_U, ex_V. simpl shift.
      destruct uU, uV, r, (pu j), (pv j); unfold Rdiv; ring. }
  unfold exact_arg. apply asy_plus; [apply asy_plus|].
  - apply (asy_shift n (fun _ => ell j)). apply asy_const.
  - apply asy_opt0; intros Hu. apply (asy_inj (S n) pu (fun h q => YU h q - YU 0 q) aU); auto.
    intros q0 Hq0. apply (asy_weaken (S (S n))); [lia|]. apply YU_expand; auto.
  - apply asy_opt0; intros Hu. apply (asy_inj (S n) pv (fun h q => YV h q - YV 0 q) aV); auto.
    intros q0 Hq0. apply YV_expand; auto.
Qed.
End Exact.

(** *** order conditions and the theorem *)
Section Order.
Variable s : nat.
Variables AU AV : nat -> nat -> R.
Variable c : nat -> R.
Definition stage_weight : list item -> nat -> R := wf c (st_op s AU) (st_op s AV).
Definition exact_weight (fs : list item) : R := wf (fun _ => 1) ex_U ex_V fs 0%nat.

(** order conditions for weights b at the point th of the step (th = 1: the end);
    [order_V]: for integrals of k (first order equations, velocities);
    [order_U]: for double integrals (positions of second order equations) *)
Definition order_V (b : nat -> R) (th : R) (m : nat) : Prop := forall n fs, (n < m)%nat -> In fs (FOREST uU uV n) ->
  rsum s (fun i => b i * stage_weight fs i) = th ^ S n / INR (S n) * exact_weight fs.
Definition order_U (b : nat -> R) (th : R) (m : nat) : Prop := forall n fs, (n < m)%nat -> In fs (FOREST uU uV n) ->
  rsum s (fun i => b i * stage_weight fs i) = th ^ S (S n) / (INR (S (S n)) * INR (S n)) * exact_weight fs.

Variable k : nat -> R -> nat -> R.
Hypothesis Hb : forall i q, (i < s)%nat -> (q < d)%nat -> Oh 0 (fun h => k i h q).
Hypothesis Hk : exists del, 0 < del /\ forall h, Rabs h < del -> forall i q, (i < s)%nat -> (q < d)%nat ->
  k i h q = f (fun j => w0 j + stage_arg s AU AV c k i h j) q.
Variables K YV YU : R -> nat -> R.
Hypothesis HYV : exists del, 0 < del /\ forall h, Rabs h < del -> forall q, (q < d)%nat -> derivable_pt_lim (fun x => YV x q) h (K h q).
Hypothesis HYU : uU = true -> exists del, 0 < del /\ forall h, Rabs h < del -> forall q, (q < d)%nat -> derivable_pt_lim (fun x => YU x q) h (YV h q - YV 0 q).
Hypothesis HKb : forall q, (q < d)%nat -> Oh 0 (fun h => K h q).
Hypothesis HK : exists del, 0 < del /\ forall h, Rabs h < del -> forall q, (q < d)%nat ->
  K h q = f (fun j => w0 j + exact_arg YV YU h j) q.

Notation Ak := (Acoef uU uV c (st_op s AU) (st_op s AV) e T ell pu pv).
Notation Ae := (Acoef uU uV (fun _ => 1) ex_U ex_V e T ell pu pv).

Lemma comb_coef b q n (r : R) : (forall fs, In fs (FOREST uU uV n) -> rsum s (fun i => b i * stage_weight fs i) = r * exact_weight fs) ->
  rsum s (fun i => b i * Ak i q n) = r * Ae 0%nat q n.
Proof.
  intros H. unfold Acoef. rewrite <- lsum_scal.
  rewrite (rsum_ext s _ (fun i => lsum (FOREST uU uV n) (fun fs => F e T ell pu pv fs q * (b i * stage_weight fs i)))).
  2:{ intros i _. rewrite <- lsum_scal. apply lsum_ext. intros; unfold stage_weight; ring. }
  rewrite <- lsum_rsum_swap. apply lsum_ext. intros fs Hfs. rewrite rsum_scal, (H fs Hfs). unfold exact_weight. ring.
Qed.

(** a finite family of O(h^n) functions has common constants *)
Lemma Oh_unif (n m : nat) (g : nat -> R -> R) : (forall i, (i < m)%nat -> Oh n (g i)) ->
  exists C del, 0 <= C /\ 0 < del /\ forall h, Rabs h < del -> forall i, (i < m)%nat -> Rabs (g i h) <= C * Rabs h ^ n.
Proof.
  induction m as [|m IH]; intros H; [exists 0, 1; split; [lra|]; split; [lra|]; intros; lia|].
  destruct IH as (C1 & d1 & HC1 & Hd1 & H1); [intros; apply H; lia|].
  destruct (Oh_pos _ _ (H m ltac:(lia))) as (C2 & d2 & HC2 & Hd2 & H2).
  exists (C1 + C2), (Rmin d1 d2). split; [lra|]. split; [apply Rmin_case; lra|]. intros h Hh i Hi.
  assert (A1 : Rabs h < d1) by (eapply Rlt_le_trans; [exact Hh|apply Rmin_l]).
  assert (A2 : Rabs h < d2) by (eapply Rlt_le_trans; [exact Hh|apply Rmin_r]).
  assert (P : 0 <= Rabs h ^ n) by (apply pow_le, Rabs_pos).
  destruct (Nat.eq_dec i m) as [->|Hne]; [specialize (H2 h A2)|specialize (H1 h A1 i ltac:(lia))]; nra.
Qed.
Lemma rsum_abs_le m g B : (forall i, (i < m)%nat -> Rabs (g i) <= B) -> Rabs (rsum m g) <= INR m * B.
Proof.
  induction m as [|m IH]; intros H; [simpl; rewrite Rabs_R0; lra|]. cbn [rsum]. rewrite S_INR.
  eapply Rle_trans; [apply Rabs_triang|]. pose proof (H m ltac:(lia)). specialize (IH ltac:(intros; apply H; lia)). lra.
Qed.

Lemma scaled_bound m (g : R -> R) (a : nat -> R) : asy m g a ->
  exists C del, 0 <= C /\ 0 < del /\ forall th h, Rabs th <= 1 -> Rabs h < del ->
    Rabs (g (th * h) - rsum m (fun r => th ^ r * a r * h ^ r)) <= C * Rabs h ^ m.
Proof.
  intros H. destruct (Oh_pos _ _ H) as (C & del & HC & Hd & H1). exists C, del. split; auto. split; [lra|].
  intros th h Hth Hh.
  assert (A : Rabs (th * h) <= Rabs h).
  { rewrite Rabs_mult. pose proof (Rabs_pos h). nra. }
  specialize (H1 (th * h) ltac:(lra)).
  rewrite (rsum_ext m _ (fun r => th ^ r * a r * h ^ r)) in H1 by (intros; rewrite Rpow_mult_distr; ring).
  eapply Rle_trans; [exact H1|]. apply Rmult_le_compat_l; auto. apply pow_incr. split; auto. apply Rabs_pos.
Qed.

Lemma comb_bound m (B : R) q : (q < d)%nat -> (m <= p)%nat -> 0 <= B ->
  exists C del, 0 < del /\ forall b h, (forall i, (i < s)%nat -> Rabs (b i) <= B) -> Rabs h < del ->
    Rabs (rsum s (fun i => b i * k i h q) - rsum m (fun r => rsum s (fun i => b i * Ak i q r) * h ^ r)) <= C * Rabs h ^ m.
Proof.
  intros Hq Hm HB.
  destruct (Oh_unif m s (fun i h => k i h q - rsum m (fun r => Ak i q r * h ^ r))) as (C & del & HC & Hd & H1).
  { intros i Hi. apply (asy_weaken p m); auto. apply stages_expand; auto. }
  exists (INR s * (B * C)), del. split; auto. intros b h Hbb Hh.
  replace (rsum s (fun i => b i * k i h q) - rsum m (fun r => rsum s (fun i => b i * Ak i q r) * h ^ r))
    with (rsum s (fun i => b i * (k i h q - rsum m (fun r => Ak i q r * h ^ r)))).
  - rewrite Rmult_assoc. apply rsum_abs_le. intros i Hi. rewrite Rabs_mult, Rmult_assoc.
    apply Rmult_le_compat; auto using Rabs_pos.
  - rewrite (rsum_ext m _ (fun r => rsum s (fun i => b i * (Ak i q r * h ^ r)))).
    2:{ intros. rewrite Rmult_comm, <- rsum_scal. apply rsum_ext. intros; ring. }
    rewrite rsum_swap.
    rewrite (rsum_ext s _ (fun i => b i * k i h q + -1 * rsum m (fun r => b i * (Ak i q r * h ^ r)))).
    2:{ intros. rewrite rsum_scal. ring. }
    rewrite rsum_plus, rsum_scal. ring.
Qed.

(** main theorems *)
Theorem order_V_error (D : R -> Prop) (b : R -> nat -> R) (B : R) (m q : nat) :
  (q < d)%nat -> (m <= p)%nat -> 0 <= B ->
  (forall th, D th -> Rabs th <= 1 /\ (forall i, (i < s)%nat -> Rabs (b th i) <= B) /\ order_V (b th) th m) ->
  exists C del, 0 < del /\ forall th h, D th -> Rabs h < del ->
    Rabs (h * rsum s (fun i => b th i * k i h q) - (YV (th * h) q - YV 0 q)) <= C * Rabs h ^ S m.
Proof.
  intros Hq Hm HB HD.
  destruct (comb_bound m B q Hq Hm HB) as (C1 & d1 & Hd1 & H1).
  destruct (scaled_bound (S m) (fun h => YV h q - YV 0 q) (fun r => match r with O => 0 | S r' => Ae 0%nat q r' / INR r end)) as (C2 & d2 & HC2 & Hd2 & H2).
  { apply (YV_expand K YV HYV m q Hq). apply (asy_weaken p); auto. apply (exact_expand K YV YU); auto. }
  exists (C1 + C2), (Rmin d1 d2). split; [apply Rmin_case; auto|]. intros th h HDth Hh.
  assert (A1 : Rabs h < d1) by (eapply Rlt_le_trans; [exact Hh|apply Rmin_l]).
  assert (A2 : Rabs h < d2) by (eapply Rlt_le_trans; [exact Hh|apply Rmin_r]).
  destruct (HD th HDth) as (Hth & Hbb & HO).
  specialize (H1 (b th) h Hbb A1). specialize (H2 th h Hth A2). cbv beta in H2.
  rewrite rsum_split in H2.
  rewrite (rsum_ext m (fun r => rsum s (fun i => b th i * Ak i q r) * h ^ r) (fun r => th ^ S r / INR (S r) * Ae 0%nat q r * h ^ r)) in H1.
  2:{ intros r Hr. f_equal. apply comb_coef. intros fs Hfs. apply HO; auto. }
  rewrite (rsum_ext m (fun r => th ^ S r * (Ae 0%nat q r / INR (S r)) * h ^ S r) (fun r => h * (th ^ S r / INR (S r) * Ae 0%nat q r * h ^ r))) in H2.
  2:{ intros r Hr. rewrite <- !tech_pow_Rmult. unfold Rdiv. ring. }
  rewrite rsum_scal in H2.
  set (S1 := rsum s (fun i => b th i * k i h q)) in *.
  set (S2 := rsum m (fun r => th ^ S r / INR (S r) * Ae 0%nat q r * h ^ r)) in *.
  replace (h * S1 - (YV (th * h) q - YV 0 q)) with (h * (S1 - S2) - (YV (th * h) q - YV 0 q - (th ^ 0 * 0 * h ^ 0 + h * S2))) by ring.
  eapply Rle_trans; [apply Rabs_triang|]. rewrite Rabs_Ropp, Rabs_mult, Rmult_plus_distr_r.
  apply Rplus_le_compat; [|exact H2].
  replace (C1 * Rabs h ^ S m) with (Rabs h * (C1 * Rabs h ^ m)) by (simpl; ring).
  apply Rmult_le_compat_l; auto. apply Rabs_pos.
Qed.

Theorem order_U_error (D : R -> Prop) (b : R -> nat -> R) (B : R) (m q : nat) : uU = true ->
  (q < d)%nat -> (m <= p)%nat -> 0 <= B ->
  (forall th, D th -> Rabs th <= 1 /\ (forall i, (i < s)%nat -> Rabs (b th i) <= B) /\ order_U (b th) th m) ->
  exists C del, 0 < del /\ forall th h, D th -> Rabs h < del ->
    Rabs (h * (h * rsum s (fun i => b th i * k i h q)) - (YU (th * h) q - YU 0 q)) <= C * Rabs h ^ S (S m).
Proof.
  intros Hu Hq Hm HB HD.
  destruct (comb_bound m B q Hq Hm HB) as (C1 & d1 & Hd1 & H1).
  destruct (scaled_bound (S (S m)) (fun h => YU h q - YU 0 q) (fun r => match r with O => 0 | S O => 0 | S (S r') => Ae 0%nat q r' / (INR r * INR (r - 1)) end)) as (C2 & d2 & HC2 & Hd2 & H2).
  { apply (YU_expand K YV YU HYV HYU m q Hu Hq). apply (asy_weaken p); auto. apply (exact_expand K YV YU); auto. }
  exists (C1 + C2), (Rmin d1 d2). split; [apply Rmin_case; auto|]. intros th h HDth Hh.
  assert (A1 : Rabs h < d1) by (eapply Rlt_le_trans; [exact Hh|apply Rmin_l]).
  assert (A2 : Rabs h < d2) by (eapply Rlt_le_trans; [exact Hh|apply Rmin_r]).
  destruct (HD th HDth) as (Hth & Hbb & HO).
  specialize (H1 (b th) h Hbb A1). specialize (H2 th h Hth A2). cbv beta in H2.
  rewrite rsum_split, rsum_split in H2.
  rewrite (rsum_ext m (fun r => rsum s (fun i => b th i * Ak i q r) * h ^ r) (fun r => th ^ S (S r) / (INR (S (S r)) * INR (S r)) * Ae 0%nat q r * h ^ r)) in H1.
  2:{ intros r Hr. f_equal. apply comb_coef. intros fs Hfs. apply HO; auto. }
  rewrite (rsum_ext m (fun r => th ^ S (S r) * (Ae 0%nat q r / (INR (S (S r)) * INR (S (S r) - 1))) * h ^ S (S r)) (fun r => h * h * (th ^ S (S r) / (INR (S (S r)) * INR (S r)) * Ae 0%nat q r * h ^ r))) in H2.
  2:{ intros r Hr. replace (S (S r) - 1)%nat with (S r) by lia. rewrite <- !tech_pow_Rmult. unfold Rdiv. ring. }
  rewrite rsum_scal in H2.
  set (S1 := rsum s (fun i => b th i * k i h q)) in *.
  set (S2 := rsum m (fun r => th ^ S (S r) / (INR (S (S r)) * INR (S r)) * Ae 0%nat q r * h ^ r)) in *.
  replace (h * (h * S1) - (YU (th * h) q - YU 0 q)) with (h * (h * (S1 - S2)) - (YU (th * h) q - YU 0 q - (th ^ 0 * 0 * h ^ 0 + (th ^ 1 * 0 * h ^ 1 + h * h * S2)))) by ring.
  eapply Rle_trans; [apply Rabs_triang|]. rewrite Rabs_Ropp, !Rabs_mult, Rmult_plus_distr_r.
  apply Rplus_le_compat; [|exact H2].
  replace (C1 * Rabs h ^ S (S m)) with (Rabs h * (Rabs h * (C1 * Rabs h ^ m))) by (simpl; ring).
  apply Rmult_le_compat_l; [apply Rabs_pos|]. apply Rmult_le_compat_l; auto. apply Rabs_pos.
Qed.

(** a combination of the stages whose weights satisfy the homogeneous conditions is small *)
Definition order_Z (b : nat -> R) (m : nat) : Prop := forall n fs, (n < m)%nat -> In fs (FOREST uU uV n) ->
  rsum s (fun i => b i * stage_weight fs i) = 0.
Theorem order_Z_bound (b : nat -> R) (m q : nat) :
  (q < d)%nat -> (m <= p)%nat -> order_Z b m ->
  exists C del, 0 < del /\ forall h, Rabs h < del -> Rabs (rsum s (fun i => b i * k i h q)) <= C * Rabs h ^ m.
Proof.
  intros Hq Hm HO.
  assert (HB : exists B, 0 <= B /\ forall i, (i < s)%nat -> Rabs (b i) <= B).
  { generalize s. induction s0 as [|n (B & HB & H)]; [exists 0; split; [lra|intros; lia]|].
    exists (B + Rabs (b n)). pose proof (Rabs_pos (b n)). split; [lra|]. intros i Hi.
    destruct (Nat.eq_dec i n) as [->|Hne]; [lra|]. specialize (H i ltac:(lia)). lra. }
  destruct HB as (B & HB & HBb).
  destruct (comb_bound m B q Hq Hm HB) as (C1 & d1 & Hd1 & H1).
  exists C1, d1. split; auto. intros h Hh. specialize (H1 b h HBb Hh).
  rewrite (rsum_zero m) in H1; [rewrite Rminus_0_r in H1; exact H1|].
  intros r Hr. rewrite (comb_coef b q r 0); [ring|]. intros fs Hfs. rewrite (HO r fs Hr Hfs). ring.
Qed.
End Order.
End Main.
