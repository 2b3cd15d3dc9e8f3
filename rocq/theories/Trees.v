(** Trees of the order theory, as nested lists.

    A forest [fs : list item] stands for one term of the expansion of the
    right-hand side along the step: each item is an increment of the argument:
      L      the affine part  c h (1, v0)   (time and, for second order problems, velocity)
      V gs   h   times the term of gs        (from h sum a_ij k_j)
      U gs   h^2 times the term of gs        (from h^2 sum A_ij k_j, Nystrom only)
    The trees are planar (children ordered): no symmetry factors are needed. *)
From Coq Require Import Reals Lra Psatz Lia List Arith Bool.
From Verif Require Import Series.
Import ListNotations.
Open Scope R_scope.

Inductive item := L | U (fs : list item) | V (fs : list item).

Fixpoint isize (x : item) : nat :=
  match x with
  | L => 1
  | U fs => 2 + fold_right (fun y n => isize y + n) 0 fs
  | V fs => 1 + fold_right (fun y n => isize y + n) 0 fs
  end%nat.
Definition fsize (fs : list item) : nat := fold_right (fun y n => isize y + n)%nat 0%nat fs.

Fixpoint item_ind2 (P : item -> Prop) (Q : list item -> Prop)
  (HL : P L) (HU : forall fs, Q fs -> P (U fs)) (HV : forall fs, Q fs -> P (V fs))
  (Hn : Q []) (Hc : forall x fs, P x -> Q fs -> Q (x :: fs)) (x : item) : P x :=
  let go := fix go (l : list item) : Q l :=
    match l with [] => Hn | y :: l' => Hc y l' (item_ind2 P Q HL HU HV Hn Hc y) (go l') end in
  match x with L => HL | U fs => HU fs (go fs) | V fs => HV fs (go fs) end.
Definition forest_ind2 (P : item -> Prop) (Q : list item -> Prop) HL HU HV Hn Hc : forall fs, Q fs :=
  fix go (l : list item) : Q l :=
    match l with [] => Hn | y :: l' => Hc y l' (item_ind2 P Q HL HU HV Hn Hc y) (go l') end.

Section Enum.
Variables uU uV : bool.   (* which kinds of increments the problem class has *)

(** lists of exactly m items of total size n *)
Fixpoint forestm (its : nat -> list item) (m n : nat) : list (list item) :=
  match m with
  | O => match n with O => [[]] | _ => [] end
  | S m' => flat_map (fun k => flat_map (fun x => map (cons x) (forestm its m' (n - k))) (its k)) (seq 0 (S n))
  end.
Definition forest_of (its : nat -> list item) (n : nat) : list (list item) :=
  flat_map (fun m => forestm its m n) (seq 0 (S n)).
Fixpoint items (fuel k : nat) : list item :=
  match fuel, k with
  | S fu, S k' =>
    (match k' with O => [L] | _ => [] end) ++
    (if uU then match k' with O => [] | S k'' => map U (forest_of (items fu) k'') end else []) ++
    (if uV then map V (forest_of (items fu) k') else [])
  | _, _ => []
  end.
Definition ITEMS (k : nat) : list item := items k k.
Definition FOREST (n : nat) : list (list item) := forest_of ITEMS n.

Lemma forestm_ext its its' m : forall n, (forall k, (k <= n)%nat -> its k = its' k) -> forestm its m n = forestm its' m n.
Proof.
  induction m as [|m IH]; intros n H; [reflexivity|]. cbn [forestm].
  rewrite !flat_map_concat_map. f_equal. apply map_ext_in. intros k Hk. apply in_seq in Hk.
  rewrite H by lia. rewrite (IH (n - k)%nat) by (intros; apply H; lia). reflexivity.
Qed.
Lemma forest_of_ext its its' n : (forall k, (k <= n)%nat -> its k = its' k) -> forest_of its n = forest_of its' n.
Proof.
  intros H. unfold forest_of. rewrite !flat_map_concat_map. f_equal. apply map_ext. intros m. apply forestm_ext; auto.
Qed.
Lemma items_fuel fu k : (k <= fu)%nat -> items fu k = ITEMS k.
Proof.
  unfold ITEMS. assert (H : forall f1 f2 k, (k <= f1)%nat -> (k <= f2)%nat -> items f1 k = items f2 k).
  { induction f1 as [|f1 IH]; intros f2 j H1 H2.
    - replace j with 0%nat by lia. destruct f2; reflexivity.
    - destruct f2 as [|f2]; [replace j with 0%nat by lia; reflexivity|].
      destruct j as [|j]; [reflexivity|]. cbn [items]. f_equal. f_equal.
      + destruct uU; [|reflexivity]. destruct j as [|j]; [reflexivity|]. f_equal. apply forest_of_ext. intros; apply IH; lia.
      + destruct uV; [|reflexivity]. f_equal. apply forest_of_ext. intros; apply IH; lia. }
  intros. apply H; lia.
Qed.
Lemma ITEMS_0 : ITEMS 0 = [].
Proof. reflexivity. Qed.
Lemma ITEMS_S k : ITEMS (S k) =
  (match k with O => [L] | _ => [] end) ++
  (if uU then match k with O => [] | S k' => map U (FOREST k') end else []) ++
  (if uV then map V (FOREST k) else []).
Proof.
  unfold ITEMS at 1. cbn [items]. f_equal. f_equal.
  - destruct uU; [|reflexivity]. destruct k as [|k]; [reflexivity|]. f_equal. apply forest_of_ext. intros; apply items_fuel; lia.
  - destruct uV; [|reflexivity]. f_equal. apply forest_of_ext. intros; apply items_fuel; lia.
Qed.
Lemma forestm_empty m : forall n, (n < m)%nat -> forestm ITEMS m n = [].
Proof.
  induction m as [|m IH]; intros n H; [lia|]. cbn [forestm].
  assert (E : forall l, (forall k, In k l -> (k <= n)%nat) ->
     flat_map (fun k => flat_map (fun x => map (cons x) (forestm ITEMS m (n - k))) (ITEMS k)) l = []).
  { induction l as [|k l IHl]; intros Hl; [reflexivity|]. cbn [flat_map]. rewrite IHl by (intros; apply Hl; right; auto).
    rewrite app_nil_r. destruct k as [|k]; [reflexivity|]. rewrite IH by (pose proof (Hl (S k) (or_introl eq_refl)); lia).
    clear. generalize (ITEMS (S k)) as l. induction l as [|x l IHl]; [reflexivity|exact IHl]. }
  apply E. intros k Hk. apply in_seq in Hk. lia.
Qed.

(** the enumerated forests are well formed and have the stated size *)
Fixpoint iok (x : item) : bool :=
  match x with
  | L => true
  | U fs => uU && forallb iok fs
  | V fs => uV && forallb iok fs
  end.
Lemma forestm_sound m : forall n fs, (forall k x, (k <= n)%nat -> In x (ITEMS k) -> isize x = k /\ iok x = true) ->
  In fs (forestm ITEMS m n) -> fsize fs = n /\ forallb iok fs = true.
Proof.
  induction m as [|m IH]; intros n fs HI H.
  - cbn in H. destruct n; [|destruct H]. destruct H as [<-|[]]. auto.
  - cbn [forestm] in H. apply in_flat_map in H. destruct H as (k & Hk & H). apply in_seq in Hk.
    apply in_flat_map in H. destruct H as (x & Hx & H). apply in_map_iff in H. destruct H as (gs & <- & H).
    apply IH in H; [|intros; apply HI; auto; lia]. destruct H as [H1 H2]. destruct (HI k x) as [H3 H4]; [lia|auto|].
    split; [cbn [fsize fold_right]; unfold fsize in H1; lia|]. cbn [forallb]. rewrite H4, H2. reflexivity.
Qed.
Lemma ITEMS_sound k : forall x, In x (ITEMS k) -> isize x = k /\ iok x = true.
Proof.
  induction k as [k IH] using lt_wf_ind. intros x Hx. destruct k as [|k]; [destruct Hx|].
  assert (HF : forall n fs, (n <= k)%nat -> In fs (FOREST n) -> fsize fs = n /\ forallb iok fs = true).
  { intros n fs Hn H. unfold FOREST, forest_of in H. apply in_flat_map in H. destruct H as (m & _ & H).
    apply (forestm_sound m n fs); auto. intros; apply IH; auto; lia. }
  rewrite ITEMS_S in Hx. apply in_app_or in Hx. destruct Hx as [Hx|Hx].
  { destruct k; [|destruct Hx]. destruct Hx as [<-|[]]. auto. }
  apply in_app_or in Hx. destruct Hx as [Hx|Hx].
  - destruct uU eqn:EU; [|destruct Hx]. destruct k as [|k]; [destruct Hx|]. apply in_map_iff in Hx. destruct Hx as (fs & <- & Hx).
    destruct (HF k fs ltac:(lia) Hx) as [H1 H2]. cbn [isize iok]. rewrite EU. split; [unfold fsize in H1; lia|exact H2].
  - destruct uV eqn:EV; [|destruct Hx]. apply in_map_iff in Hx. destruct Hx as (fs & <- & Hx).
    destruct (HF k fs ltac:(lia) Hx) as [H1 H2]. cbn [isize iok]. rewrite EV. split; [unfold fsize in H1; lia|exact H2].
Qed.
Lemma FOREST_sound n fs : In fs (FOREST n) -> fsize fs = n /\ forallb iok fs = true.
Proof.
  unfold FOREST, forest_of. intros H. apply in_flat_map in H. destruct H as (m & _ & H).
  apply (forestm_sound m n fs); auto. intros; apply ITEMS_sound; auto.
Qed.

(** ** weights: an "integrator" is a family c and linear operators *)
Definition linop (O : (nat -> R) -> nat -> R) : Prop :=
  (forall f g i, (forall j, f j = g j) -> O f i = O g i) /\
  (forall f g i, O (fun j => f j + g j) i = O f i + O g i) /\
  (forall a f i, O (fun j => a * f j) i = a * O f i).
Lemma linop_zero O i : linop O -> O (fun _ => 0) i = 0.
Proof.
  intros (E & _ & S). rewrite (E (fun _ => 0) (fun j => 0 * 0)) by (intros; ring).
  rewrite (S 0 (fun _ => 0)). ring.
Qed.
Lemma linop_lsum O {X} (l : list X) (g : X -> nat -> R) i : linop O ->
  O (fun j => lsum l (fun x => g x j)) i = lsum l (fun x => O (g x) i).
Proof.
  intros HL. induction l as [|x l IH]; simpl; [apply linop_zero; auto|].
  destruct HL as (_ & A & _). rewrite A, IH. reflexivity.
Qed.

Section Weights.
Variable c : nat -> R.
Variables Uop Vop : nat -> (nat -> R) -> nat -> R.
Hypothesis HU : forall n, linop (Uop n).
Hypothesis HV : forall n, linop (Vop n).

Fixpoint w (x : item) : nat -> R :=
  match x with
  | L => c
  | U fs => Uop (isize (U fs)) (fun i => fold_right (fun y p => w y i * p) 1 fs)
  | V fs => Vop (isize (V fs)) (fun i => fold_right (fun y p => w y i * p) 1 fs)
  end.
Definition wf (fs : list item) (i : nat) : R := fold_right (fun y p => w y i * p) 1 fs.

Section Diff.
(** jets of the right-hand side at the base point: T q [j1..jm] is the coefficient of
    z_j1 ... z_jm in component q; [ell] the direction of the affine part; [pu], [pv]
    say which argument component receives which component of k *)
Variable e : nat.
Variable T : nat -> list nat -> R.
Variable ell : nat -> R.
Variables pu pv : nat -> option nat.

Definition inj (p : nat -> option nat) (k : nat -> R) (j : nat) : R := match p j with Some q => k q | None => 0 end.

Fixpoint idx (m : nat) : list (list nat) :=
  match m with O => [[]] | S m' => flat_map (fun j => map (cons j) (idx m')) (seq 0 e) end.
Lemma idx_length m js : In js (idx m) -> length js = m.
Proof.
  revert js. induction m as [|m IH]; intros js H; [destruct H as [<-|[]]; auto|]. cbn [idx] in H.
  apply in_flat_map in H. destruct H as (j & _ & H). apply in_map_iff in H. destruct H as (ks & <- & H). simpl. f_equal. auto.
Qed.
Lemma idx_in m js : In js (idx m) -> Forall (fun j => (j < e)%nat) js.
Proof.
  revert js. induction m as [|m IH]; intros js H; [destruct H as [<-|[]]; auto|]. cbn [idx] in H.
  apply in_flat_map in H. destruct H as (j & Hj & H). apply in_seq in Hj. apply in_map_iff in H. destruct H as (ks & <- & H). constructor; auto. lia.
Qed.

(** elementary differential of a forest, and the argument increment of an item *)
Fixpoint X (x : item) : nat -> R :=
  match x with
  | L => ell
  | U fs => inj pu (fun q => lsum (idx (length fs)) (fun js => T q js *
      (fix go (l : list item) (ks : list nat) {struct l} : R :=
         match l, ks with y :: l', k :: ks' => X y k * go l' ks' | _, _ => 1 end) fs js))
  | V fs => inj pv (fun q => lsum (idx (length fs)) (fun js => T q js *
      (fix go (l : list item) (ks : list nat) {struct l} : R :=
         match l, ks with y :: l', k :: ks' => X y k * go l' ks' | _, _ => 1 end) fs js))
  end.
Fixpoint prodX (l : list item) (ks : list nat) : R :=
  match l, ks with y :: l', k :: ks' => X y k * prodX l' ks' | _, _ => 1 end.
Definition F (fs : list item) (q : nat) : R := lsum (idx (length fs)) (fun js => T q js * prodX fs js).

Lemma X_U fs j : X (U fs) j = inj pu (F fs) j.
Proof. reflexivity. Qed.
Lemma X_V fs j : X (V fs) j = inj pv (F fs) j.
Proof. reflexivity. Qed.

(** coefficients of the expansion of k_i and of the increments *)
Definition Acoef (i q n : nat) : R := lsum (FOREST n) (fun fs => wf fs i * F fs q).
Definition Zcoef (i j n : nat) : R := lsum (ITEMS n) (fun x => w x i * X x j).

Lemma inj_lsum p {Y} (l : list Y) (g : Y -> nat -> R) j : inj p (fun q => lsum l (fun y => g y q)) j = lsum l (fun y => inj p (g y) j).
Proof. unfold inj. destruct (p j); [reflexivity|]. symmetry. apply lsum_zero. reflexivity. Qed.

Lemma part_lin (O : (nat -> R) -> nat -> R) p n i j : linop O ->
  lsum (FOREST n) (fun fs => O (fun i => wf fs i) i * inj p (F fs) j) = O (fun i => inj p (fun q => Acoef i q n) j) i.
Proof.
  intros HO. unfold inj. destruct (p j) as [q|].
  - unfold Acoef. rewrite (linop_lsum O (FOREST n) (fun fs i => wf fs i * F fs q)) by auto.
    apply lsum_ext. intros fs _. destruct HO as (E & _ & S).
    rewrite (E (fun j0 => wf fs j0 * F fs q) (fun j0 => F fs q * wf fs j0)) by (intros; ring). rewrite S. apply Rmult_comm.
  - rewrite (linop_zero O) by auto. apply lsum_zero. intros; ring.
Qed.

Lemma Zcoef_0 i j : Zcoef i j 0 = 0.
Proof. reflexivity. Qed.
Lemma Zcoef_S i j n : Zcoef i j (S n) =
  (match n with O => c i * ell j | _ => 0 end) +
  (if uU then match n with O => 0 | S n' => Uop (S n) (fun i => inj pu (fun q => Acoef i q n') j) i end else 0) +
  (if uV then Vop (S n) (fun i => inj pv (fun q => Acoef i q n) j) i else 0).
Proof.
  unfold Zcoef. rewrite ITEMS_S, !lsum_app. rewrite Rplus_assoc. f_equal; [|f_equal].
  - destruct n; simpl; ring.
  - destruct uU; [|reflexivity]. destruct n as [|n]; [reflexivity|]. rewrite lsum_map.
    rewrite <- (part_lin (Uop (S (S n))) pu n i j (HU _)). apply lsum_ext. intros fs Hfs.
    rewrite X_U. cbn [w isize]. change (fold_right (fun y n => (isize y + n)%nat) 0%nat fs) with (fsize fs).
    destruct (FOREST_sound n fs Hfs) as [-> _]. reflexivity.
  - destruct uV; [|reflexivity]. rewrite lsum_map.
    rewrite <- (part_lin (Vop (S n)) pv n i j (HV _)). apply lsum_ext. intros fs Hfs.
    rewrite X_V. cbn [w isize]. change (fold_right (fun y n => (isize y + n)%nat) 0%nat fs) with (fsize fs).
    destruct (FOREST_sound n fs Hfs) as [-> _]. reflexivity.
Qed.

Lemma conv_forest i js : forall n, convl (map (Zcoef i) js) n =
  lsum (forestm ITEMS (length js) n) (fun fs => wf fs i * prodX fs js).
Proof.
  induction js as [|j js IH]; intros n.
  - simpl. destruct n; simpl; [unfold wf; simpl; ring|reflexivity].
  - cbn [map convl length forestm]. unfold conv. rewrite lsum_flat_map, lsum_seq. apply rsum_ext. intros k Hk.
    rewrite IH. rewrite lsum_flat_map. unfold Zcoef. rewrite <- lsum_scal_r. apply lsum_ext. intros x _.
    rewrite lsum_map. rewrite <- lsum_scal. apply lsum_ext. intros fs _. unfold wf. cbn [fold_right prodX]. ring.
Qed.

Lemma rsum_trunc p n g : (n < p)%nat -> (forall m, (n < m)%nat -> g m = 0) -> rsum p g = rsum (S n) g.
Proof.
  intros H HG. induction p as [|p IH]; [lia|]. destruct (Nat.eq_dec p n) as [->|Hp]; [reflexivity|].
  simpl rsum at 1. rewrite HG by lia. rewrite IH by lia. ring.
Qed.

Lemma forestm_len m : forall n fs, In fs (forestm ITEMS m n) -> length fs = m.
Proof.
  induction m as [|m IH]; intros n fs H; cbn [forestm] in H.
  - destruct n; [destruct H as [<-|[]]; auto|destruct H].
  - apply in_flat_map in H. destruct H as (k & _ & H). apply in_flat_map in H. destruct H as (x & _ & H).
    apply in_map_iff in H. destruct H as (gs & <- & H). simpl. f_equal. eauto.
Qed.

(** the coefficients solve k = f(z) *)
Theorem Acoef_eq i q n p : (n < p)%nat ->
  Acoef i q n = rsum p (fun m => lsum (idx m) (fun js => T q js * convl (map (Zcoef i) js) n)).
Proof.
  intros Hp. rewrite (rsum_trunc p n); auto.
  2:{ intros m Hm. apply lsum_zero. intros js Hjs. rewrite conv_forest, (idx_length m js Hjs), forestm_empty by lia. simpl. ring. }
  unfold Acoef, FOREST, forest_of. rewrite lsum_flat_map, lsum_seq. apply rsum_ext. intros m Hm.
  rewrite (lsum_ext (idx m) (fun js => T q js * convl (map (Zcoef i) js) n)
     (fun js => lsum (forestm ITEMS m n) (fun fs => T q js * (wf fs i * prodX fs js)))).
  2:{ intros js Hjs. rewrite conv_forest, (idx_length m js Hjs). rewrite lsum_scal. reflexivity. }
  rewrite lsum_swap. apply lsum_ext. intros fs Hfs. unfold F. rewrite (forestm_len m n fs Hfs).
  rewrite <- lsum_scal. apply lsum_ext. intros; ring.
Qed.

End Diff.
End Weights.
End Enum.
