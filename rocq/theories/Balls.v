(** Order conditions of tableaux with decimal coefficients, checked in ball arithmetic.

    A ball (m, e) stands for every real within e units of m, one unit being 2^-bits.  The table of
    elementary weights is built for one representative of each forest up to the order of its trees
    (the products are commutative). *)
From Coq Require Import Reals Lra Psatz QArith Qreals ZArith Lia List Arith Bool Permutation.
From Verif Require Import Series Trees OrderThm OrderCheck OrderRK GOrder.
Import ListNotations.
Open Scope R_scope.

Lemma item_pos x : (0 < isize x)%nat.
Proof. destruct x; cbn; lia. Qed.

Section Balls.
Variable bits : Z.
Hypothesis Hbits : (0 <= bits)%Z.
Definition bone : Z := (2 ^ bits)%Z.
Notation U1 := (IZR bone).
Lemma U1_pos : 0 < U1.
Proof. apply (IZR_lt 0). apply Z.pow_pos_nonneg; lia. Qed.

Definition ball : Type := (Z * Z)%type.
(** x contains r *)
Definition brel (x : ball) (r : R) : Prop := Rabs (r * U1 - IZR (fst x)) <= IZR (snd x).
Definition b_0 : ball := (0, 0)%Z.
Definition b_1 : ball := (bone, 0)%Z.
(** 1 with a margin *)
Definition b_1m : ball := (bone, 4)%Z.
Definition b_add (x y : ball) : ball := (fst x + fst y, snd x + snd y)%Z.
Definition b_opp (x : ball) : ball := (- fst x, snd x)%Z.
Definition is0 (x : ball) : bool := match x with (Z0, Z0) => true | _ => false end.
Definition b_mul (x y : ball) : ball :=
  if is0 x then b_0 else if is0 y then b_0 else
  (Z.shiftr (fst x * fst y) bits, Z.shiftr (Z.abs (fst x) * snd y + Z.abs (fst y) * snd x + snd x * snd y) bits + 2)%Z.
Definition b_ofQ (q : Q) : ball := match Qnum q with Z0 => b_0 | n => (Z.div (n * bone) (Zpos (Qden q)), 1)%Z end.
Definition b_inv (n : nat) : ball := b_ofQ (1 # Pos.of_nat n).
(** every member of x is a member of y *)
Definition b_sub (x y : ball) : bool := Z.leb (Z.abs (fst x - fst y) + snd x) (snd y).
(** all members are at most eps in absolute value *)
Definition b_small (x : ball) (eps : Q) : bool := Z.leb ((Z.abs (fst x) + snd x) * Zpos (Qden eps)) (Qnum eps * bone).
(** a ball with the members of both *)
Definition b_hull (x y : ball) : ball := (fst x, Z.max (snd x) (Z.abs (fst x - fst y) + snd y))%Z.

Lemma brel_0 : brel b_0 0.
Proof. unfold brel, b_0. cbn [fst snd]. rewrite Rmult_0_l, Rminus_0_r, Rabs_R0. lra. Qed.
Lemma brel_1 : brel b_1 1.
Proof. unfold brel, b_1. cbn [fst snd]. rewrite Rmult_1_l, Rminus_diag_eq, Rabs_R0 by reflexivity. lra. Qed.
Lemma brel_1m : brel b_1m 1.
Proof. unfold brel, b_1m. cbn [fst snd]. rewrite Rmult_1_l, Rminus_diag_eq, Rabs_R0 by reflexivity. lra. Qed.
Lemma brel_add x y r s : brel x r -> brel y s -> brel (b_add x y) (r + s).
Proof.
  unfold brel, b_add. cbn [fst snd]. intros H1 H2. rewrite !plus_IZR. replace ((r + s) * U1 - (IZR (fst x) + IZR (fst y))) with ((r * U1 - IZR (fst x)) + (s * U1 - IZR (fst y))) by ring.
  eapply Rle_trans; [apply Rabs_triang|]. lra.
Qed.
Lemma brel_opp x r : brel x r -> brel (b_opp x) (- r).
Proof.
  unfold brel, b_opp. cbn [fst snd]. intros H. rewrite opp_IZR. replace (- r * U1 - - IZR (fst x)) with (- (r * U1 - IZR (fst x))) by ring. rewrite Rabs_Ropp. exact H.
Qed.
Lemma is0_ok x r : is0 x = true -> brel x r -> r = 0.
Proof.
  destruct x as [[| |] [| |]]; try discriminate. intros _ H. unfold brel in H. cbn [fst snd] in H. rewrite Rminus_0_r in H. pose proof U1_pos.
  assert (E : r * U1 = 0). { pose proof (Rabs_pos (r * U1)). destruct (Req_dec (r * U1) 0) as [E|E]; [exact E|]. apply Rabs_pos_lt in E. lra. }
  apply Rmult_integral in E. destruct E; lra.
Qed.
Lemma div_floor n d : (0 < d)%Z -> 0 <= IZR n / IZR d - IZR (n / d) <= 1.
Proof.
  intros Hd. pose proof (Z.div_mod n d ltac:(lia)) as E. pose proof (Z.mod_pos_bound n d Hd) as B. apply (f_equal IZR) in E. rewrite plus_IZR, mult_IZR in E.
  destruct B as [B1 B2]. apply (IZR_le 0) in B1. apply IZR_lt in B2. assert (D : 0 < IZR d) by (apply (IZR_lt 0); exact Hd).
  assert (E2 : IZR n / IZR d - IZR (n / d) = IZR (n mod d) / IZR d) by (rewrite E; field; lra). rewrite E2.
  split; [apply Rmult_le_pos; [exact B1|left; apply Rinv_0_lt_compat; exact D]|]. apply Rmult_le_reg_r with (IZR d); [exact D|]. unfold Rdiv. rewrite Rmult_assoc, Rinv_l by lra. lra.
Qed.
Lemma shiftr_floor n : 0 <= IZR n / U1 - IZR (Z.shiftr n bits) <= 1.
Proof. rewrite Z.shiftr_div_pow2 by exact Hbits. apply div_floor. apply Z.pow_pos_nonneg; lia. Qed.
Lemma brel_mul x y r s : brel x r -> brel y s -> brel (b_mul x y) (r * s).
Proof.
  intros H1 H2. unfold b_mul. destruct (is0 x) eqn:Ex; [rewrite (is0_ok x r Ex H1), Rmult_0_l; apply brel_0|]. destruct (is0 y) eqn:Ey; [rewrite (is0_ok y s Ey H2), Rmult_0_r; apply brel_0|].
  unfold brel in *. cbn [fst snd]. destruct x as [m1 e1], y as [m2 e2]. cbn [fst snd] in *.
  pose proof (shiftr_floor (m1 * m2)) as F1. pose proof (shiftr_floor (Z.abs m1 * e2 + Z.abs m2 * e1 + e1 * e2)) as F2. rewrite plus_IZR.
  set (a := r * U1 - IZR m1) in *. set (b := s * U1 - IZR m2) in *. pose proof U1_pos as P.
  assert (Er : r = (IZR m1 + a) / U1) by (unfold a; field; lra). assert (Es : s = (IZR m2 + b) / U1) by (unfold b; field; lra).
  set (k1 := IZR (Z.shiftr (m1 * m2) bits)) in *. set (k2 := IZR (Z.shiftr _ bits)) in *.
  rewrite mult_IZR in F1. rewrite !plus_IZR, !mult_IZR, !abs_IZR in F2.
  assert (E : r * s * U1 - k1 = (IZR m1 * IZR m2 / U1 - k1) + (IZR m1 * b + IZR m2 * a + a * b) / U1) by (rewrite Er, Es; field; lra).
  rewrite E. assert (A1 : 0 <= IZR e1) by (eapply Rle_trans; [apply Rabs_pos|exact H1]). assert (A2 : 0 <= IZR e2) by (eapply Rle_trans; [apply Rabs_pos|exact H2]).
  eapply Rle_trans; [apply Rabs_triang|]. rewrite (Rabs_right (_ - k1)) by lra. unfold Rdiv at 2. rewrite Rabs_mult, (Rabs_right (/ U1)) by (left; apply Rinv_0_lt_compat; exact P).
  assert (B : Rabs (IZR m1 * b + IZR m2 * a + a * b) <= Rabs (IZR m1) * IZR e2 + Rabs (IZR m2) * IZR e1 + IZR e1 * IZR e2).
  { eapply Rle_trans; [apply Rabs_triang|]. rewrite Rabs_mult. apply Rplus_le_compat.
    - eapply Rle_trans; [apply Rabs_triang|]. rewrite !Rabs_mult. apply Rplus_le_compat; apply Rmult_le_compat_l; try apply Rabs_pos; assumption.
    - apply Rmult_le_compat; try apply Rabs_pos; assumption. }
  apply Rmult_le_compat_r with (r := / U1) in B; [|left; apply Rinv_0_lt_compat; exact P]. unfold Rdiv in F2. lra.
Qed.
Lemma brel_ofQ q : brel (b_ofQ q) (Q2R q).
Proof.
  unfold b_ofQ. assert (G : brel (Qnum q * bone / Zpos (Qden q), 1)%Z (Q2R q)).
  { unfold brel. cbn [fst snd]. pose proof (div_floor (Qnum q * bone) (Zpos (Qden q)) ltac:(lia)) as F. rewrite mult_IZR in F. unfold Q2R. pose proof U1_pos.
    replace (IZR (Qnum q) * / IZR (Zpos (Qden q)) * U1) with (IZR (Qnum q) * U1 / IZR (Zpos (Qden q))) by (unfold Rdiv; ring). rewrite Rabs_right; lra. }
  destruct (Qnum q) eqn:E; try exact G. unfold Q2R. rewrite E, Rmult_0_l. apply brel_0.
Qed.
Lemma brel_inv n : (0 < n)%nat -> brel (b_inv n) (/ INR n).
Proof. intros H. rewrite <- (Q2R_inv_nat n H). apply brel_ofQ. Qed.
Lemma b_sub_ok x y r : b_sub x y = true -> brel x r -> brel y r.
Proof.
  unfold b_sub, brel. intros H H1. apply Z.leb_le, IZR_le in H. rewrite plus_IZR, abs_IZR, minus_IZR in H.
  replace (r * U1 - IZR (fst y)) with ((r * U1 - IZR (fst x)) + (IZR (fst x) - IZR (fst y))) by ring. eapply Rle_trans; [apply Rabs_triang|]. lra.
Qed.
Lemma b_hull_l x y r : brel x r -> brel (b_hull x y) r.
Proof. unfold b_hull, brel. cbn [fst snd]. intros H. eapply Rle_trans; [exact H|]. apply IZR_le, Z.le_max_l. Qed.
Lemma b_hull_r x y r : brel y r -> brel (b_hull x y) r.
Proof.
  unfold b_hull, brel. cbn [fst snd]. intros H. eapply Rle_trans; [|apply IZR_le, Z.le_max_r]. rewrite plus_IZR, abs_IZR, minus_IZR.
  replace (r * U1 - IZR (fst x)) with ((r * U1 - IZR (fst y)) - (IZR (fst x) - IZR (fst y))) by ring. unfold Rminus at 1. eapply Rle_trans; [apply Rabs_triang|]. rewrite Rabs_Ropp. lra.
Qed.
Lemma b_small_ok x eps r : b_small x eps = true -> brel x r -> Rabs r <= Q2R eps.
Proof.
  unfold b_small, brel. intros H H1. apply Z.leb_le, IZR_le in H. rewrite !mult_IZR, plus_IZR, abs_IZR in H. pose proof U1_pos as P.
  assert (A : Rabs (r * U1) <= Rabs (IZR (fst x)) + IZR (snd x)).
  { replace (r * U1) with ((r * U1 - IZR (fst x)) + IZR (fst x)) by ring. eapply Rle_trans; [apply Rabs_triang|]. lra. }
  rewrite Rabs_mult, (Rabs_right U1) in A by lra. unfold Q2R. set (D := IZR (Zpos (Qden eps))) in *. assert (HD : 0 < D) by (apply (IZR_lt 0); lia).
  apply Rmult_le_reg_r with (U1 * D); [nra|]. replace (IZR (Qnum eps) * / D * (U1 * D)) with (IZR (Qnum eps) * U1) by (field; lra). nra.
Qed.

(** ** tables *)
Notation bvec := (list ball).
Notation entry := (bvec * ball)%type.
Variables uU uV : bool.
(** the balls of c (the affine increments L), and of the matrices *)
Variable cL : bvec.
Variables MUb MVb : list bvec.
Fixpoint bdot (u v : bvec) : ball := match u, v with x :: u', y :: v' => b_add (b_mul x y) (bdot u' v') | _, _ => b_0 end.
Fixpoint bzip (u v : bvec) : bvec := match u, v with x :: u', y :: v' => b_mul x y :: bzip u' v' | _, _ => [] end.
Definition bmv (M : list bvec) (v : bvec) : bvec := map (fun row => bdot row v) M.
Fixpoint vsub (u v : bvec) : bool := match u, v with [], [] => true | x :: u', y :: v' => b_sub x y && vsub u' v' | _, _ => false end.
Definition esub (a b : entry) : bool := b_sub (snd a) (snd b) && vsub (fst a) (fst b).
Fixpoint bdedup (acc l : list entry) : list entry :=
  match l with [] => acc | e :: l' => bdedup (if existsb (esub e) acc then acc else e :: acc) l' end.
Definition beprod (a b : entry) : entry := (bzip (fst a) (fst b), b_mul (snd a) (snd b)).
Definition beV (n : nat) (a : entry) : entry := (bmv MVb (fst a), b_mul (snd a) (b_inv n)).
Definition beU (n : nat) (a : entry) : entry := (bmv MUb (fst a), b_mul (snd a) (b_mul (b_inv n) (b_inv (n - 1)))).
(** entries of forests and items carry a number; a product puts the item with the largest number in front *)
Fixpoint number (k : N) (l : list entry) : list (N * entry) := match l with [] => [] | e :: l' => (k, e) :: number (N.succ k) l' end.
Definition bgrow (st : N * (list (list (N * entry)) * list (list (N * entry)))) : N * (list (list (N * entry)) * list (list (N * entry))) :=
  let '(k0, (it, ft)) := st in
  let n := (length ft - 1)%nat in
  let newI := bdedup [] ((match n with O => [(cL, b_1m)] | _ => [] end) ++
    (if uU then match n with O => [] | S n' => map (fun e => beU (S n) (snd e)) (nth n' ft []) end else []) ++
    (if uV then map (fun e => beV (S n) (snd e)) (nth n ft []) else [])) in
  let it' := it ++ [number k0 newI] in
  let newF := flat_map (fun k => flat_map (fun a : N * entry => map (fun b : N * entry => (fst a, beprod (snd a) (snd b))) (filter (fun b : N * entry => N.leb (fst b) (fst a)) (nth (S n - k) ft [])))
     (nth k it' [])) (seq 1 (S n)) in
  ((k0 + N.of_nat (length newI))%N, (it', ft ++ [newF])).
Definition bstart : N * (list (list (N * entry)) * list (list (N * entry))) := (1%N, ([[]], [[(0%N, (map (fun _ => b_1) cL, b_1))]])).
Fixpoint btables (n : nat) : N * (list (list (N * entry)) * list (list (N * entry))) := match n with O => bstart | S n' => bgrow (btables n') end.
Definition ftab (n : nat) : list (list (N * entry)) := snd (snd (btables n)).

(** ** soundness *)
Notation s := (length cL).
Variable cc : nat -> R.
Variables MU MV : nat -> nat -> R.
Hypothesis Hc : forall i, (i < s)%nat -> brel (nth i cL b_0) (cc i).
Hypothesis HMU : uU = true -> length MUb = s /\ forall i l, (i < s)%nat -> (l < s)%nat -> brel (nth l (nth i MUb []) b_0) (MU i l).
Hypothesis HMV : uV = true -> length MVb = s /\ forall i l, (i < s)%nat -> (l < s)%nat -> brel (nth l (nth i MVb []) b_0) (MV i l).
Notation sw := (w cc (st_op s MU) (st_op s MV)).
Notation swf := (wf cc (st_op s MU) (st_op s MV)).
Notation ew := (w (fun _ => 1) ex_U ex_V).
Notation ewf := (wf (fun _ => 1) ex_U ex_V).
Definition brepr (g : nat -> R) (x : R) (en : entry) : Prop :=
  length (fst en) = s /\ (forall i, (i < s)%nat -> brel (nth i (fst en) b_0) (g i)) /\ brel (snd en) x.

Lemma bdot_ok u : forall v n f g, length v = n -> (forall l, (l < n)%nat -> brel (nth l u b_0) (f l)) -> (forall l, (l < n)%nat -> brel (nth l v b_0) (g l)) -> brel (bdot u v) (rsum n (fun l => f l * g l)).
Proof.
  induction u as [|x u IH]; intros v n f g Hv Hf Hg.
  - cbn [bdot]. rewrite rsum_zero; [apply brel_0|]. intros l Hl. specialize (Hf l Hl). replace (nth l [] b_0) with b_0 in Hf by (destruct l; reflexivity). rewrite (is0_ok b_0 (f l) eq_refl Hf). ring.
  - destruct v as [|y v]; [subst n; apply brel_0|]. destruct n as [|n]; [discriminate|]. injection Hv as Hv. cbn [bdot]. rewrite rsum_split. apply brel_add.
    + apply brel_mul; [apply (Hf 0%nat)|apply (Hg 0%nat)]; lia.
    + apply (IH v n (fun l => f (S l)) (fun l => g (S l)) Hv); intros l Hl; [apply (Hf (S l))|apply (Hg (S l))]; lia.
Qed.
Lemma bzip_len u : forall v, length u = length v -> length (bzip u v) = length u.
Proof. induction u as [|x u IH]; intros [|y v] H; try discriminate; [reflexivity|]. cbn. f_equal. apply IH. cbn in H. lia. Qed.
Lemma bzip_ok u : forall v i r q, length u = length v -> (i < length u)%nat -> brel (nth i u b_0) r -> brel (nth i v b_0) q -> brel (nth i (bzip u v) b_0) (r * q).
Proof.
  induction u as [|x u IH]; intros [|y v] i r q H Hi Hr Hq; try discriminate; [cbn in Hi; lia|].
  destruct i as [|i]; [apply brel_mul; assumption|]. apply (IH v i r q); cbn in *; try lia; assumption.
Qed.
Lemma vsub_ok u : forall v i r, vsub u v = true -> brel (nth i u b_0) r -> brel (nth i v b_0) r.
Proof.
  induction u as [|x u IH]; intros [|y v] i r H Hr; try discriminate H; [exact Hr|]. cbn in H. apply andb_true_iff in H. destruct H as [H1 H2].
  destruct i as [|i]; [apply (b_sub_ok x y r H1 Hr)|]. apply (IH v i r H2 Hr).
Qed.
Lemma vsub_len u : forall v, vsub u v = true -> length u = length v.
Proof. induction u as [|x u IH]; intros [|y v] H; try discriminate H; [reflexivity|]. cbn in H. apply andb_true_iff in H. cbn. f_equal. apply IH. apply H. Qed.
Lemma esub_repr g x a b : esub a b = true -> brepr g x a -> brepr g x b.
Proof.
  unfold esub. intros H (H1 & H2 & H3). apply andb_true_iff in H. destruct H as [E1 E2]. split; [|split].
  - rewrite <- H1. symmetry. apply vsub_len, E2.
  - intros i Hi. apply (vsub_ok (fst a) (fst b) i _ E2). apply H2, Hi.
  - apply (b_sub_ok _ _ _ E1 H3).
Qed.
Lemma bdedup_acc l : forall acc e, In e acc -> In e (bdedup acc l).
Proof. induction l as [|a l IH]; intros acc e H; [exact H|]. cbn. apply IH. destruct (existsb _ _); [exact H|right; exact H]. Qed.
Lemma bdedup_repr g x l : forall acc e, In e l -> brepr g x e -> exists e', In e' (bdedup acc l) /\ brepr g x e'.
Proof.
  induction l as [|a l IH]; intros acc e H Hr; [destruct H|]. destruct H as [->|H].
  - cbn. destruct (existsb (esub e) acc) eqn:E.
    + apply existsb_exists in E. destruct E as (b & Hb & E). exists b. split; [apply bdedup_acc; exact Hb|]. eapply esub_repr; eauto.
    + exists e. split; [apply bdedup_acc; left; reflexivity|exact Hr].
  - cbn. apply (IH _ e H Hr).
Qed.
Lemma number_in l : forall k e, In e l -> exists j, In (j, e) (number k l).
Proof. induction l as [|a l IH]; intros k e H; [destruct H|]. destruct H as [->|H]; [exists k; left; reflexivity|]. destruct (IH (N.succ k) e H) as (j & Hj). exists j. right. exact Hj. Qed.
Lemma beprod_repr g x a g' x' b : brepr g x a -> brepr g' x' b -> brepr (fun i => g i * g' i) (x * x') (beprod a b).
Proof.
  intros (H1 & H2 & H3) (H1' & H2' & H3'). unfold beprod. split; [|split]; cbn [fst snd].
  - rewrite bzip_len; congruence.
  - intros i Hi. apply bzip_ok; [congruence|lia|apply H2, Hi|apply H2', Hi].
  - apply brel_mul; assumption.
Qed.
Lemma bmv_ok M (Mr : nat -> nat -> R) v g i : length M = s -> (forall i l, (i < s)%nat -> (l < s)%nat -> brel (nth l (nth i M []) b_0) (Mr i l)) -> length v = s -> (forall i, (i < s)%nat -> brel (nth i v b_0) (g i)) -> (i < s)%nat ->
  brel (nth i (bmv M v) b_0) (rsum s (fun l => Mr i l * g l)).
Proof.
  intros LM HM Lv Hv Hi. unfold bmv. rewrite (nth_indep _ b_0 (bdot [] v)) by (rewrite map_length; lia). rewrite (map_nth (fun row => bdot row v)).
  apply bdot_ok; [exact Lv|intros l Hl; apply HM; assumption|exact Hv].
Qed.
Lemma beV_repr n g x a : (0 < n)%nat -> uV = true -> brepr g x a -> brepr (st_op s MV n g) (x / INR n) (beV n a).
Proof.
  intros Hn Hu (H1 & H2 & H3). destruct (HMV Hu) as [L HM]. unfold beV. split; [|split]; cbn [fst snd].
  - unfold bmv. rewrite map_length. exact L.
  - intros i Hi. unfold st_op. apply bmv_ok; assumption.
  - apply brel_mul; [exact H3|]. apply brel_inv, Hn.
Qed.
Lemma beU_repr n g x a : (1 < n)%nat -> uU = true -> brepr g x a -> brepr (st_op s MU n g) (x / (INR n * INR (n - 1))) (beU n a).
Proof.
  intros Hn Hu (H1 & H2 & H3). destruct (HMU Hu) as [L HM]. unfold beU. split; [|split]; cbn [fst snd].
  - unfold bmv. rewrite map_length. exact L.
  - intros i Hi. unfold st_op. apply bmv_ok; assumption.
  - unfold Rdiv. rewrite Rinv_mult. apply brel_mul; [exact H3|]. apply brel_mul; apply brel_inv; lia.
Qed.
Lemma brepr_ext g x g' x' e : (forall i, (i < s)%nat -> g i = g' i) -> x = x' -> brepr g x e -> brepr g' x' e.
Proof. intros Hg <- (H1 & H2 & H3). split; [exact H1|]. split; [|exact H3]. intros i Hi. rewrite <- Hg by exact Hi. apply H2, Hi. Qed.

Lemma wf_perm c0 OU OV fs fs' i : Permutation fs fs' -> wf c0 OU OV fs i = wf c0 OU OV fs' i.
Proof.
  intros P. unfold wf. induction P as [|x l l' P IH|x y l|l l' l'' P1 IH1 P2 IH2]; cbn [fold_right]; [reflexivity|rewrite IH; reflexivity|ring|congruence].
Qed.
Lemma fsize_perm fs fs' : Permutation fs fs' -> fsize fs = fsize fs'.
Proof. intros P. unfold fsize. induction P as [|x l l' P IH|x y l|l l' l'' P1 IH1 P2 IH2]; cbn [fold_right]; lia. Qed.

Section Cover.
Variables (n : nat) (it ft : list (list (N * entry))).
Definition irep (x : item) (k : N) (a : entry) : Prop := In (k, a) (nth (isize x) it []) /\ brepr (sw x) (ew x 0%nat) a.
Inductive frep : list item -> N -> entry -> Prop :=
| frep0 : forall e, In (0%N, e) (nth 0 ft []) -> brepr (swf []) (ewf [] 0%nat) e -> frep [] 0%N e
| frepS : forall x k a fs k1 b, irep x k a -> frep fs k1 b -> (k1 <= k)%N -> frep (x :: fs) k (beprod a b).
Lemma frep_repr fs k e : frep fs k e -> brepr (swf fs) (ewf fs 0%nat) e.
Proof. intros H. induction H as [e Hi Hr|x k a fs k1 b Hx Hf IH Hk]; [exact Hr|]. apply (beprod_repr _ _ a _ _ b (proj2 Hx) IH). Qed.
Lemma frep_insert x k a fs k1 b : irep x k a -> frep fs k1 b -> exists fs' k' e', Permutation (x :: fs) fs' /\ frep fs' k' e' /\ (k' <= N.max k k1)%N.
Proof.
  intros Hx H. induction H as [e Hi Hr|y ky ay fs k1 b Hy Hf IH Hk].
  - exists [x], k, (beprod a e). split; [apply Permutation_refl|]. split; [apply (frepS x k a [] 0%N e Hx (frep0 e Hi Hr)); lia|]. lia.
  - destruct (N.leb_spec ky k) as [L|L].
    + exists (x :: y :: fs), k, (beprod a (beprod ay b)). split; [apply Permutation_refl|]. split; [|lia]. apply (frepS x k a _ ky); [exact Hx| |exact L]. apply (frepS y ky ay fs k1 b Hy Hf Hk).
    + destruct IH as (fs' & k' & e' & P & F & Hle). exists (y :: fs'), ky, (beprod ay e'). split; [|split; [|lia]].
      * apply perm_trans with (y :: x :: fs); [apply perm_swap|apply perm_skip; exact P].
      * apply (frepS y ky ay fs' k' e' Hy F). lia.
Qed.
Hypothesis H0 : exists e, In (0%N, e) (nth 0 ft []) /\ brepr (swf []) (ewf [] 0%nat) e.
Hypothesis HI : forall x, iok uU uV x = true -> (isize x <= n)%nat -> exists k a, irep x k a.
Lemma frep_exists fs : forallb (iok uU uV) fs = true -> (fsize fs <= n)%nat -> exists fs' k e, Permutation fs fs' /\ frep fs' k e.
Proof.
  induction fs as [|x fs IH]; intros Hok Hs.
  - destruct H0 as (e & E1 & E2). exists [], 0%N, e. split; [apply perm_nil|]. exact (frep0 e E1 E2).
  - cbn [forallb] in Hok. apply andb_true_iff in Hok. destruct Hok as [Hx Hok]. change (fsize (x :: fs)) with (isize x + fsize fs)%nat in Hs.
    destruct (IH Hok ltac:(lia)) as (fs' & k1 & b & P & F). destruct (HI x Hx ltac:(lia)) as (k & a & Ha). destruct (frep_insert x k a fs' k1 b Ha F) as (fs2 & k2 & e2 & P2 & F2 & _).
    exists fs2, k2, e2. split; [|exact F2]. apply perm_trans with (x :: fs'); [apply perm_skip; exact P|exact P2].
Qed.
Hypothesis HP : forall i m k a k1 b, (i + m <= n)%nat -> (0 < i)%nat -> In (k, a) (nth i it []) -> In (k1, b) (nth m ft []) -> (k1 <= k)%N -> In (k, beprod a b) (nth (i + m) ft []).
Lemma frep_in fs k e : frep fs k e -> (fsize fs <= n)%nat -> In (k, e) (nth (fsize fs) ft []).
Proof.
  intros H. induction H as [e Hi Hr|x k a fs k1 b Hx Hf IH Hk]; intros Hs; [exact Hi|]. change (fsize (x :: fs)) with (isize x + fsize fs)%nat in *.
  apply (HP (isize x) (fsize fs) k a k1 b); [lia|apply item_pos|exact (proj1 Hx)|apply IH; lia|exact Hk].
Qed.
Lemma forest_cover fs : forallb (iok uU uV) fs = true -> (fsize fs <= n)%nat -> exists k en, In (k, en) (nth (fsize fs) ft []) /\ brepr (swf fs) (ewf fs 0%nat) en.
Proof.
  intros Hok Hs. destruct (frep_exists fs Hok Hs) as (fs' & k & e & P & F). exists k, e. split.
  - rewrite (fsize_perm fs fs' P). apply frep_in; [exact F|]. rewrite <- (fsize_perm fs fs' P). exact Hs.
  - eapply brepr_ext; [| |apply (frep_repr fs' k e F)]; [intros i _|]; symmetry; apply wf_perm; exact P.
Qed.
End Cover.

Definition bcover (n : nat) (it ft : list (list (N * entry))) : Prop :=
  length it = S n /\ length ft = S n /\
  (exists e, In (0%N, e) (nth 0 ft []) /\ brepr (swf []) (ewf [] 0%nat) e) /\
  (forall x, iok uU uV x = true -> (isize x <= n)%nat -> exists k a, irep it x k a) /\
  (forall i m k a k1 b, (i + m <= n)%nat -> (0 < i)%nat -> In (k, a) (nth i it []) -> In (k1, b) (nth m ft []) -> (k1 <= k)%N -> In (k, beprod a b) (nth (i + m) ft [])).
Lemma bcover_forest n it ft fs : bcover n it ft -> forallb (iok uU uV) fs = true -> (fsize fs <= n)%nat -> exists k en, In (k, en) (nth (fsize fs) ft []) /\ brepr (swf fs) (ewf fs 0%nat) en.
Proof. intros (L1 & L2 & H0 & HI & HP). apply (forest_cover n it ft H0 HI HP). Qed.
Lemma bcover_start : bcover 0 (fst (snd bstart)) (snd (snd bstart)).
Proof.
  split; [reflexivity|]. split; [reflexivity|]. split; [|split].
  - eexists. split; [left; reflexivity|]. split; [|split]; cbn [fst snd].
    + apply map_length.
    + intros i Hi. unfold wf. cbn [fold_right]. rewrite (nth_indep _ b_0 b_1) by (rewrite map_length; exact Hi). rewrite (map_nth (fun _ : ball => b_1) cL b_0). apply brel_1.
    + unfold wf. cbn. apply brel_1.
  - intros x _ H. pose proof (item_pos x). lia.
  - intros; lia.
Qed.
Lemma bcover_grow n st : bcover n (fst (snd st)) (snd (snd st)) -> bcover (S n) (fst (snd (bgrow st))) (snd (snd (bgrow st))).
Proof.
  destruct st as [k0 [it ft]]. cbn [fst snd]. intros HC. pose proof HC as (L1 & L2 & H0 & HI & HP). unfold bgrow. rewrite L2. replace (S n - 1)%nat with n by lia.
  set (src := _ ++ _ ++ _). set (newI := bdedup [] src). set (it' := it ++ [number k0 newI]). set (newF := flat_map _ _). cbn [fst snd].
  split; [unfold it'; rewrite app_length; cbn; lia|]. split; [rewrite app_length; cbn; lia|]. split; [|split].
  - destruct H0 as (e & E1 & E2). exists e. split; [|exact E2]. rewrite app_nth1 by lia. exact E1.
  - intros x Hok Hs. unfold it', irep. destruct (le_lt_dec (isize x) n) as [Hle|Hgt].
    + rewrite app_nth1 by lia. apply HI; assumption.
    + assert (E : isize x = S n) by lia. rewrite app_nth2 by lia. rewrite E, L1, Nat.sub_diag. cbn [nth].
      assert (HH : exists e, In e src /\ brepr (sw x) (ew x 0%nat) e).
      { unfold src. destruct x as [|fs|fs].
        - cbn [isize] in E. assert (n = 0%nat) by lia. subst n. exists (cL, b_1m). split; [left; reflexivity|]. split; [reflexivity|]. split; [|apply brel_1m]. exact Hc.
        - cbn [iok] in Hok. apply andb_true_iff in Hok. destruct Hok as [Hu Hok]. change (isize (U fs)) with (S (S (fsize fs))) in *. injection E as E.
          destruct (bcover_forest n it ft fs HC Hok ltac:(lia)) as (k & e & He & Hr). exists (beU (S n) e). split.
          + apply in_or_app. right. apply in_or_app. left. rewrite Hu. rewrite <- E. apply in_map_iff. exists (k, e). split; [reflexivity|exact He].
          + eapply brepr_ext; [| |apply (beU_repr (S n) (swf fs) (ewf fs 0%nat) e); [lia|exact Hu|exact Hr]]; [intros i Hi; reflexivity|].
            cbn [w]. change (isize (U fs)) with (S (S (fsize fs))). rewrite E. reflexivity.
        - cbn [iok] in Hok. apply andb_true_iff in Hok. destruct Hok as [Hu Hok]. change (isize (V fs)) with (S (fsize fs)) in *. injection E as E.
          destruct (bcover_forest n it ft fs HC Hok ltac:(lia)) as (k & e & He & Hr). exists (beV (S n) e). split.
          + apply in_or_app. right. apply in_or_app. right. rewrite Hu. rewrite <- E. apply in_map_iff. exists (k, e). split; [reflexivity|exact He].
          + eapply brepr_ext; [| |apply (beV_repr (S n) (swf fs) (ewf fs 0%nat) e); [lia|exact Hu|exact Hr]]; [intros i Hi; reflexivity|].
            cbn [w]. change (isize (V fs)) with (S (fsize fs)). rewrite E. reflexivity. }
      destruct HH as (e & He & Hr). destruct (bdedup_repr _ _ src [] e He Hr) as (e' & He' & Hr'). destruct (number_in newI k0 e' He') as (j & Hj). exists j, e'. split; [exact Hj|exact Hr'].
  - intros i m k a k1 b Him Hi Ha Hb Hk. destruct (le_lt_dec (i + m) n) as [Hle|Hgt].
    + rewrite app_nth1 by lia. apply (HP i m k a k1 b); try assumption.
      * unfold it' in Ha. rewrite app_nth1 in Ha by lia. exact Ha.
      * rewrite app_nth1 in Hb by lia. exact Hb.
    + assert (E : (i + m)%nat = S n) by lia. rewrite app_nth2 by lia. rewrite E, L2, Nat.sub_diag. cbn [nth]. unfold newF. apply in_flat_map. exists i. split; [apply in_seq; lia|].
      apply in_flat_map. exists (k, a). split; [exact Ha|]. cbn [fst snd]. apply in_map_iff. exists (k1, b). split; [reflexivity|]. apply filter_In. split; [|cbn [fst]; apply N.leb_le; exact Hk].
      replace (S n - i)%nat with m by lia. rewrite app_nth1 in Hb by lia. exact Hb.
Qed.
Lemma bcover_tables n : bcover n (fst (snd (btables n))) (snd (snd (btables n))).
Proof. induction n as [|n IH]; [apply bcover_start|apply bcover_grow, IH]. Qed.

(** ** the checks *)
Definition bcheck (tb : list (list (N * entry))) (eps : Q) (m : nat) (b : bvec) (rhs : nat -> ball -> ball) : bool :=
  forallb (fun n => forallb (fun en : N * entry => b_small (b_add (bdot b (fst (snd en))) (b_opp (rhs n (snd (snd en))))) eps) (nth n tb [])) (seq 0 m).
Definition brhsV (n : nat) (x : ball) : ball := b_mul x (b_inv (S n)).
Definition brhsU (n : nat) (x : ball) : ball := b_mul x (b_mul (b_inv (S (S n))) (b_inv (S n))).
Definition brhsZ (n : nat) (x : ball) : ball := b_0.
Lemma bcheck_sound M eps m b (br : nat -> R) rhs (rr : nat -> R -> R) : (m <= S M)%nat -> bcheck (ftab M) eps m b rhs = true ->
  (forall i, (i < s)%nat -> brel (nth i b b_0) (br i)) -> (forall n x r, brel x r -> brel (rhs n x) (rr n r)) ->
  forall n fs, (n < m)%nat -> In fs (FOREST uU uV n) ->
  Rabs (rsum s (fun i => br i * stage_weight s MU MV cc fs i) - rr n (exact_weight fs)) <= Q2R eps.
Proof.
  intros HM HC Hb Hr n fs Hn Hfs. destruct (FOREST_sound uU uV n fs Hfs) as [E Hok].
  destruct (bcover_forest M _ _ fs (bcover_tables M) Hok ltac:(lia)) as (k & en & Hen & (R1 & R2 & R3)).
  rewrite E in Hen. unfold bcheck in HC. rewrite forallb_forall in HC. specialize (HC n). rewrite in_seq in HC. specialize (HC ltac:(lia)). rewrite forallb_forall in HC. specialize (HC _ Hen). cbn [snd] in HC.
  apply (b_small_ok _ _ _ HC). unfold Rminus. apply brel_add; [|apply brel_opp, Hr, R3]. apply bdot_ok; [exact R1|exact Hb|exact R2].
Qed.
Lemma bcheck_V M eps m b br : (m <= S M)%nat -> bcheck (ftab M) eps m b brhsV = true -> (forall i, (i < s)%nat -> brel (nth i b b_0) (br i)) -> near_V uU uV s MU MV cc (Q2R eps) br m.
Proof.
  intros HM HC Hb n fs Hn Hfs. apply (bcheck_sound M eps m b br brhsV (fun n r => r / INR (S n)) HM HC Hb); [|exact Hn|exact Hfs].
  intros k x r Hx. apply brel_mul; [exact Hx|]. apply brel_inv. lia.
Qed.
Lemma bcheck_U M eps m b br : (m <= S M)%nat -> bcheck (ftab M) eps m b brhsU = true -> (forall i, (i < s)%nat -> brel (nth i b b_0) (br i)) -> near_U uU uV s MU MV cc (Q2R eps) br m.
Proof.
  intros HM HC Hb n fs Hn Hfs. apply (bcheck_sound M eps m b br brhsU (fun n r => r / (INR (S (S n)) * INR (S n))) HM HC Hb); [|exact Hn|exact Hfs].
  intros k x r Hx. unfold Rdiv. rewrite Rinv_mult. apply brel_mul; [exact Hx|]. apply brel_mul; apply brel_inv; lia.
Qed.
Lemma bcheck_Z M eps m b br : (m <= S M)%nat -> bcheck (ftab M) eps m b brhsZ = true -> (forall i, (i < s)%nat -> brel (nth i b b_0) (br i)) -> near_Z uU uV s MU MV cc (Q2R eps) br m.
Proof.
  intros HM HC Hb n fs Hn Hfs. pose proof (bcheck_sound M eps m b br brhsZ (fun n r => 0) HM HC Hb ltac:(intros; apply brel_0) n fs Hn Hfs) as H. cbv beta in H. rewrite Rminus_0_r in H. exact H.
Qed.
End Balls.
