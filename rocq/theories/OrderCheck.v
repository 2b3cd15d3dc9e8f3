(** Decision procedure for the order conditions of OrderThm.v: a table of the
    distinct (stage weights, exact weight) pairs of all forests of each size. *)
From Coq Require Import Reals Lra QArith Qreals Lia List Arith Bool.
From Verif Require Import Series Trees OrderThm.
Import ListNotations.
Open Scope R_scope.

(** exact computable numbers with their real value *)
Record CN := {
  cn :> Type; c_0 : cn; c_1 : cn; c_add : cn -> cn -> cn; c_mul : cn -> cn -> cn;
  c_inv : nat -> cn; c_eqb : cn -> cn -> bool; cv : cn -> R;
  cv0 : cv c_0 = 0; cv1 : cv c_1 = 1;
  cvadd : forall a b, cv (c_add a b) = cv a + cv b;
  cvmul : forall a b, cv (c_mul a b) = cv a * cv b;
  cvinv : forall n, (0 < n)%nat -> cv (c_inv n) = / INR n;
  cveqb : forall a b, c_eqb a b = true -> cv a = cv b
}.

Section Check.
Variable N : CN.
Notation vecN := (list N).
Notation entry := (vecN * N)%type.
Variables uU uV : bool.
Variable cc : vecN.
Variables MU MV : list vecN.

Fixpoint zipm (u v : vecN) : vecN :=
  match u, v with x :: u', y :: v' => c_mul N x y :: zipm u' v' | _, _ => [] end.
Fixpoint cdot (u v : vecN) : N :=
  match u, v with x :: u', y :: v' => c_add N (c_mul N x y) (cdot u' v') | _, _ => c_0 N end.
Definition mv (M : list vecN) (v : vecN) : vecN := map (fun row => cdot row v) M.
Fixpoint veqb (u v : vecN) : bool :=
  match u, v with [], [] => true | x :: u', y :: v' => c_eqb N x y && veqb u' v' | _, _ => false end.
Definition eeqb (a b : entry) : bool := c_eqb N (snd a) (snd b) && veqb (fst a) (fst b).
Fixpoint dedup (acc l : list entry) : list entry :=
  match l with [] => acc | e :: l' => dedup (if existsb (eeqb e) acc then acc else e :: acc) l' end.
Definition eprod (a b : entry) : entry := (zipm (fst a) (fst b), c_mul N (snd a) (snd b)).
Definition eV (n : nat) (a : entry) : entry := (mv MV (fst a), c_mul N (snd a) (c_inv N n)).
Definition eU (n : nat) (a : entry) : entry := (mv MU (fst a), c_mul N (snd a) (c_mul N (c_inv N n) (c_inv N (n - 1)))).

Definition grow (tb : list (list entry) * list (list entry)) : list (list entry) * list (list entry) :=
  let '(it, ft) := tb in
  let n := (length ft - 1)%nat in
  let newI := (match n with O => [(cc, c_1 N)] | _ => [] end) ++
    (if uU then match n with O => [] | S n' => map (eU (S n)) (nth n' ft []) end else []) ++
    (if uV then map (eV (S n)) (nth n ft []) else []) in
  let it' := it ++ [dedup [] newI] in
  let newF := flat_map (fun k => flat_map (fun a => map (eprod a) (nth (S n - k) ft [])) (nth k it' [])) (seq 1 (S n)) in
  (it', ft ++ [dedup [] newF]).
Definition start : list (list entry) * list (list entry) :=
  ([[]], [[(map (fun _ => c_1 N) cc, c_1 N)]]).
Fixpoint tables (n : nat) : list (list entry) * list (list entry) :=
  match n with O => start | S n' => grow (tables n') end.

(** ** soundness *)
Notation s := (length cc).
Definition vR (v : vecN) (i : nat) : R := cv N (nth i v (c_0 N)).
Definition mR (M : list vecN) (i l : nat) : R := vR (nth i M []) l.
Notation sw := (w (vR cc) (st_op s (mR MU)) (st_op s (mR MV))).
Notation swf := (wf (vR cc) (st_op s (mR MU)) (st_op s (mR MV))).
Notation ew := (w (fun _ => 1) ex_U ex_V).
Notation ewf := (wf (fun _ => 1) ex_U ex_V).
Hypothesis HMU : uU = true -> length MU = s.
Hypothesis HMV : uV = true -> length MV = s.

Definition repr (g : nat -> R) (x : R) (en : entry) : Prop :=
  length (fst en) = s /\ (forall i, (i < s)%nat -> vR (fst en) i = g i) /\ cv N (snd en) = x.

Lemma vR_nil i : vR [] i = 0.
Proof. unfold vR. destruct i; apply cv0. Qed.
Lemma cdot_val u : forall v n, length v = n -> cv N (cdot u v) = rsum n (fun l => vR u l * vR v l).
Proof.
  induction u as [|x u IH]; intros v n Hv.
  - simpl. rewrite cv0. symmetry. apply rsum_zero. intros. rewrite vR_nil. ring.
  - destruct v as [|y v]; [subst n; simpl; apply cv0|]. destruct n as [|n]; [discriminate|]. injection Hv as Hv.
    cbn [cdot]. rewrite cvadd, cvmul, (IH v n Hv), rsum_split. reflexivity.
Qed.
Lemma zipm_len u : forall v, length u = length v -> length (zipm u v) = length u.
Proof. induction u as [|x u IH]; intros [|y v] H; try discriminate; [reflexivity|]. simpl. f_equal. apply IH. simpl in H. lia. Qed.
Lemma zipm_val u : forall v i, length u = length v -> vR (zipm u v) i = vR u i * vR v i.
Proof.
  induction u as [|x u IH]; intros [|y v] i H; try discriminate; [simpl; rewrite vR_nil; ring|].
  destruct i as [|i]; [apply cvmul|]. apply (IH v i). simpl in H. lia.
Qed.
Lemma veqb_val u : forall v i, veqb u v = true -> vR u i = vR v i /\ length u = length v.
Proof.
  induction u as [|x u IH]; intros [|y v] i H; try discriminate H; [auto|]. simpl in H. apply andb_true_iff in H. destruct H as [H1 H2].
  split.
  - destruct i as [|i]; [apply cveqb; exact H1|]. apply (IH v i H2).
  - simpl. f_equal. apply (IH v i H2).
Qed.
Lemma eeqb_repr g x a b : eeqb a b = true -> repr g x a -> repr g x b.
Proof.
  unfold eeqb. intros H (H1 & H2 & H3). apply andb_true_iff in H. destruct H as [E1 E2]. split; [|split].
  - rewrite <- H1. symmetry. apply (veqb_val (fst a) (fst b) 0%nat E2).
  - intros i Hi. rewrite <- (H2 i Hi). symmetry. apply (veqb_val (fst a) (fst b) i E2).
  - rewrite <- H3. symmetry. apply cveqb. exact E1.
Qed.
Lemma dedup_acc l : forall acc e, In e acc -> In e (dedup acc l).
Proof. induction l as [|a l IH]; intros acc e H; [exact H|]. simpl. apply IH. destruct (existsb _ _); [exact H|right; exact H]. Qed.
Lemma dedup_repr g x l : forall acc e, In e l -> repr g x e -> exists e', In e' (dedup acc l) /\ repr g x e'.
Proof.
  induction l as [|a l IH]; intros acc e H Hr; [destruct H|]. destruct H as [->|H].
  - simpl. destruct (existsb (eeqb e) acc) eqn:E.
    + apply existsb_exists in E. destruct E as (b & Hb & E). exists b. split; [apply dedup_acc; exact Hb|]. eapply eeqb_repr; eauto.
    + exists e. split; [apply dedup_acc; left; reflexivity|exact Hr].
  - simpl. apply (IH _ e H Hr).
Qed.

Lemma eprod_repr g x a g' x' b : repr g x a -> repr g' x' b -> repr (fun i => g i * g' i) (x * x') (eprod a b).
Proof.
  intros (H1 & H2 & H3) (H1' & H2' & H3'). unfold eprod. split; [|split]; cbn [fst snd].
  - rewrite zipm_len; auto. congruence.
  - intros i Hi. rewrite zipm_val by congruence. rewrite H2, H2' by auto. reflexivity.
  - rewrite cvmul. congruence.
Qed.
Lemma mv_val M v g i : length v = s -> (forall i, (i < s)%nat -> vR v i = g i) ->
  vR (mv M v) i = rsum s (fun l => mR M i l * g l).
Proof.
  intros Hv Hg. unfold vR at 1, mv.
  destruct (lt_dec i (length M)) as [Hi|Hi].
  - rewrite (nth_indep _ (c_0 N) (cdot [] v)) by (rewrite map_length; auto).
    rewrite (map_nth (fun row => cdot row v)). rewrite (cdot_val _ v s Hv). apply rsum_ext. intros l Hl. rewrite Hg by auto. reflexivity.
  - rewrite nth_overflow by (rewrite map_length; lia). rewrite cv0. symmetry. apply rsum_zero. intros l _.
    unfold mR. rewrite (nth_overflow M) by lia. rewrite vR_nil. ring.
Qed.
Lemma eV_repr n g x a : (0 < n)%nat -> uV = true -> repr g x a ->
  repr (st_op s (mR MV) n g) (x / INR n) (eV n a).
Proof.
  intros Hn HuV (H1 & H2 & H3). unfold eV. split; [|split]; cbn [fst snd].
  - unfold mv. rewrite map_length. auto.
  - intros i Hi. unfold st_op. apply mv_val; auto.
  - rewrite cvmul, cvinv, H3 by auto. reflexivity.
Qed.
Lemma eU_repr n g x a : (1 < n)%nat -> uU = true -> repr g x a ->
  repr (st_op s (mR MU) n g) (x / (INR n * INR (n - 1))) (eU n a).
Proof.
  intros Hn HuV (H1 & H2 & H3). unfold eU. split; [|split]; cbn [fst snd].
  - unfold mv. rewrite map_length. auto.
  - intros i Hi. unfold st_op. apply mv_val; auto.
  - rewrite !cvmul, !cvinv, H3 by lia. field. split; apply not_0_INR; lia.
Qed.

Definition cover (n : nat) (tb : list (list entry) * list (list entry)) : Prop :=
  length (fst tb) = S n /\ length (snd tb) = S n /\
  (forall x, iok uU uV x = true -> (isize x <= n)%nat -> exists en, In en (nth (isize x) (fst tb) []) /\ repr (sw x) (ew x 0%nat) en) /\
  (forall fs, forallb (iok uU uV) fs = true -> (fsize fs <= n)%nat -> exists en, In en (nth (fsize fs) (snd tb) []) /\ repr (swf fs) (ewf fs 0%nat) en).

Lemma isize_pos x : (0 < isize x)%nat.
Proof. destruct x; simpl; lia. Qed.
Lemma fsize_nil fs : fsize fs = 0%nat -> fs = [].
Proof. destruct fs as [|x fs]; [reflexivity|]. cbn [fsize fold_right]. pose proof (isize_pos x). lia. Qed.

Lemma cover_start : cover 0 start.
Proof.
  split; [reflexivity|]. split; [reflexivity|]. split.
  - intros x _ H. pose proof (isize_pos x). lia.
  - intros fs _ H. rewrite (fsize_nil fs) by lia. eexists. split; [left; reflexivity|]. split; [|split]; cbn [fst snd].
    + apply map_length.
    + intros i Hi. unfold vR, wf. cbn [fold_right]. rewrite (nth_indep _ (c_0 N) (c_1 N)) by (rewrite map_length; auto).
      rewrite (map_nth (fun _ : N => c_1 N) cc (c_0 N)). apply cv1.
    + unfold wf. simpl. apply cv1.
Qed.

Lemma repr_ext g x g' x' e : (forall i, (i < s)%nat -> g i = g' i) -> x = x' -> repr g x e -> repr g' x' e.
Proof. intros Hg <- (H1 & H2 & H3). split; [auto|]. split; auto. intros i Hi. rewrite H2, Hg; auto. Qed.

Lemma cover_grow n tb : cover n tb -> cover (S n) (grow tb).
Proof.
  destruct tb as [it ft]. intros (L1 & L2 & HI & HF). cbn [fst snd] in *.
  unfold grow. rewrite L2. replace (S n - 1)%nat with n by lia.
  set (newI := _ ++ _ ++ _). set (it' := it ++ [dedup [] newI]).
  set (newF := flat_map _ _).
  assert (HI' : forall x, iok uU uV x = true -> (isize x <= S n)%nat -> exists en, In en (nth (isize x) it' []) /\ repr (sw x) (ew x 0%nat) en).
  { intros x Hok Hs. unfold it'. destruct (le_lt_dec (isize x) n) as [Hle|Hgt].
    - rewrite app_nth1 by lia. apply HI; auto.
    - assert (E : isize x = S n) by lia. rewrite app_nth2 by lia. rewrite E, L1, Nat.sub_diag. cbn [nth].
      assert (HH : exists e, In e newI /\ repr (sw x) (ew x 0%nat) e).
      { unfold newI. destruct x as [|fs|fs].
        - cbn [isize] in E. assert (n = 0%nat) by lia. subst n. exists (cc, c_1 N). split; [left; reflexivity|].
          split; [reflexivity|]. split; [reflexivity|]. apply cv1.
        - cbn [iok] in Hok. apply andb_true_iff in Hok. destruct Hok as [Hu Hok].
          change (isize (U fs)) with (S (S (fsize fs))) in *. injection E as E.
          destruct (HF fs Hok ltac:(lia)) as (e & He & Hr).
          exists (eU (S n) e). split.
          + apply in_or_app. right. apply in_or_app. left. rewrite Hu. rewrite <- E. apply in_map. exact He.
          + eapply repr_ext; [| |apply (eU_repr (S n) (swf fs) (ewf fs 0%nat) e); [lia|exact Hu|exact Hr]].
            * intros i Hi. reflexivity.
            * cbn [w]. change (isize (U fs)) with (S (S (fsize fs))). rewrite E. reflexivity.
        - cbn [iok] in Hok. apply andb_true_iff in Hok. destruct Hok as [Hu Hok].
          change (isize (V fs)) with (S (fsize fs)) in *. injection E as E.
          destruct (HF fs Hok ltac:(lia)) as (e & He & Hr).
          exists (eV (S n) e). split.
          + apply in_or_app. right. apply in_or_app. right. rewrite Hu. rewrite <- E. apply in_map. exact He.
          + eapply repr_ext; [| |apply (eV_repr (S n) (swf fs) (ewf fs 0%nat) e); [lia|exact Hu|exact Hr]].
            * intros i Hi. reflexivity.
            * cbn [w]. change (isize (V fs)) with (S (fsize fs)). rewrite E. reflexivity. }
      destruct HH as (e & He & Hr). apply (dedup_repr _ _ newI [] e He Hr). }
  split; [cbn [fst]; unfold it'; rewrite app_length; simpl; lia|].
  split; [cbn [snd]; rewrite app_length; simpl; lia|]. split; [exact HI'|].
  cbn [snd]. intros fs Hok Hs. destruct (le_lt_dec (fsize fs) n) as [Hle|Hgt].
  - rewrite app_nth1 by lia. apply HF; auto.
  - assert (E : fsize fs = S n) by lia. rewrite app_nth2 by lia. rewrite E, L2, Nat.sub_diag. cbn [nth].
    destruct fs as [|x fs]; [discriminate E|]. cbn [forallb] in Hok. apply andb_true_iff in Hok. destruct Hok as [Hx Hok].
    change (fsize (x :: fs)) with (isize x + fsize fs)%nat in *. pose proof (isize_pos x).
    destruct (HI' x Hx ltac:(lia)) as (a & Ha & Hra). destruct (HF fs Hok ltac:(lia)) as (b & Hb & Hrb).
    apply (dedup_repr _ _ newF [] (eprod a b)).
    + unfold newF. apply in_flat_map. exists (isize x). split; [apply in_seq; lia|].
      apply in_flat_map. exists a. split; [exact Ha|]. apply in_map. replace (S n - isize x)%nat with (fsize fs) by lia. exact Hb.
    + apply (eprod_repr _ _ a _ _ b Hra Hrb).
Qed.
Lemma cover_tables n : cover n (tables n).
Proof. induction n as [|n IH]; [apply cover_start|apply cover_grow, IH]. Qed.

(** ** the checks *)
Definition check (tb : list (list entry)) (m : nat) (b : vecN) (rhs : nat -> N -> N) : bool :=
  forallb (fun n => forallb (fun en => c_eqb N (cdot b (fst en)) (rhs n (snd en))) (nth n tb [])) (seq 0 m).

Lemma check_sound M m b rhs : (m <= S M)%nat -> check (snd (tables M)) m b rhs = true ->
  forall n fs, (n < m)%nat -> In fs (FOREST uU uV n) ->
  exists x, cv N x = exact_weight fs /\ rsum s (fun i => vR b i * stage_weight s (mR MU) (mR MV) (vR cc) fs i) = cv N (rhs n x).
Proof.
  intros HM HC n fs Hn Hfs. destruct (FOREST_sound uU uV n fs Hfs) as [E Hok].
  destruct (cover_tables M) as (_ & _ & _ & HF). destruct (HF fs Hok ltac:(lia)) as (en & Hen & (R1 & R2 & R3)).
  rewrite E in Hen. unfold check in HC. rewrite forallb_forall in HC. specialize (HC n). rewrite in_seq in HC.
  specialize (HC ltac:(lia)). rewrite forallb_forall in HC. specialize (HC en Hen). apply cveqb in HC.
  exists (snd en). split; [exact R3|]. rewrite <- HC. rewrite (cdot_val b (fst en) s R1). apply rsum_ext.
  intros i Hi. rewrite R2 by auto. reflexivity.
Qed.

Definition rhsV (n : nat) (x : N) : N := c_mul N x (c_inv N (S n)).
Definition rhsU (n : nat) (x : N) : N := c_mul N x (c_mul N (c_inv N (S (S n))) (c_inv N (S n))).
Definition rhsZ (n : nat) (x : N) : N := c_0 N.
Notation SW := (stage_weight s (mR MU) (mR MV) (vR cc)).

Lemma check_V M m b : (m <= S M)%nat -> check (snd (tables M)) m b rhsV = true ->
  order_V uU uV s (mR MU) (mR MV) (vR cc) (vR b) 1 m.
Proof.
  intros HM HC n fs Hn Hfs. destruct (check_sound M m b rhsV HM HC n fs Hn Hfs) as (x & Hx & E).
  rewrite E. unfold rhsV. rewrite cvmul, cvinv, Hx by lia. rewrite pow1. unfold Rdiv. ring.
Qed.
Lemma check_U M m b : (m <= S M)%nat -> check (snd (tables M)) m b rhsU = true ->
  order_U uU uV s (mR MU) (mR MV) (vR cc) (vR b) 1 m.
Proof.
  intros HM HC n fs Hn Hfs. destruct (check_sound M m b rhsU HM HC n fs Hn Hfs) as (x & Hx & E).
  rewrite E. unfold rhsU. rewrite !cvmul, !cvinv, Hx by lia. rewrite pow1. field. split; apply not_0_INR; lia.
Qed.
Lemma check_Z M m b : (m <= S M)%nat -> check (snd (tables M)) m b rhsZ = true ->
  order_Z uU uV s (mR MU) (mR MV) (vR cc) (vR b) m.
Proof.
  intros HM HC n fs Hn Hfs. destruct (check_sound M m b rhsZ HM HC n fs Hn Hfs) as (x & Hx & E).
  rewrite E. apply cv0.
Qed.

(** polynomial weights sum_j P_ij th^(j+1) (or th^(j+2)) *)
Definition col (j : nat) (P : list vecN) : vecN := map (fun row => nth j row (c_0 N)) P.
Definition pw (e0 cols : nat) (P : list vecN) (th : R) (i : nat) : R := rsum cols (fun j => mR P i j * th ^ (j + e0)).
Definition checkP (tb : list (list entry)) (m cols : nat) (P : list vecN) (rhs : nat -> N -> N) : bool :=
  Nat.leb m cols && forallb (fun j => check tb m (col j P) (fun n x => if Nat.eqb j n then rhs n x else c_0 N)) (seq 0 cols).

Lemma col_val P i j : vR (col j P) i = mR P i j.
Proof.
  unfold vR, col, mR, vR. destruct (lt_dec i (length P)) as [Hi|Hi].
  - rewrite (nth_indep _ (c_0 N) ((fun row => nth j row (c_0 N)) [])) by (rewrite map_length; auto).
    rewrite (map_nth (fun row => nth j row (c_0 N))). reflexivity.
  - rewrite (nth_overflow P) by lia. rewrite (nth_overflow (map _ P)) by (rewrite map_length; lia).
    destruct j; reflexivity.
Qed.
Lemma rsum_delta n k (g : nat -> R) : (k < n)%nat -> rsum n (fun j => if Nat.eqb j k then g j else 0) = g k.
Proof.
  induction n as [|n IH]; intros H; [lia|]. cbn [rsum]. destruct (Nat.eqb_spec n k) as [->|Hne].
  - rewrite rsum_zero; [ring|]. intros j Hj. destruct (Nat.eqb_spec j k); [lia|reflexivity].
  - rewrite IH by lia. ring.
Qed.
Lemma pw_swap e0 cols P th (g : nat -> R) :
  rsum s (fun i => pw e0 cols P th i * g i) = rsum cols (fun j => th ^ (j + e0) * rsum s (fun i => vR (col j P) i * g i)).
Proof.
  unfold pw. rewrite (rsum_ext s _ (fun i => rsum cols (fun j => th ^ (j + e0) * (vR (col j P) i * g i)))).
  - rewrite rsum_swap. apply rsum_ext. intros j _. rewrite rsum_scal. reflexivity.
  - intros i _. rewrite Rmult_comm, <- rsum_scal. apply rsum_ext. intros j _. rewrite col_val. ring.
Qed.
Lemma checkP_sound M m cols P rhs e0 th : (m <= S M)%nat -> checkP (snd (tables M)) m cols P rhs = true ->
  (forall n x y, cv N x = cv N y -> cv N (rhs n x) = cv N (rhs n y)) ->
  forall n fs, (n < m)%nat -> In fs (FOREST uU uV n) ->
  exists x, cv N x = exact_weight fs /\ rsum s (fun i => pw e0 cols P th i * SW fs i) = th ^ (n + e0) * cv N (rhs n x).
Proof.
  intros HM HC Hrhs n fs Hn Hfs. unfold checkP in HC. apply andb_true_iff in HC. destruct HC as [HC1 HC].
  apply Nat.leb_le in HC1. rewrite forallb_forall in HC.
  assert (Hj : forall j, (j < cols)%nat -> exists x, cv N x = exact_weight fs /\
    rsum s (fun i => vR (col j P) i * SW fs i) = cv N (if Nat.eqb j n then rhs n x else c_0 N)).
  { intros j Hj. specialize (HC j). rewrite in_seq in HC. specialize (HC ltac:(lia)).
    apply (check_sound M m (col j P) (fun n x => if Nat.eqb j n then rhs n x else c_0 N) HM HC n fs Hn Hfs). }
  destruct (Hj n ltac:(lia)) as (x & Hx & _). exists x. split; [exact Hx|].
  rewrite pw_swap. rewrite <- (rsum_delta cols n (fun j => th ^ (j + e0) * cv N (rhs n x))) by lia.
  apply rsum_ext. intros j Hjc. destruct (Hj j Hjc) as (x' & Hx' & ->). destruct (Nat.eqb_spec j n) as [->|Hne].
  - f_equal. apply Hrhs. congruence.
  - rewrite cv0. ring.
Qed.
Lemma checkP_V M m cols P th : (m <= S M)%nat -> checkP (snd (tables M)) m cols P rhsV = true ->
  order_V uU uV s (mR MU) (mR MV) (vR cc) (pw 1 cols P th) th m.
Proof.
  intros HM HC n fs Hn Hfs. destruct (checkP_sound M m cols P rhsV 1 th HM HC) with (n := n) (fs := fs) as (x & Hx & E); auto.
  { intros n0 x y Hxy. unfold rhsV. rewrite !cvmul, Hxy. reflexivity. }
  rewrite E. unfold rhsV. rewrite cvmul, cvinv, Hx by lia. replace (n + 1)%nat with (S n) by lia. unfold Rdiv. ring.
Qed.
Lemma checkP_U M m cols P th : (m <= S M)%nat -> checkP (snd (tables M)) m cols P rhsU = true ->
  order_U uU uV s (mR MU) (mR MV) (vR cc) (pw 2 cols P th) th m.
Proof.
  intros HM HC n fs Hn Hfs. destruct (checkP_sound M m cols P rhsU 2 th HM HC) with (n := n) (fs := fs) as (x & Hx & E); auto.
  { intros n0 x y Hxy. unfold rhsU. rewrite !cvmul, Hxy. reflexivity. }
  rewrite E. unfold rhsU. rewrite !cvmul, !cvinv, Hx by lia. replace (n + 2)%nat with (S (S n)) by lia.
  field. split; apply not_0_INR; lia.
Qed.

(** polynomial in th - 1 added to weights b of the end point (BS5 'best' output) *)
Fixpoint c_ofnat (n : nat) : N := match n with O => c_0 N | S n' => c_add N (c_1 N) (c_ofnat n') end.
Lemma c_ofnat_val n : cv N (c_ofnat n) = INR n.
Proof. induction n as [|n IH]; [apply cv0|]. rewrite S_INR. simpl. rewrite cvadd, cv1, IH. ring. Qed.
Fixpoint binom (n k : nat) : nat :=
  match n, k with _, O => 1 | O, S _ => 0 | S n', S k' => binom n' k' + binom n' k end%nat.
Definition checkB (tb : list (list entry)) (m cols : nat) (P : list vecN) : bool :=
  Nat.leb m cols && forallb (fun j => check tb m (col j P) (fun n x => c_mul N (c_ofnat (binom (S n) (S j))) (rhsV n x))) (seq 0 cols).
Lemma binom_overflow n : forall k, (n < k)%nat -> binom n k = 0%nat.
Proof. induction n as [|n IH]; intros [|k] H; try lia; [reflexivity|]. simpl. rewrite !IH by lia. reflexivity. Qed.
Lemma binom_0 n : binom n 0 = 1%nat.
Proof. destruct n; reflexivity. Qed.
Lemma binom_SS n k : binom (S n) (S k) = (binom n k + binom n (S k))%nat.
Proof. reflexivity. Qed.
Lemma binom_pow x n : (1 + x) ^ n = rsum (S n) (fun k => INR (binom n k) * x ^ k).
Proof.
  induction n as [|n IH]; [simpl; ring|]. rewrite <- tech_pow_Rmult, IH.
  rewrite (rsum_split (S n)), binom_0. rewrite (rsum_ext (S n) (fun k => INR (binom (S n) (S k)) * x ^ S k) (fun k => x * (INR (binom n k) * x ^ k) + INR (binom n (S k)) * x ^ S k)).
  2:{ intros k _. rewrite binom_SS, plus_INR. simpl pow. ring. }
  rewrite rsum_plus, rsum_scal.
  assert (E : rsum (S n) (fun k => INR (binom n k) * x ^ k) = INR 1 * 1 + rsum (S n) (fun k => INR (binom n (S k)) * x ^ S k)).
  { rewrite (rsum_split n). rewrite binom_0. cbn [rsum]. rewrite (binom_overflow n (S n)) by lia. simpl INR. simpl (x ^ 0). ring. }
  rewrite Rmult_plus_distr_r, Rmult_1_l. rewrite E at 1. simpl (x ^ 0). ring.
Qed.
Lemma checkB_V M m cols P b th : (m <= S M)%nat -> check (snd (tables M)) m b rhsV = true ->
  checkB (snd (tables M)) m cols P = true ->
  order_V uU uV s (mR MU) (mR MV) (vR cc) (fun i => vR b i + pw 1 cols P (th - 1) i) th m.
Proof.
  intros HM Hb HC n fs Hn Hfs. pose proof (check_V M m b HM Hb n fs Hn Hfs) as E1. rewrite pow1 in E1.
  unfold checkB in HC. apply andb_true_iff in HC. destruct HC as [HC1 HC]. apply Nat.leb_le in HC1. rewrite forallb_forall in HC.
  rewrite (rsum_ext s _ (fun i => vR b i * SW fs i + pw 1 cols P (th - 1) i * SW fs i)) by (intros; ring).
  rewrite rsum_plus, E1, pw_swap.
  rewrite (rsum_ext cols _ (fun j => exact_weight fs / INR (S n) * (INR (binom (S n) (S j)) * (th - 1) ^ S j))).
  2:{ intros j Hj. specialize (HC j). rewrite in_seq in HC. specialize (HC ltac:(lia)).
      destruct (check_sound M m (col j P) _ HM HC n fs Hn Hfs) as (x & Hx & ->).
      unfold rhsV. rewrite !cvmul, c_ofnat_val, cvinv, Hx by lia. replace (j + 1)%nat with (S j) by lia. unfold Rdiv. ring. }
  rewrite rsum_scal.
  replace (rsum cols (fun j => INR (binom (S n) (S j)) * (th - 1) ^ S j)) with (th ^ S n - 1); [unfold Rdiv; ring|].
  replace (th ^ S n) with ((1 + (th - 1)) ^ S n) by (f_equal; ring).
  rewrite binom_pow, rsum_split, binom_0.
  rewrite (rsum_trunc cols n (fun j => INR (binom (S n) (S j)) * (th - 1) ^ S j)); [simpl; ring|lia|].
  intros j Hj. rewrite binom_overflow by lia. simpl. ring.
Qed.
End Check.

(** ** rational numbers *)
Lemma Q2R_0' : Q2R 0 = 0. Proof. unfold Q2R. simpl. lra. Qed.
Lemma Q2R_1' : Q2R 1 = 1. Proof. unfold Q2R. simpl. lra. Qed.
Lemma Q2R_red q : Q2R (Qred q) = Q2R q.
Proof. apply Qeq_eqR, Qred_correct. Qed.
Lemma Q2R_inv_nat n : (0 < n)%nat -> Q2R (1 # Pos.of_nat n) = / INR n.
Proof.
  intros H. unfold Q2R. simpl. rewrite Rmult_1_l. f_equal. rewrite INR_IZR_INZ. f_equal.
  rewrite <- (Nat2Pos.id n) at 2 by lia. symmetry. apply Znat.positive_nat_Z.
Qed.
Definition QN : CN.
Proof.
  refine {| cn := Q; c_0 := 0%Q; c_1 := 1%Q; c_add := fun a b => Qred (a + b); c_mul := fun a b => Qred (a * b);
    c_inv := fun n => (1 # Pos.of_nat n)%Q; c_eqb := Qeq_bool; cv := Q2R |}.
  - exact Q2R_0'.
  - exact Q2R_1'.
  - abstract (intros a b; rewrite Q2R_red; apply Q2R_plus).
  - abstract (intros a b; rewrite Q2R_red; apply Q2R_mult).
  - exact Q2R_inv_nat.
  - abstract (intros a b H; apply Qeq_eqR, Qeq_bool_iff, H).
Defined.

(** ** numbers a + b sqrt 2 *)
Definition Q2N : CN.
Proof.
  refine {| cn := (Q * Q)%type; c_0 := (0, 0)%Q; c_1 := (1, 0)%Q;
  c_add := fun a b => (Qred (fst a + fst b), Qred (snd a + snd b));
  c_mul := fun a b => (Qred (fst a * fst b + 2 * (snd a * snd b)), Qred (fst a * snd b + snd a * fst b));
  c_inv := fun n => (1 # Pos.of_nat n, 0)%Q; c_eqb := fun a b => Qeq_bool (fst a) (fst b) && Qeq_bool (snd a) (snd b);
  cv := fun a => Q2R (fst a) + Q2R (snd a) * sqrt 2 |}.
  - abstract (cbn [fst snd]; rewrite Q2R_0'; ring).
  - abstract (cbn [fst snd]; rewrite Q2R_0', Q2R_1'; ring).
  - abstract (intros a b; cbn [fst snd]; rewrite !Q2R_red, !Q2R_plus; ring).
  - abstract (intros a b; cbn [fst snd]; rewrite !Q2R_red, !Q2R_plus, !Q2R_mult;
      replace (Q2R 2) with (sqrt 2 * sqrt 2) by (rewrite sqrt_sqrt by lra; unfold Q2R; simpl; lra); ring).
  - abstract (intros n H; cbn [fst snd]; rewrite (Q2R_inv_nat n H), Q2R_0'; ring).
  - abstract (intros a b H; apply andb_true_iff in H; destruct H as [H1 H2]; apply Qeq_bool_iff in H1, H2;
      rewrite (Qeq_eqR _ _ H1), (Qeq_eqR _ _ H2); reflexivity).
Defined.
