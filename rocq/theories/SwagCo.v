(** Block 1 of SWAG for every arithmetic: no exception is raised, and the
    coefficients g kept between steps are those that a computation from scratch
    would give. *)
From Coq Require Import String ZArith QArith Bool Lia List Arith.
From Verif Require Import Arith Common Stiff RK HStart RKInit Ode Swag SwagArr.
Import ListNotations.
Open Scope nat_scope.

(** lia without the hypotheses about array contents *)
Ltac clia := repeat match goal with H : context [@nth] |- _ => clear H | H : context [@length] |- _ => clear H end; lia.

Section Co.
Context {A : Arith}.
Notation num := (num A).
Notation vec := (list num).
Notation cell l i := (nth i l (@n0 A)).

(** iqq[i] = 1/((i+1)(i+2)) *)
Definition iqq (i : nat) : num := ndiv A n1 (nmul A (nofnat (i + 1)) (nadd A (nofnat (i + 1)) n1)).
Lemma iqq_cell kmax i : i < kmax + 1 -> cell (sw_iqq kmax) i = iqq i.
Proof.
  intros H. unfold sw_iqq, sw_iq. rewrite map_map. rewrite (nth_map' _ _ 0) by (rewrite seq_length; lia). rewrite seq_nth by lia.
  unfold iqq. replace (1 + i) with (i + 1) by lia. reflexivity.
Qed.
Lemma iqq_len kmax : length (sw_iqq (A := A) kmax) = kmax + 1.
Proof. unfold sw_iqq, sw_iq. rewrite !map_length, seq_length. lia. Qed.
Lemma iq_len kmax : length (sw_iq (A := A) kmax) = kmax + 1.
Proof. unfold sw_iq. rewrite !map_length, seq_length. lia. Qed.

(** the table: row 0 is iqq, row l+1 is obtained from row l with alpha[l+1] *)
Fixpoint W (al : nat -> num) (l i : nat) : num :=
  match l with O => iqq i | S l' => nsub A (W al l' i) (nmul A (al (S l')) (W al l' (i + 1))) end.
(** the g a computation from scratch gives *)
Definition gref (al : nat -> num) (i : nat) : num :=
  match i with O => n1 | S O => lit (1#2) | S l => W al l 0 end.
(** alpha[l] for equal steps *)
Definition cst (l : nat) : num := ndiv A n1 (nofnat (l + 1)).
Lemma W_ext al al' l i : (forall j, 1 <= j <= l -> al j = al' j) -> W al l i = W al' l i.
Proof. revert i. induction l as [|l IH]; intros i H; [reflexivity|]. cbn [W]. rewrite !IH by (intros; apply H; lia). rewrite (H (S l)) by lia. reflexivity. Qed.

Record lens (kmax : nat) (c : Co A) : Prop := {
  len_psi : length (psi c) = kmax; len_alpha : length (alpha c) = kmax; len_beta : length (beta c) = kmax;
  len_sig : length (sig c) = kmax + 1; len_v : length (vv c) = kmax; len_w : length (ww c) = kmax;
  len_g : length (gg c) = kmax + 1; len_gi : length (gi c) = kmax - 1; len_iv : length (iv c) = kmax - 2 }.

(** *** psi, alpha, beta, sig *)
Record steps_spec (c c1 : Co A) (k : nat) (h : num) : Prop := {
  ss_psi : forall j, cell (psi c1) j = if j =? ns c - 1 then nmul A h (nofnat (ns c)) else
     if (ns c <=? j) && (j <? k) then nadd A h (cell (psi c) (j - 1)) else cell (psi c) j;
  ss_alpha : forall j, cell (alpha c1) j = if j =? ns c - 1 then ndiv A n1 (nofnat (ns c)) else
     if (ns c <=? j) && (j <? k) then ndiv A h (cell (psi c1) j) else cell (alpha c) j;
  ss_beta_lo : forall j, j < ns c - 1 -> cell (beta c1) j = cell (beta c) j;
  ss_beta_1 : cell (beta c1) (ns c - 1) = n1;
  ss_beta_0 : ns c < k -> cell (beta c1) (ns c) = ndiv A (cell (psi c1) (ns c - 1)) (cell (psi c) (ns c - 1));
  ss_beta_S : forall j, ns c <= j -> S j < k -> cell (beta c1) (S j) = nmul A (cell (beta c1) j) (ndiv A (cell (psi c1) j) (cell (psi c) j));
  ss_sig_lo : forall j, j < ns c -> cell (sig c1) j = cell (sig c) j;
  ss_sig_0 : cell (sig c1) (ns c) = nmul A (nofnat (ns c)) (cell (alpha c1) (ns c - 1));
  ss_sig_S : forall j, ns c <= j < k -> cell (sig c1) (S j) = nmul A (cell (sig c1) j) (nmul A (nofnat (S j)) (cell (alpha c1) j));
  ss_same : vv c1 = vv c /\ ww c1 = ww c /\ gg c1 = gg c /\ gi c1 = gi c /\ iv c1 = iv c /\ ivc c1 = ivc c /\ kgi c1 = kgi c /\ kprev c1 = kprev c /\ ns c1 = ns c }.

Lemma co_steps_ok kmax c k h : lens kmax c -> 1 <= ns c <= k -> k <= kmax ->
  exists c1, co_steps kmax c k h = inl c1 /\ lens kmax c1 /\ steps_spec c c1 k h.
Proof.
  intros L Hns Hk. destruct L. unfold co_steps.
  rewrite (aset_ok (psi c)) by lia.
  set (psi1 := upd (psi c) (ns c - 1) _). assert (L1 : length psi1 = kmax) by (unfold psi1; rewrite len_upd; lia).
  set (old := sl (psi c) (ns c - 1) (k - 1)). assert (Lo : length old = k - ns c) by (unfold old; rewrite len_sl; lia).
  rewrite (set_sl_ok psi1) by (rewrite ?map_length; lia).
  set (psi2 := upds psi1 (ns c) _). assert (L2 : length psi2 = kmax) by (unfold psi2; rewrite len_upds; rewrite ?map_length; lia).
  rewrite (aset_ok (alpha c)) by lia.
  set (al1 := upd (alpha c) (ns c - 1) _). assert (La1 : length al1 = kmax) by (unfold al1; rewrite len_upd; lia).
  rewrite (set_sl_ok al1) by (rewrite ?map_length, ?len_sl; lia).
  set (al2 := upds al1 (ns c) _). assert (La2 : length al2 = kmax) by (unfold al2; rewrite len_upds; rewrite ?map_length, ?len_sl; lia).
  rewrite (aset_ok (beta c)) by lia.
  set (be1 := upd (beta c) (ns c - 1) _). assert (Lb1 : length be1 = kmax) by (unfold be1; rewrite len_upd; lia).
  assert (Ln : length (sl psi2 (ns c - 1) (k - 1)) = k - ns c) by (rewrite len_sl; lia).
  rewrite (bop_ok _ (sl psi2 (ns c - 1) (k - 1)) old) by lia.
  set (q := map2 _ _ _). assert (Lq : length q = k - ns c) by (unfold q; rewrite len_map2; lia).
  rewrite (set_sl_ok be1) by (rewrite ?len_cumul; lia).
  set (be2 := upds be1 (ns c) _). assert (Lb2 : length be2 = kmax) by (unfold be2; rewrite len_upds; rewrite ?len_cumul; lia).
  rewrite (bop_ok _ (sl (sw_iq kmax) (ns c - 1) k)) by (rewrite !len_sl; rewrite ?iq_len; lia).
  set (m := map2 _ _ _). assert (Lm : length m = k + 1 - ns c) by (unfold m; rewrite len_map2; rewrite !len_sl; rewrite ?iq_len; lia).
  rewrite (set_sl_ok (sig c)) by (rewrite ?len_cumul; lia).
  eexists. split; [reflexivity|]. split.
  { constructor; cbn [psi alpha beta sig vv ww gg gi iv]; try assumption. rewrite len_upds; rewrite ?len_cumul; lia. }
  assert (P2 : forall j, cell psi2 j = if j =? ns c - 1 then nmul A h (nofnat (ns c)) else
     if (ns c <=? j) && (j <? k) then nadd A h (cell (psi c) (j - 1)) else cell (psi c) j).
  { intros j. unfold psi2. rewrite nth_upds by (rewrite map_length; lia). rewrite map_length, Lo. replace (ns c + (k - ns c)) with k by lia.
    destruct (Nat.leb_spec (ns c) j), (Nat.ltb_spec j k); cbn [andb].
    - replace (j =? ns c - 1) with false by (symmetry; apply Nat.eqb_neq; lia). rewrite (nth_map' _ _ n0) by lia. unfold old. rewrite nth_sl by lia. do 2 f_equal. lia.
    - unfold psi1. rewrite nth_upd by lia. reflexivity.
    - unfold psi1. rewrite nth_upd by lia. reflexivity.
    - unfold psi1. rewrite nth_upd by lia. reflexivity. }
  assert (M : forall i, i < k + 1 - ns c -> nth i m n0 = nmul A (nofnat (S (ns c - 1 + i))) (cell al2 (ns c - 1 + i))).
  { intros i Hi. unfold m. rewrite (nth_map2 _ _ _ n0 n0) by (rewrite len_sl; rewrite ?iq_len; lia). rewrite !nth_sl by lia. f_equal. unfold sw_iq. rewrite (nth_map' _ _ 0) by (rewrite seq_length; lia). rewrite seq_nth by lia. reflexivity. }
  constructor; cbn [psi alpha beta sig vv ww gg gi iv ivc kgi kprev ns].
  - exact P2.
  - intros j. unfold al2. rewrite nth_upds by (rewrite map_length, len_sl; lia). rewrite map_length, len_sl by lia. replace (ns c + (k - ns c)) with k by lia.
    destruct (Nat.leb_spec (ns c) j), (Nat.ltb_spec j k); cbn [andb].
    + replace (j =? ns c - 1) with false by (symmetry; apply Nat.eqb_neq; lia). rewrite (nth_map' _ _ n0) by (rewrite len_sl; lia). rewrite nth_sl by lia. do 2 f_equal. lia.
    + unfold al1. rewrite nth_upd by lia. reflexivity.
    + unfold al1. rewrite nth_upd by lia. reflexivity.
    + unfold al1. rewrite nth_upd by lia. reflexivity.
  - intros j Hj. unfold be2. rewrite nth_upds by (rewrite len_cumul; lia). replace (ns c <=? j) with false by (symmetry; apply Nat.leb_gt; lia). cbn [andb].
    unfold be1. rewrite nth_upd by lia. replace (j =? ns c - 1) with false by (symmetry; apply Nat.eqb_neq; lia). reflexivity.
  - unfold be2. rewrite nth_upds by (rewrite len_cumul; lia). replace (ns c <=? ns c - 1) with false by (symmetry; apply Nat.leb_gt; lia). cbn [andb].
    unfold be1. rewrite nth_upd by lia. rewrite Nat.eqb_refl. reflexivity.
  - intros Hlt. unfold be2. rewrite nth_upds by (rewrite len_cumul; lia). rewrite len_cumul, Lq.
    replace (ns c <=? ns c) with true by (symmetry; apply Nat.leb_le; lia). replace (ns c <? ns c + (k - ns c)) with true by (symmetry; apply Nat.ltb_lt; lia). cbn [andb].
    rewrite Nat.sub_diag, nth_cumul_0. unfold q. rewrite (nth_map2 _ _ _ n0 n0) by lia. unfold old. rewrite !nth_sl by lia. do 2 f_equal; lia.
  - intros j Hj Hk2. unfold be2. rewrite !nth_upds by (rewrite len_cumul; lia). rewrite len_cumul, Lq.
    replace (ns c <=? S j) with true by (symmetry; apply Nat.leb_le; lia). replace (S j <? ns c + (k - ns c)) with true by (symmetry; apply Nat.ltb_lt; lia).
    replace (ns c <=? j) with true by (symmetry; apply Nat.leb_le; lia). replace (j <? ns c + (k - ns c)) with true by (symmetry; apply Nat.ltb_lt; lia). cbn [andb].
    replace (S j - ns c) with (S (j - ns c)) by lia. rewrite nth_cumul_S by lia. f_equal. unfold q. rewrite (nth_map2 _ _ _ n0 n0) by lia. unfold old. rewrite !nth_sl by lia. do 2 f_equal; lia.
  - intros j Hj. rewrite nth_upds by (rewrite len_cumul; lia). replace (ns c <=? j) with false by (symmetry; apply Nat.leb_gt; lia). reflexivity.
  - rewrite nth_upds by (rewrite len_cumul; lia). rewrite len_cumul, Lm. replace (ns c <=? ns c) with true by (symmetry; apply Nat.leb_le; lia). replace (ns c <? ns c + (k + 1 - ns c)) with true by (symmetry; apply Nat.ltb_lt; lia). cbn [andb].
    rewrite Nat.sub_diag, nth_cumul_0. rewrite M by lia. rewrite Nat.add_0_r. replace (S (ns c - 1)) with (ns c) by lia. reflexivity.
  - intros j Hj. rewrite !nth_upds by (rewrite len_cumul; lia). rewrite len_cumul, Lm. replace (ns c <=? S j) with true by (symmetry; apply Nat.leb_le; lia). replace (ns c <=? j) with true by (symmetry; apply Nat.leb_le; lia).
    replace (S j <? ns c + (k + 1 - ns c)) with true by (symmetry; apply Nat.ltb_lt; lia). replace (j <? ns c + (k + 1 - ns c)) with true by (symmetry; apply Nat.ltb_lt; lia). cbn [andb].
    replace (S j - ns c) with (S (j - ns c)) by lia. rewrite nth_cumul_S by lia. f_equal. rewrite M by lia. replace (ns c - 1 + S (j - ns c)) with j by lia. reflexivity.
  - repeat split.
Qed.

(** *** the invariant of v, iv and g: cc is the number of equal steps for which they were computed *)
Record coinv (kmax : nat) (c : Co A) (cc : nat) : Prop := {
  ci_len : lens kmax c;
  ci_cc : 1 <= cc <= kprev c;
  ci_k : kprev c + ivc c <= kmax;
  ci_alpha : forall l, 1 <= l < cc -> cell (alpha c) l = cst l;
  ci_iv : exists nj, forall j, j < ivc c -> nth j (iv c) 0 = kprev c + ivc c - j + 2 - nj j /\ 2 <= nj j <= cc /\
            nj j <= kprev c + ivc c - 1 - j /\ (forall j', j < j' < ivc c -> nj j < nj j');
  ci_v : forall q i, q <= ivc c -> (q = 0 \/ nth (ivc c - q) (iv c) 0 <= i + 1) ->
     (q = ivc c \/ i + 1 < nth (ivc c - q - 1) (iv c) 0) -> i < kprev c + q ->
     cell (vv c) i = W cst (Nat.min (cc - 1) (kprev c - 1 + q - i)) i;
  ci_g : forall i, i <= cc -> cell (gg c) i = gref cst i;
  (* gi holds the head of the table's column 1, without gaps; w agrees with v outside its leading part *)
  ci_kgi : kgi c <= cc /\ cc <= kgi c + 1 /\ (cc < kprev c -> kgi c = cc) /\ kgi c + 1 <= kmax;
  ci_gi : forall j, j < kgi c -> cell (gi c) j = W cst j 1;
  ci_w : forall q i, q <= ivc c -> (q = 0 \/ nth (ivc c - q) (iv c) 0 <= i + 1) ->
     (q = ivc c \/ i + 1 < nth (ivc c - q - 1) (iv c) 0) -> i < kprev c + q -> kprev c - cc <= i ->
     cell (ww c) i = cell (vv c) i }.

(** after [co_steps] with ns = cc + 1 the invariant is still there, and alpha[cc] is the next constant *)
Lemma steps_keep kmax c c1 k h cc : coinv kmax c cc -> lens kmax c1 -> steps_spec c c1 k h -> ns c = cc + 1 ->
  coinv kmax c1 cc /\ cell (alpha c1) cc = cst cc.
Proof.
  intros I L S E. destruct S. destruct ss_same0 as (E1 & E2 & E3 & E4 & E5 & E6 & E7 & E8 & E9). destruct I. split.
  - constructor; rewrite ?E1, ?E2, ?E3, ?E4, ?E5, ?E6, ?E7, ?E8; try assumption.
    intros l Hl. rewrite ss_alpha0, E. replace (l =? cc + 1 - 1) with false by (symmetry; apply Nat.eqb_neq; lia).
    replace (cc + 1 <=? l) with false by (symmetry; apply Nat.leb_gt; lia). cbn [andb]. apply ci_alpha0. exact Hl.
  - rewrite ss_alpha0, E. replace (cc =? cc + 1 - 1) with true by (symmetry; apply Nat.eqb_eq; lia). reflexivity.
Qed.

(** the diagonal update: v[i] goes from level j-1 to j = km1 - i, for jv <= j < jv + number of alphas *)
Lemma co_diag_ok kmax km1 alps : forall j v w, length v = kmax -> length w = kmax -> km1 < kmax -> j + length alps <= km1 -> 1 <= j ->
  (forall l, l < length alps -> nth l alps n0 = cst (j + l)) ->
  cell v (km1 - j + 1) = W cst (j - 1) (km1 - j + 1) ->
  (forall i, km1 - j - length alps < i <= km1 - j -> cell v i = W cst (km1 - i - 1) i) ->
  exists v' w', co_diag km1 j alps v w = inl (v', w') /\ length v' = kmax /\ length w' = kmax /\
    (forall i, km1 - j - length alps < i <= km1 - j -> cell v' i = W cst (km1 - i) i) /\
    (forall i, ~ (km1 - j - length alps < i <= km1 - j) -> cell v' i = cell v i) /\
    (forall i, km1 - j - length alps < i <= km1 - j -> cell w' i = cell v' i) /\
    (forall i, ~ (km1 - j - length alps < i <= km1 - j) -> cell w' i = cell w i).
Proof.
  induction alps as [|al alps IH]; intros j v w Lv Lw Hk Hj Hj1 Ha H1 H2.
  - exists v, w. cbn. repeat split; auto; cbn; intros; lia.
  - cbn [length] in Hj. cbn [co_diag]. replace (km1 <? j) with false by (symmetry; apply Nat.ltb_ge; lia).
    rewrite (aget_ok n0 v (km1 - j)) by lia. rewrite (aget_ok n0 v (km1 - j + 1)) by lia. rewrite (aset_ok v) by lia. rewrite (aset_ok w) by lia.
    set (x := nsub A _ _). assert (Ex : x = W cst j (km1 - j)).
    { unfold x. rewrite (H2 (km1 - j)) by (cbn [length]; lia). rewrite H1. pose proof (Ha 0 ltac:(cbn; lia)) as A0. cbn in A0. rewrite A0.
      destruct j as [|j']; [lia|]. cbn [W]. replace (km1 - (km1 - S j') - 1) with j' by lia. replace (S j' - 1) with j' by lia. rewrite Nat.add_0_r. reflexivity. }
    destruct (IH (S j) (upd v (km1 - j) x) (upd w (km1 - j) x)) as (v' & w' & E & L1 & L2 & P1 & P2 & P3 & P4).
    + rewrite len_upd; lia.
    + rewrite len_upd; lia.
    + exact Hk.
    + lia.
    + lia.
    + intros l Hl. specialize (Ha (S l) ltac:(cbn; lia)). cbn in Ha. rewrite Ha. f_equal. lia.
    + rewrite nth_upd by lia. replace (km1 - S j + 1) with (km1 - j) by lia. rewrite Nat.eqb_refl. rewrite Ex. f_equal. lia.
    + intros i Hi. rewrite nth_upd by lia. replace (i =? km1 - j) with false by (symmetry; apply Nat.eqb_neq; lia). apply H2. cbn [length]. lia.
    + exists v', w'. split; [exact E|]. split; [exact L1|]. split; [exact L2|]. cbn [length]. split.
      * intros i Hi. destruct (Nat.eq_dec i (km1 - j)) as [->|Hn].
        -- rewrite P2 by lia. rewrite nth_upd by lia. rewrite Nat.eqb_refl, Ex. f_equal. lia.
        -- apply P1. lia.
      * split; [intros i Hi; rewrite P2 by lia; rewrite nth_upd by lia; replace (i =? km1 - j) with false by (symmetry; apply Nat.eqb_neq; lia); reflexivity|]. split.
        -- intros i Hi. destruct (Nat.eq_dec i (km1 - j)) as [->|Hn]; [|apply P3; lia].
           rewrite P2, P4 by lia. rewrite !nth_upd by lia. rewrite Nat.eqb_refl. reflexivity.
        -- intros i Hi. rewrite P4 by lia. rewrite nth_upd by lia. replace (i =? km1 - j) with false by (symmetry; apply Nat.eqb_neq; lia). reflexivity.
Qed.

(** *** the order was raised *)
(** [c] has K = kprev, [c'] the same data prepared for order k = K + 1 *)
Lemma co_raised_ok kmax c k cc : coinv kmax c cc -> ns c = cc + 1 -> k = kprev c + 1 -> ns c <= k -> k <= kmax ->
  exists c', co_raised kmax c k = inl c' /\ lens kmax c' /\ psi c' = psi c /\ alpha c' = alpha c /\ beta c' = beta c /\ sig c' = sig c /\
    gg c' = gg c /\ iv c' = iv c /\ kprev c' = kprev c /\ ns c' = ns c /\ 
    coinv kmax (mkCo (psi c') (alpha c') (beta c') (sig c') (vv c') (ww c') (gg c') (gi c') (iv c') (ivc c') (kgi c') k (ns c')) cc.
Proof.
  intros I En Ek Hn Hkm. destruct I. destruct ci_len0. destruct ci_iv0 as (nj & Hnj). unfold co_raised.
  (* common end *)
  assert (TAIL : forall v w gi' ivc' kgi' jv, length v = kmax -> length w = kmax -> length gi' = kmax - 1 -> 1 <= jv <= cc ->
     (exists v' w', co_diag (k - 1) jv (sl (alpha c) jv (ns c - 1)) v w = inl (v', w') /\ length v' = kmax /\ length w' = kmax /\
        (forall q i, q <= ivc' -> (q = 0 \/ nth (ivc' - q) (iv c) 0 <= i + 1) -> (q = ivc' \/ i + 1 < nth (ivc' - q - 1) (iv c) 0) -> i < k + q ->
           cell v' i = W cst (Nat.min (cc - 1) (k - 1 + q - i)) i) /\
        (forall q i, q <= ivc' -> (q = 0 \/ nth (ivc' - q) (iv c) 0 <= i + 1) -> (q = ivc' \/ i + 1 < nth (ivc' - q - 1) (iv c) 0) -> i < k + q -> k - cc <= i ->
           cell w' i = cell v' i)) ->
     (forall j, j < kgi' -> cell gi' j = W cst j 1) -> kgi' = cc \/ (k = ns c /\ jv < cc /\ kgi' + 1 = cc) ->
     k + ivc' <= kmax ->
     (exists nj, forall j, j < ivc' -> nth j (iv c) 0 = k + ivc' - j + 2 - nj j /\ 2 <= nj j <= cc /\
            nj j <= k + ivc' - 1 - j /\ (forall j', j < j' < ivc' -> nj j < nj j')) ->
     exists c', (vw <- co_diag (k - 1) jv (sl (alpha c) jv (ns c - 1)) v w;;
       let '(v', w') := vw in
       if Nat.eqb k (ns c) && (jv <? ns c - 1)%nat then
         x <- aget w' 1;; gi'' <- aset gi' (ns c - 1 - 1) x;;
         inl (co_vw c v' w' (gg c) gi'' (iv c) ivc' (ns c - 1))
       else inl (co_vw c v' w' (gg c) gi' (iv c) ivc' kgi')) = inl c' /\ lens kmax c' /\ psi c' = psi c /\ alpha c' = alpha c /\ beta c' = beta c /\ sig c' = sig c /\
    gg c' = gg c /\ iv c' = iv c /\ kprev c' = kprev c /\ ns c' = ns c /\ 
    coinv kmax (mkCo (psi c') (alpha c') (beta c') (sig c') (vv c') (ww c') (gg c') (gi c') (iv c') (ivc c') (kgi c') k (ns c')) cc).
  { intros v w gi' ivc' kgi' jv Lv Lw Lg Hjv (v' & w' & E & Lv' & Lw' & Hv' & Hw') HG1 HG2 Hm Hst. rewrite E.
    destruct (Nat.eqb k (ns c) && (jv <? ns c - 1)) eqn:EB.
    - apply andb_prop in EB. destruct EB as [EB1 EB2]. apply Nat.eqb_eq in EB1. apply Nat.ltb_lt in EB2.
      rewrite (aget_ok n0 w') by lia. rewrite (aset_ok gi') by lia. eexists. split; [reflexivity|]. unfold co_vw. cbn [psi alpha beta sig gg iv kprev ns vv ww gi ivc kgi].
      split; [constructor; cbn [psi alpha beta sig gg iv kprev ns vv ww gi ivc kgi]; try assumption; rewrite len_upd; lia|].
      repeat (split; [reflexivity|]). constructor; cbn [psi alpha beta sig gg iv kprev ns vv ww gi ivc kgi]; try assumption; try lia.
      + constructor; cbn [psi alpha beta sig gg iv kprev ns vv ww gi ivc kgi]; try assumption; rewrite len_upd; lia.
      + assert (S0 : 0 = ivc' \/ 1 + 1 < nth (ivc' - 0 - 1) (iv c) 0).
        { destruct (Nat.eq_dec 0 ivc') as [|N0]; [left; assumption|right]. destruct Hst as (nj' & Hst). destruct (Hst (ivc' - 0 - 1) ltac:(lia)) as (Y1 & Y2 & _). rewrite Y1. lia. }
        assert (X1 : cell w' 1 = W cst (cc - 1) 1).
        { rewrite (Hw' 0 1) by (try exact S0; lia). rewrite (Hv' 0 1) by (try exact S0; lia). f_equal. lia. }
        intros j Hj. rewrite nth_upd by lia. destruct (Nat.eqb_spec j (ns c - 1 - 1)) as [->|Hne]; [rewrite X1; f_equal; lia|]. apply HG1. lia.
    - assert (HG : kgi' = cc).
      { destruct HG2 as [HG2|(X1 & X2 & _)]; [exact HG2|exfalso]. apply andb_false_iff in EB. destruct EB as [EB|EB]; [apply Nat.eqb_neq in EB; lia|apply Nat.ltb_ge in EB; lia]. }
      eexists. split; [reflexivity|]. unfold co_vw. cbn [psi alpha beta sig gg iv kprev ns vv ww gi ivc kgi].
      split; [constructor; cbn [psi alpha beta sig gg iv kprev ns vv ww gi ivc kgi]; assumption|].
      repeat (split; [reflexivity|]). constructor; cbn [psi alpha beta sig gg iv kprev ns vv ww gi ivc kgi]; try assumption; try lia.
      constructor; cbn [psi alpha beta sig gg iv kprev ns vv ww gi ivc kgi]; assumption. }
  assert (AL : forall jv l, 1 <= jv -> l < length (sl (alpha c) jv (ns c - 1)) -> nth l (sl (alpha c) jv (ns c - 1)) n0 = cst (jv + l)).
  { intros jv l H1 H2. rewrite len_sl in H2 by lia. rewrite nth_sl by lia. apply ci_alpha0. lia. }
  destruct (Nat.eqb_spec (ivc c) 0) as [E0|E0]; cbn [negb].
  - rewrite (aget_ok n0 (sw_iqq kmax)) by (rewrite iqq_len; lia). rewrite (aset_ok (vv c)) by lia. rewrite (aset_ok (ww c)) by lia.
    rewrite iqq_cell by lia. set (v1 := upd (vv c) (k - 1) _). set (w1 := upd (ww c) (k - 1) _).
    assert (L1 : length v1 = kmax) by (unfold v1; rewrite len_upd; lia). assert (L2 : length w1 = kmax) by (unfold w1; rewrite len_upd; lia).
    assert (DG : exists v' w', co_diag (k - 1) 1 (sl (alpha c) 1 (ns c - 1)) v1 w1 = inl (v', w') /\ length v' = kmax /\ length w' = kmax /\
        (forall q i, q <= ivc c -> (q = 0 \/ nth (ivc c - q) (iv c) 0 <= i + 1) -> (q = ivc c \/ i + 1 < nth (ivc c - q - 1) (iv c) 0) -> i < k + q ->
           cell v' i = W cst (Nat.min (cc - 1) (k - 1 + q - i)) i) /\
        (forall q i, q <= ivc c -> (q = 0 \/ nth (ivc c - q) (iv c) 0 <= i + 1) -> (q = ivc c \/ i + 1 < nth (ivc c - q - 1) (iv c) 0) -> i < k + q -> k - cc <= i ->
           cell w' i = cell v' i)).
    { assert (Ls : length (sl (alpha c) 1 (ns c - 1)) = cc - 1) by (rewrite len_sl; lia).
      destruct (co_diag_ok kmax (k - 1) (sl (alpha c) 1 (ns c - 1)) 1 v1 w1 L1 L2) as (v' & w' & E & La & Lb & P1 & P2 & P3 & P4); try lia.
      - intros l Hl. apply AL; [lia|exact Hl].
      - replace (k - 1 - 1 + 1) with (k - 1) by lia. unfold v1. rewrite nth_upd by lia. rewrite Nat.eqb_refl. reflexivity.
      - rewrite Ls. intros i Hi. unfold v1. rewrite nth_upd by lia. replace (i =? k - 1) with false by (symmetry; apply Nat.eqb_neq; lia).
        rewrite (ci_v0 0 i) by lia. f_equal. lia.
      - exists v', w'. split; [exact E|]. split; [exact La|]. split; [exact Lb|]. rewrite Ls in P1, P2, P3, P4. split.
        2: { intros q i Hq _ _ Hi Hlo. assert (q = 0) by lia. subst q. destruct (Nat.eq_dec i (k - 1)) as [->|]; [|apply P3; lia].
             rewrite P2, P4 by lia. unfold v1, w1. rewrite !nth_upd by lia. rewrite Nat.eqb_refl. reflexivity. }
        intros q i Hq _ _ Hi. assert (q = 0) by lia. subst q. rewrite Nat.add_0_r.
        destruct (Nat.le_gt_cases (k - 1) (i + 0)) as [Hi1|Hi1].
        + assert (i = k - 1) by lia. subst i. rewrite P2 by lia. unfold v1. rewrite nth_upd by lia. rewrite Nat.eqb_refl. rewrite Nat.sub_diag, Nat.min_0_r. reflexivity.
        + destruct (Nat.lt_ge_cases (k - 1 - cc) i) as [Hi2|Hi2].
          * rewrite P1 by lia. f_equal. lia.
          * rewrite P2 by lia. unfold v1. rewrite nth_upd by lia. replace (i =? k - 1) with false by (symmetry; apply Nat.eqb_neq; lia).
            rewrite (ci_v0 0 i) by lia. f_equal. lia. }
    assert (ST : exists nj, forall j, j < ivc c -> nth j (iv c) 0 = k + ivc c - j + 2 - nj j /\ 2 <= nj j <= cc /\
            nj j <= k + ivc c - 1 - j /\ (forall j', j < j' < ivc c -> nj j < nj j')) by (exists nj; intros; lia).
    destruct (Nat.eqb k 2) eqn:E2.
    + apply Nat.eqb_eq in E2. rewrite (aget_ok n0 w1) by lia. rewrite (aset_ok (gi c)) by lia.
      apply (TAIL v1 w1 _ _ _ 1 L1 L2); [rewrite len_upd; lia|lia|exact DG| |lia|lia|exact ST].
      intros j Hj. assert (j = 0) by lia. subst j. rewrite nth_upd by lia. rewrite Nat.eqb_refl. unfold w1. rewrite nth_upd by lia. replace (1 =? k - 1) with true by (symmetry; apply Nat.eqb_eq; lia). replace (k - 1) with 1 by lia. reflexivity.
    + apply Nat.eqb_neq in E2. apply (TAIL v1 w1 _ _ _ 1 L1 L2); [assumption|lia|exact DG|exact ci_gi0|lia|lia|exact ST].
  - assert (IC : ivc c - 1 < ivc c) by lia. destruct (Hnj (ivc c - 1) IC) as (H1 & H2 & H3 & _).
    assert (Hlen : ivc c - 1 < length (iv c)).
    { rewrite len_iv0. (* all nj are distinct in 2..k_max-1 *)
      assert (forall j, j < ivc c -> j + 2 <= nj j).
      { induction j as [|j IHj]; intros Hj; [destruct (Hnj 0 Hj) as (_ & X & _); lia|]. specialize (IHj ltac:(lia)). destruct (Hnj j ltac:(lia)) as (_ & _ & _ & X). specialize (X (S j) ltac:(lia)). lia. }
      specialize (H (ivc c - 1) IC). lia. }
    rewrite (aget_ok 0 (iv c)) by exact Hlen. rewrite H1. set (n := nj (ivc c - 1)) in *.
    assert (H3' : n <= kprev c) by (clear - H3 E0; lia). clear H3.
    replace (kprev c + ivc c - (ivc c - 1) + 2 - n) with (kprev c + 3 - n) in * by (clear - E0; lia).
    replace (k + 1 <? kprev c + 3 - n) with false by (symmetry; apply Nat.ltb_ge; lia).
    replace (k + 1 - (kprev c + 3 - n)) with (n - 1) by lia.
    apply (TAIL (vv c) (ww c) (gi c) (ivc c - 1) (kgi c) (n - 1)); try assumption; try clia.
    + assert (Ls : length (sl (alpha c) (n - 1) (ns c - 1)) = cc + 1 - n) by (rewrite len_sl; lia).
      destruct (co_diag_ok kmax (k - 1) (sl (alpha c) (n - 1) (ns c - 1)) (n - 1) (vv c) (ww c) len_v0 len_w0) as (v' & w' & E & La & Lb & P1 & P2 & P3 & P4); try (rewrite ?Ls; clia).
      * intros l Hl. apply AL; [clia|exact Hl].
      * (* q = 1 *) replace (k - 1 - (n - 1) + 1) with (kprev c + 2 - n) by clia.
        rewrite (ci_v0 1 (kprev c + 2 - n)); [f_equal; clia|clia|right; rewrite H1; fold n; clia| |clia].
        destruct (Nat.eq_dec 1 (ivc c)); [left; assumption|right]. destruct (Hnj (ivc c - 1 - 1) ltac:(clia)) as (Y1 & Y2 & Y3 & Y4). specialize (Y4 (ivc c - 1) ltac:(clia)). fold n in Y4. rewrite Y1. clia.
      * rewrite Ls. intros i Hi. assert (Q1 : Nat.min (cc - 1) (kprev c - 1 + 0 - i) = k - 1 - i - 1) by (clear - Hi H2 Ek ci_cc0; clia). assert (Q2 : i < kprev c + 0) by (clear - Hi H2 Ek; clia). rewrite (ci_v0 0 i); [rewrite Q1; reflexivity|apply Nat.le_0_l|left; reflexivity| |exact Q2]. right. rewrite Nat.sub_0_r, H1. fold n. clear - Hi H2 E0 Ek; clia.
      * exists v', w'. split; [exact E|]. split; [exact La|]. split; [exact Lb|]. rewrite Ls in P1, P2, P3, P4. split.
        2: { intros q i Hq Hs1 Hs2 Hi Hlo. destruct (Nat.le_gt_cases i (k - 1 - (n - 1))) as [Hi1|Hi1]; [apply P3; clia|].
          rewrite P2, P4 by clia. apply (ci_w0 (S q) i); [clia| | |clia|clia].
          - right. destruct (Nat.eq_dec q 0) as [->|Hq0]; [rewrite H1; fold n; clia|]. destruct Hs1 as [Hs1|Hs1]; [clia|]. replace (ivc c - S q) with (ivc c - 1 - q) by clia. exact Hs1.
          - destruct Hs2 as [Hs2|Hs2]; [left; clia|right]. replace (ivc c - S q - 1) with (ivc c - 1 - q - 1) by clia. exact Hs2. }
        intros q i Hq Hs1 Hs2 Hi.
        assert (TOP : forall q', 2 <= q' <= ivc c -> nth (ivc c - q') (iv c) 0 > kprev c + 3 - n).
        { intros q' Hq'. destruct (Hnj (ivc c - q') ltac:(clia)) as (Y1 & Y2 & Y3 & Y4). specialize (Y4 (ivc c - 1) ltac:(clia)). fold n in Y4. rewrite Y1. clia. }
        destruct (Nat.eq_dec q 0) as [->|Hq0].
        { rewrite Nat.add_0_r in *. destruct (Nat.lt_ge_cases (k - 1 - (n - 1)) i) as [Hi1|Hi1].
          - (* old segment 1 *) rewrite P2 by clia. rewrite (ci_v0 1 i); [f_equal; clia|clia|right; rewrite H1; fold n; clia| |clia].
            destruct Hs2 as [Hs2|Hs2]; [left; clia|right]. replace (ivc c - 1 - 0 - 1) with (ivc c - 1 - 1) in Hs2 by clia. exact Hs2.
          - destruct (Nat.lt_ge_cases (k - 1 - cc) i) as [Hi2|Hi2].
            + rewrite P1 by clia. f_equal. clia.
            + rewrite P2 by clia. rewrite (ci_v0 0 i); [f_equal; clia|clia|left; reflexivity| |clia]. right. rewrite Nat.sub_0_r, H1. fold n. clia. }
        { destruct Hs1 as [Hs1|Hs1]; [clia|]. replace (ivc c - 1 - q) with (ivc c - S q) in Hs1 by clia. pose proof (Nat.lt_le_trans _ _ _ (TOP (S q) ltac:(clia)) Hs1) as HT.
          rewrite P2 by clia. rewrite (ci_v0 (S q) i); [f_equal; clia|clia|right; exact Hs1| |clia].
          destruct Hs2 as [Hs2|Hs2]; [left; clia|right]. replace (ivc c - S q - 1) with (ivc c - 1 - q - 1) by clia. exact Hs2. }
    + exists nj. intros j Hj. destruct (Hnj j ltac:(clia)) as (Y1 & Y2 & Y3 & Y4). split; [rewrite Y1; clia|]. split; [clia|]. split; [clia|]. intros j' Hj'. apply Y4. clia.
Qed.

(** *** the update of v, for ns = cc + 1 <= k with k = K or k = K - 1 (then kold = K) *)
Lemma co_update_ok kmax c k kold cc : coinv kmax c cc -> cell (alpha c) cc = cst cc -> ns c = cc + 1 -> ns c <= k ->
  (k = kprev c /\ kold <= k) \/ (k + 1 = kprev c /\ k < kold) ->
  exists c', co_update c k kold = inl c' /\ psi c' = psi c /\ alpha c' = alpha c /\ beta c' = beta c /\ sig c' = sig c /\ ns c' = ns c /\ kprev c' = kprev c /\
    coinv kmax (mkCo (psi c') (alpha c') (beta c') (sig c') (vv c') (ww c') (gg c') (gi c') (iv c') (ivc c') (kgi c') k (ns c')) (cc + 1) /\
    (forall i, i < k + 1 - ns c -> cell (ww c') i = W cst cc i) /\ lens kmax c'.
Proof.
  intros I Ea En Hn HK. destruct I. destruct ci_len0. destruct ci_iv0 as (nj & Hnj). unfold co_update.
  assert (Hkk : k <= kprev c) by lia. set (lim := k + 1 - ns c) in *. assert (Hlim : 1 <= lim) by lia.
  rewrite (aget_ok n0 (alpha c)) by lia. replace (ns c - 1) with cc by lia. rewrite Ea.
  rewrite bop_ok by (rewrite map_length, !len_sl; lia). set (dd := map2 _ _ _).
  assert (Ld : length dd = lim) by (unfold dd; rewrite len_map2; rewrite ?map_length, !len_sl; lia).
  rewrite (set_sl_ok (vv c)) by lia. set (v := upds (vv c) 0 dd). assert (Lv : length v = kmax) by (unfold v; rewrite len_upds; lia).
  rewrite (set_sl_ok (ww c)) by (rewrite ?len_sl; lia). set (w := upds (ww c) 0 _). assert (Lw : length w = kmax) by (unfold w; rewrite len_upds; rewrite ?len_sl; lia).
  rewrite (aget_ok n0 w) by lia. rewrite (aset_ok (gg c)) by lia.
  (* levels of the old v below lim + 1 *)
  assert (SEG : forall j, j < ivc c -> kprev c + 2 - cc <= nth j (iv c) 0) by (intros j Hj; destruct (Hnj j Hj) as (Y1 & Y2 & Y3 & _); rewrite Y1; lia).
  assert (V0 : forall i, i <= lim -> cell (vv c) i = W cst (cc - 1) i).
  { intros i Hi. rewrite (ci_v0 0 i); [f_equal; lia|lia|left; reflexivity| |lia]. destruct (Nat.eq_dec 0 (ivc c)) as [|Hne]; [left; assumption|right]. pose proof (SEG (ivc c - 0 - 1) ltac:(lia)). lia. }
  assert (V1 : forall i, i < lim -> cell v i = W cst cc i).
  { intros i Hi. unfold v. rewrite nth_upds by lia. replace (0 <=? i) with true by reflexivity. replace (i <? 0 + length dd) with true by (symmetry; apply Nat.ltb_lt; lia). cbn [andb].
    rewrite Nat.sub_0_r. unfold dd. rewrite (nth_map2 _ _ _ n0 n0) by (rewrite ?map_length, !len_sl; lia). rewrite nth_sl by lia. rewrite (nth_map' _ _ n0) by (rewrite len_sl; lia). rewrite nth_sl by lia.
    replace (0 + i) with i by lia. replace (1 + i) with (i + 1) by lia. rewrite !V0 by lia. destruct cc as [|cc']; [lia|]. cbn [W]. replace (S cc' - 1) with cc' by lia. reflexivity. }
  assert (V2 : forall i, lim <= i -> cell v i = cell (vv c) i).
  { intros i Hi. unfold v. rewrite nth_upds by lia. replace (i <? 0 + length dd) with false by (symmetry; apply Nat.ltb_ge; lia). rewrite andb_false_r. reflexivity. }
  assert (W1 : forall i, i <= lim -> cell w i = cell v i).
  { intros i Hi. unfold w. rewrite nth_upds by (rewrite len_sl; lia). replace (0 <=? i) with true by reflexivity. rewrite len_sl by lia. replace (i <? 0 + (lim + 1 - 0)) with true by (symmetry; apply Nat.ltb_lt; lia). cbn [andb]. rewrite nth_sl by lia. f_equal. lia. }
  set (g := upd (gg c) (ns c) (cell w 0)). assert (Lg : length g = kmax + 1) by (unfold g; rewrite len_upd; lia).
  assert (G : forall i, i <= cc + 1 -> cell g i = gref cst i).
  { intros i Hi. unfold g. rewrite nth_upd by lia. destruct (Nat.eqb_spec i (ns c)) as [->|Hne].
    - rewrite W1, V1 by lia. rewrite En. destruct cc as [|cc']; [lia|]. replace (S cc' + 1) with (S (S cc')) by lia. reflexivity.
    - apply ci_g0. lia. }
  assert (BRK : forall i q, q <= ivc c -> (q = 0 \/ nth (ivc c - q) (iv c) 0 <= i + 1) -> kprev c - cc <= i -> kprev c - 1 + q - i <= cc - 1).
  { intros i q Hq Hs Hi. destruct Hs as [->|Hs]; [lia|]. destruct (Nat.eq_dec q 0) as [->|Hq0]; [lia|]. destruct (Hnj (ivc c - q) ltac:(lia)) as (Y1 & Y2 & Y3 & _). rewrite Y1 in Hs. lia. }
  match goal with |- context [match ?X with _ => _ end] => assert (R : exists gi' kgi', X = inl (gi', kgi') /\ length gi' = kmax - 1 /\
     (kgi' <= cc + 1 /\ cc + 1 <= kgi' + 1 /\ (cc + 1 < k -> kgi' = cc + 1) /\ kgi' + 1 <= kmax) /\ (forall j, j < kgi' -> cell gi' j = W cst j 1)) end.
  { assert (Kg : kgi c = cc) by lia. destruct (Nat.eqb_spec lim 1) as [E1|E1]; cbn [negb].
    - exists (gi c), (kgi c). split; [reflexivity|]. split; [assumption|]. split; [lia|exact ci_gi0].
    - rewrite (aget_ok n0 w) by lia. rewrite (aset_ok (gi c)) by lia. exists (upd (gi c) cc (cell w 1)), (ns c). split; [reflexivity|]. split; [rewrite len_upd; lia|]. split; [lia|].
      intros j Hj. rewrite nth_upd by lia. destruct (Nat.eqb_spec j cc) as [->|Hne]; [rewrite W1, V1 by lia; reflexivity|apply ci_gi0; lia]. }
  destruct R as (gi' & kgi' & -> & Lgi & Kgi & Hgi).
  assert (W2 : forall i, lim < i -> cell w i = cell (ww c) i).
  { intros i Hi. unfold w. rewrite nth_upds by (rewrite len_sl; lia). rewrite len_sl by lia. replace (i <? 0 + (lim + 1 - 0)) with false by (symmetry; apply Nat.ltb_ge; lia). rewrite andb_false_r. reflexivity. }
  destruct HK as [[HK1 HK2]|[HK1 HK2]].
  - replace (k <? kold) with false by (symmetry; apply Nat.ltb_ge; lia). eexists. split; [reflexivity|]. unfold co_vw. cbn [psi alpha beta sig gg iv kprev ns vv ww gi ivc kgi].
    do 6 (split; [reflexivity|]). split; [|split; [intros i Hi; rewrite W1 by lia; apply V1; exact Hi|constructor; assumption]].
    constructor; cbn [psi alpha beta sig gg iv kprev ns vv ww gi ivc kgi].
    + constructor; assumption.
    + lia.
    + lia.
    + intros l Hl. destruct (Nat.eq_dec l cc) as [->|]; [exact Ea|apply ci_alpha0; lia].
    + exists nj. intros j Hj. destruct (Hnj j Hj) as (Y1 & Y2 & Y3 & Y4). rewrite HK1. repeat split; try lia. exact Y4.
    + intros q i Hq Hs1 Hs2 Hi. destruct (Nat.lt_ge_cases i lim) as [H|H].
      * rewrite V1 by exact H. f_equal. lia.
      * rewrite V2 by exact H. rewrite (ci_v0 q i Hq Hs1 Hs2) by lia. f_equal. pose proof (BRK i q Hq Hs1 ltac:(clia)) as HB. clear - HB HK1 ci_cc0; lia.
    + exact G.
    + exact Kgi.
    + exact Hgi.
    + intros q i Hq Hs1 Hs2 Hi Hlo. destruct (Nat.le_gt_cases i lim) as [H|H]; [apply W1; exact H|]. rewrite W2, V2 by lia. apply (ci_w0 q i Hq Hs1 Hs2); lia.
  - replace (k <? kold) with true by (symmetry; apply Nat.ltb_lt; lia).
    assert (Hivc : ivc c < length (iv c)).
    { rewrite len_iv0. assert (forall j, j < ivc c -> j + 2 <= nj j).
      { induction j as [|j IHj]; intros Hj; [destruct (Hnj 0 Hj) as (_ & X & _); lia|]. specialize (IHj ltac:(lia)). destruct (Hnj j ltac:(lia)) as (_ & _ & _ & X). specialize (X (S j) ltac:(lia)). lia. }
      destruct (Nat.eq_dec (ivc c) 0) as [E0|E0]; [lia|]. specialize (H (ivc c - 1) ltac:(lia)). destruct (Hnj (ivc c - 1) ltac:(lia)) as (_ & X2 & _). lia. }
    rewrite (aset_ok (iv c)) by exact Hivc. eexists. split; [reflexivity|]. unfold co_vw. cbn [psi alpha beta sig gg iv kprev ns vv ww gi ivc kgi].
    do 6 (split; [reflexivity|]). split; [|split; [intros i Hi; rewrite W1 by lia; apply V1; exact Hi|constructor; cbn [psi alpha beta sig gg iv kprev ns vv ww gi ivc kgi]; try assumption; rewrite len_upd; assumption]].
    constructor; cbn [psi alpha beta sig gg iv kprev ns vv ww gi ivc kgi].
    + constructor; cbn [psi alpha beta sig gg iv kprev ns vv ww gi ivc kgi]; try assumption; rewrite len_upd; assumption.
    + lia.
    + lia.
    + intros l Hl. destruct (Nat.eq_dec l cc) as [->|]; [exact Ea|apply ci_alpha0; lia].
    + exists (fun j => if j =? ivc c then ns c else nj j). intros j Hj. rewrite nth_upd by exact Hivc. destruct (Nat.eqb_spec j (ivc c)) as [->|Hne].
      * repeat split; try lia. 
      * destruct (Hnj j ltac:(lia)) as (Y1 & Y2 & Y3 & Y4). repeat split; try lia. intros j' Hj'. destruct (Nat.eqb_spec j' (ivc c)); [lia|apply Y4; lia].
    + intros q i Hq Hs1 Hs2 Hi. rewrite !nth_upd in * by exact Hivc. destruct (Nat.eq_dec q 0) as [->|Hq0].
      * destruct Hs2 as [Hs2|Hs2]; [lia|]. replace (ivc c + 1 - 0 - 1) with (ivc c) in Hs2 by lia. rewrite Nat.eqb_refl in Hs2.
        destruct (Nat.lt_ge_cases i lim) as [H|H].
        -- rewrite V1 by exact H. f_equal. lia.
        -- assert (i = lim) by lia. rewrite V2 by lia. rewrite V0 by lia. f_equal. lia.
      * assert (H : lim <= i).
        { destruct Hs1 as [Hs1|Hs1]; [lia|]. destruct (Nat.eqb_spec (ivc c + 1 - q) (ivc c)) as [Eq|Eq] in Hs1; [lia|]. pose proof (SEG (ivc c + 1 - q) ltac:(lia)). lia. }
        rewrite V2 by exact H.
        assert (S1 : q - 1 = 0 \/ nth (ivc c - (q - 1)) (iv c) 0 <= i + 1).
        { destruct (Nat.eq_dec q 1) as [->|]; [left; lia|right]. destruct Hs1 as [Hs1|Hs1]; [lia|]. destruct (Nat.eqb_spec (ivc c + 1 - q) (ivc c)) as [Eq|Eq] in Hs1; [lia|]. replace (ivc c - (q - 1)) with (ivc c + 1 - q) by lia. exact Hs1. }
        assert (Hge : kprev c - cc <= i).
        { destruct (Nat.eq_dec q 1) as [->|].
          - destruct Hs1 as [Hs1|Hs1]; [lia|]. replace (ivc c + 1 - 1 =? ivc c) with true in Hs1 by (symmetry; apply Nat.eqb_eq; lia). lia.
          - destruct S1 as [S1|S1]; [lia|]. pose proof (SEG (ivc c - (q - 1)) ltac:(lia)). lia. }
        rewrite (ci_v0 (q - 1) i); [|lia|exact S1| |lia].
        -- f_equal. pose proof (BRK i (q - 1) ltac:(clia) S1 Hge) as HB. clear - HB HK1 Hq0 Hn En ci_cc0; lia.
        -- destruct Hs2 as [Hs2|Hs2]; [left; lia|]. destruct (Nat.eqb_spec (ivc c + 1 - q - 1) (ivc c)) as [Eq|Eq] in Hs2; [lia|]. right. replace (ivc c - (q - 1) - 1) with (ivc c + 1 - q - 1) by lia. exact Hs2.
    + exact G.
    + exact Kgi.
    + exact Hgi.
    + intros q i Hq Hs1 Hs2 Hi Hlo. destruct (Nat.le_gt_cases i lim) as [H|H]; [apply W1; exact H|]. rewrite W2, V2 by lia. rewrite !nth_upd in * by exact Hivc.
      destruct (Nat.eq_dec q 0) as [->|Hq0].
      * destruct Hs2 as [Hs2|Hs2]; [lia|]. replace (ivc c + 1 - 0 - 1) with (ivc c) in Hs2 by lia. rewrite Nat.eqb_refl in Hs2. lia.
      * apply (ci_w0 (q - 1) i); [lia| | |lia|lia].
        -- destruct (Nat.eq_dec q 1) as [->|]; [left; lia|right]. destruct Hs1 as [Hs1|Hs1]; [lia|]. destruct (Nat.eqb_spec (ivc c + 1 - q) (ivc c)) as [Eq|Eq] in Hs1; [lia|]. replace (ivc c - (q - 1)) with (ivc c + 1 - q) by lia. exact Hs1.
        -- destruct Hs2 as [Hs2|Hs2]; [left; lia|]. destruct (Nat.eqb_spec (ivc c + 1 - q - 1) (ivc c)) as [Eq|Eq] in Hs2; [lia|]. right. replace (ivc c - (q - 1) - 1) with (ivc c + 1 - q - 1) by lia. exact Hs2.
Qed.

(** *** the g of the orders up to k *)
Lemma co_g_ok kmax k al alps : forall i w g, length w = kmax -> length g = kmax + 1 -> k <= kmax -> 1 <= i -> i + length alps = k -> 
  (forall l, l < length alps -> nth l alps n0 = al (i + l)) ->
  (forall j, j < k + 1 - i -> cell w j = W al (i - 1) j) ->
  exists w' g', co_g k i alps w g = inl (w', g') /\ length w' = kmax /\ length g' = kmax + 1 /\
    (forall j, j <= i -> cell g' j = cell g j) /\ (forall j, i < j <= k -> cell g' j = W al (j - 1) 0) /\
    (forall j, j <= k - i -> cell w' j = W al (k - 1 - j) j) /\ (forall j, k - i < j -> cell w' j = cell w j).
Proof.
  induction alps as [|a alps IH]; intros i w g Lw Lg Hk Hi HE Ha HW.
  - exists w, g. cbn. repeat split; auto; cbn in HE; [intros; lia|]. intros j Hj. rewrite HW by lia. f_equal. lia.
  - cbn [length] in HE. cbn [co_g]. set (lim := k - i) in *.
    rewrite bop_ok by (rewrite map_length, !len_sl; lia). set (dd := map2 _ _ _). assert (Ld : length dd = lim) by (unfold dd; rewrite len_map2; rewrite ?map_length, !len_sl; lia).
    rewrite (set_sl_ok w) by lia. set (w1 := upds w 0 dd). assert (L1 : length w1 = kmax) by (unfold w1; rewrite len_upds; lia).
    assert (W1 : forall j, j < lim -> cell w1 j = W al i j).
    { intros j Hj. unfold w1. rewrite nth_upds by lia. replace (0 <=? j) with true by reflexivity. replace (j <? 0 + length dd) with true by (symmetry; apply Nat.ltb_lt; lia). cbn [andb].
      rewrite Nat.sub_0_r. unfold dd. rewrite (nth_map2 _ _ _ n0 n0) by (rewrite ?map_length, !len_sl; lia). rewrite nth_sl by lia. rewrite (nth_map' _ _ n0) by (rewrite len_sl; lia). rewrite nth_sl by lia.
      replace (0 + j) with j by lia. replace (1 + j) with (j + 1) by lia. rewrite !HW by lia. pose proof (Ha 0 ltac:(cbn; lia)) as A0. cbn in A0. rewrite A0. rewrite Nat.add_0_r.
      destruct i as [|i']; [lia|]. cbn [W]. replace (S i' - 1) with i' by lia. reflexivity. }
    rewrite (aget_ok n0 w1) by lia. rewrite (aset_ok g) by lia.
    destruct (IH (S i) w1 (upd g (i + 1) (cell w1 0))) as (w' & g' & E & La & Lb & P1 & P2 & P3 & P4); try assumption; try lia.
    + rewrite len_upd; lia.
    + intros l Hl. specialize (Ha (S l) ltac:(cbn; lia)). cbn in Ha. rewrite Ha. f_equal. lia.
    + intros j Hj. rewrite W1 by lia. f_equal. lia.
    + exists w', g'. split; [exact E|]. split; [exact La|]. split; [exact Lb|]. split.
      * intros j Hj. rewrite P1 by lia. rewrite nth_upd by lia. replace (j =? i + 1) with false by (symmetry; apply Nat.eqb_neq; lia). reflexivity.
      * split; [intros j Hj; destruct (Nat.eq_dec j (i + 1)) as [->|Hne]|].
        -- rewrite P1 by lia. rewrite nth_upd by lia. rewrite Nat.eqb_refl, W1 by lia. f_equal. lia.
        -- apply P2. lia.
        -- assert (W2 : forall j, lim <= j -> cell w1 j = cell w j).
           { intros j Hj. unfold w1. rewrite nth_upds by lia. replace (j <? 0 + length dd) with false by (symmetry; apply Nat.ltb_ge; lia). rewrite andb_false_r. reflexivity. }
           split; intros j Hj.
           ++ destruct (Nat.eq_dec j (k - i)) as [->|Hne]; [|apply P3; lia]. rewrite P4 by lia. rewrite W2 by lia. rewrite HW by lia. f_equal. lia.
           ++ rewrite P4 by lia. apply W2. lia.
Qed.

(** *** block 1 *)
Definition base (kmax : nat) (c : Co A) : Prop := lens kmax c /\ cell (gg c) 0 = n1 /\ cell (gg c) 1 = lit (1#2).

(** what holds before a trial of order k; kold is the order of the last accepted step *)
Definition coready (kmax : nat) (c : Co A) (k kold : nat) : Prop :=
  base kmax c /\ 1 <= k <= kmax /\
  (ns c = 0 \/
   (k <= kold + 1 /\ kold <= k + 1 /\ exists cc, coinv kmax c cc /\
      ((ns c = cc /\ kprev c = kold) \/ (kold < ns c /\ ns c = cc + 1 /\ kprev c <= ns c)))).

Definition arrays_of (c c' : Co A) (k : nat) (h : num) : Prop :=
  if ns c' <=? k then exists c1, steps_spec (with_ns c (ns c')) c1 k h /\ psi c' = psi c1 /\ alpha c' = alpha c1 /\ beta c' = beta c1 /\ sig c' = sig c1
  else psi c' = psi c /\ alpha c' = alpha c /\ beta c' = beta c /\ sig c' = sig c.

Record codone (kmax : nat) (c : Co A) (k : nat) : Prop := {
  cd_base : base kmax c;
  cd_inv : exists cc, coinv kmax c cc /\ ((ns c <= k /\ cc = ns c /\ kprev c = k) \/ (k < ns c /\ ns c = cc + 1 /\ kprev c <= ns c));
  cd_g : forall i, i <= k -> cell (gg c) i = gref (fun j => cell (alpha c) j) i;
  cd_w : kgi c < k -> kprev c = k /\ forall i, i < k -> (ivc c = 0 \/ i + 1 < nth (ivc c - 1) (iv c) 0) -> cell (ww c) i = W (fun j => cell (alpha c) j) (k - 1 - i) i }.

Lemma W_alpha (c : Co A) cc l i : (forall l, 1 <= l < cc -> cell (alpha c) l = cst l) -> l < cc -> W (fun j => cell (alpha c) j) l i = W cst l i.
Proof. intros H Hl. apply W_ext. intros j Hj. apply H. lia. Qed.
Lemma gref_alpha (c : Co A) cc i : (forall l, 1 <= l < cc -> cell (alpha c) l = cst l) -> i <= cc -> gref (fun j => cell (alpha c) j) i = gref cst i.
Proof. intros H Hl. destruct i as [|[|l]]; [reflexivity|reflexivity|]. cbn [gref]. apply (W_alpha c cc); [exact H|lia]. Qed.

Lemma co_first_ok kmax c k : base kmax c -> 1 <= k <= kmax -> ns c = 1 ->
  exists c', co_first kmax c k = inl c' /\ psi c' = psi c /\ alpha c' = alpha c /\ beta c' = beta c /\ sig c' = sig c /\ ns c' = ns c /\
    coinv kmax (mkCo (psi c') (alpha c') (beta c') (sig c') (vv c') (ww c') (gg c') (gi c') (iv c') (ivc c') (kgi c') k (ns c')) 1 /\
    (forall i, i < k -> cell (ww c') i = iqq i) /\ lens kmax c'.
Proof.
  intros (L & G0 & G1) Hk En. destruct L. unfold co_first.
  assert (Ls : length (sl (sw_iqq (A := A) kmax) 0 k) = k) by (rewrite len_sl; rewrite ?iqq_len; lia).
  rewrite (set_sl_ok (vv c)) by lia. rewrite (set_sl_ok (ww c)) by lia.
  set (v := upds (vv c) 0 _). set (w := upds (ww c) 0 _).
  assert (Lv : length v = kmax) by (unfold v; rewrite len_upds; lia). assert (Lw : length w = kmax) by (unfold w; rewrite len_upds; lia).
  assert (E : forall l i, length l = kmax -> i < k -> cell (upds l 0 (sl (sw_iqq kmax) 0 k)) i = iqq i).
  { intros l i Hl Hi. rewrite nth_upds by lia. rewrite Ls. replace (0 <=? i) with true by reflexivity. replace (i <? 0 + k) with true by (symmetry; apply Nat.ltb_lt; lia). cbn [andb].
    rewrite nth_sl by lia. rewrite <- (iqq_cell kmax) by lia. f_equal. lia. }
  assert (I : forall gi' kgi', length gi' = kmax - 1 -> (kgi' <= 1 /\ 1 <= kgi' + 1 /\ (1 < k -> kgi' = 1) /\ kgi' + 1 <= kmax) -> (forall j, j < kgi' -> cell gi' j = W cst j 1) -> coinv kmax (mkCo (psi c) (alpha c) (beta c) (sig c) v w (gg c) gi' (iv c) 0 kgi' k (ns c)) 1).
  { intros gi' kgi' Hg Hk1 Hg1. constructor; cbn [psi alpha beta sig gg iv kprev ns vv ww gi ivc kgi].
    - constructor; assumption.
    - lia.
    - lia.
    - intros; lia.
    - exists (fun _ => 0). intros; lia.
    - intros q i Hq _ _ Hi. unfold v. rewrite E by lia. reflexivity.
    - intros i Hi. destruct i as [|[|i]]; [exact G0|exact G1|lia].
    - exact Hk1.
    - exact Hg1.
    - intros q i Hq _ _ Hi _. unfold v, w. rewrite !E by lia. reflexivity. }
  destruct (Nat.eqb_spec k 1) as [E1|E1].
  - eexists. split; [reflexivity|]. unfold co_vw. cbn [psi alpha beta sig gg iv kprev ns vv ww gi ivc kgi]. do 5 (split; [reflexivity|]).
    split; [apply I; [assumption|lia|intros; lia]|]. split; [intros i Hi; unfold w; apply E; assumption|constructor; assumption].
  - rewrite (aget_ok n0 w) by lia. rewrite (aset_ok (gi c)) by lia. eexists. split; [reflexivity|]. unfold co_vw. cbn [psi alpha beta sig gg iv kprev ns vv ww gi ivc kgi]. do 5 (split; [reflexivity|]).
    split; [apply I; [rewrite len_upd; lia|lia|]; intros j Hj; assert (j = 0) by lia; subst j; rewrite nth_upd by lia; rewrite Nat.eqb_refl; unfold w; rewrite E by lia; reflexivity|]. split; [intros i Hi; unfold w; apply E; assumption|constructor; cbn [psi alpha beta sig gg iv kprev ns vv ww gi ivc kgi]; try assumption; rewrite len_upd; lia].
Qed.

Lemma block1_ok kmax c k kold h hold : coready kmax c k kold ->
  exists c', block1 kmax c k kold h hold = inl c' /\ codone kmax c' k /\ ns c' = ns_trial (ns c) kold h hold /\ arrays_of c c' k h.
Proof.
  intros (HB & Hk & HN). unfold block1. set (n := ns_trial (ns c) kold h hold). cbn [ns with_ns].
  assert (HC : n = 1 \/ (k <= kold + 1 /\ kold <= k + 1 /\ exists cc, coinv kmax c cc /\ n = cc + 1 /\ ((kprev c = kold /\ cc <= kold) \/ (kold < n /\ kprev c <= n)))).
  { unfold n, ns_trial. destruct (neqb A h hold); [|left; reflexivity].
    destruct HN as [E|(H1 & H2 & cc & I & [(E1 & E2)|(E1 & E2 & E3)])].
    - left. rewrite E. reflexivity.
    - right. split; [exact H1|]. split; [exact H2|]. exists cc. split; [exact I|]. pose proof (ci_cc _ _ _ I). replace (ns c <=? kold) with true by (symmetry; apply Nat.leb_le; lia). split; [lia|]. left. lia.
    - right. split; [exact H1|]. split; [exact H2|]. exists cc. split; [exact I|]. replace (ns c <=? kold) with false by (symmetry; apply Nat.leb_gt; lia). split; [lia|]. right. lia. }
  assert (Hn : 1 <= n) by (destruct HC as [->|(_ & _ & cc & I & E & _)]; [lia|pose proof (ci_cc _ _ _ I); lia]).
  assert (HBn : base kmax (with_ns c n)).
  { destruct HB as (L & G). split; [|exact G]. destruct L. constructor; assumption. }
  destruct (Nat.leb_spec n k) as [Hle|Hgt].
  - destruct (co_steps_ok kmax (with_ns c n) k h (proj1 HBn) (conj Hn Hle) (proj2 Hk)) as (c1 & E1 & L1 & S1). rewrite E1.
    pose proof (ss_same _ _ _ _ S1) as SM. cbn [with_ns vv ww gg gi iv ivc kgi kprev ns] in SM. destruct SM as (Z1 & Z2 & Z3 & Z4 & Z5 & Z6 & Z7 & Z8 & Z9).
    match goal with |- context [match ?X with inl x => _ | inr e => _ end] => assert (MID : exists c2, X = inl c2 /\ psi c2 = psi c1 /\ alpha c2 = alpha c1 /\ beta c2 = beta c1 /\ sig c2 = sig c1 /\ ns c2 = n /\
       coinv kmax (mkCo (psi c2) (alpha c2) (beta c2) (sig c2) (vv c2) (ww c2) (gg c2) (gi c2) (iv c2) (ivc c2) (kgi c2) k (ns c2)) n /\
       (forall i, i < k + 1 - n -> cell (ww c2) i = W cst (n - 1) i) /\ lens kmax c2) end.
    { destruct (Nat.eqb_spec n 1) as [En|En].
      - destruct (co_first_ok kmax c1 k) as (c2 & E & Y1 & Y2 & Y3 & Y4 & Y5 & I2 & HW & L2).
        + split; [exact L1|]. rewrite Z3. exact (proj2 HB).
        + exact Hk.
        + rewrite Z9. exact En.
        + exists c2. rewrite E. split; [reflexivity|]. rewrite Y1, Y2, Y3, Y4. do 4 (split; [reflexivity|]). split; [congruence|]. rewrite Y1, Y2, Y3, Y4 in I2.
          split; [rewrite En; exact I2|]. split; [intros i Hi; rewrite HW by lia; rewrite En; reflexivity|exact L2].
      - destruct HC as [HC|(H1 & H2 & cc & I & E & HC)]; [congruence|].
        assert (In : coinv kmax (with_ns c n) cc) by (destruct I; constructor; try assumption; destruct ci_len0; constructor; assumption).
        destruct (steps_keep _ _ _ _ _ _ In L1 S1 E) as (I1 & A1).
        assert (KP : k = kprev c1 + 1 \/ (k = kprev c1 /\ kold <= k) \/ (k + 1 = kprev c1 /\ k < kold)) by (rewrite Z8; destruct I; lia).
        destruct (Nat.ltb_spec (kprev c1) k) as [Hlt|Hge].
        + destruct (co_raised_ok kmax c1 k cc I1) as (c2 & E2 & L2 & Y1 & Y2 & Y3 & Y4 & Y5 & Y6 & Y7 & Y8 & I2); [rewrite Z9; exact E|lia|rewrite Z9; exact Hle|exact (proj2 Hk)|].
          rewrite E2.
          assert (HUP : exists c3, co_update c2 k kold = inl c3 /\ psi c3 = psi c1 /\ alpha c3 = alpha c1 /\ beta c3 = beta c1 /\ sig c3 = sig c1 /\ ns c3 = n /\
              coinv kmax (mkCo (psi c3) (alpha c3) (beta c3) (sig c3) (vv c3) (ww c3) (gg c3) (gi c3) (iv c3) (ivc c3) (kgi c3) k (ns c3)) n /\
              (forall i, i < k + 1 - n -> cell (ww c3) i = W cst (n - 1) i) /\ lens kmax c3).
          { set (c2' := mkCo (psi c2) (alpha c2) (beta c2) (sig c2) (vv c2) (ww c2) (gg c2) (gi c2) (iv c2) (ivc c2) (kgi c2) k (ns c2)) in *.
            destruct (co_update_ok kmax c2' k kold cc I2) as (c3 & E3 & X1 & X2 & X3 & X4 & X5 & X6 & I3 & HW & L3).
            - unfold c2'. cbn [alpha]. rewrite Y2. exact A1.
            - unfold c2'. cbn [ns]. rewrite Y8, Z9. exact E.
            - unfold c2'. cbn [ns]. rewrite Y8, Z9. exact Hle.
            - left. unfold c2'. cbn [kprev]. split; [reflexivity|]. destruct HC as [(HC1 & HC2)|(HC1 & HC2)]; lia.
            - (* kprev is not read by co_update *)
              assert (EU : co_update c2 k kold = match co_update c2' k kold with inl c3 => inl (mkCo (psi c3) (alpha c3) (beta c3) (sig c3) (vv c3) (ww c3) (gg c3) (gi c3) (iv c3) (ivc c3) (kgi c3) (kprev c2) (ns c3)) | inr e => inr e end).
              { unfold co_update, c2', co_vw. cbn [psi alpha beta sig gg iv kprev ns vv ww gi ivc kgi].
                repeat match goal with |- context [match ?X with inl _ => _ | inr _ => _ end] => destruct X; [|reflexivity] end.
                try (match goal with |- context [let '(_, _) := ?X in _] => destruct X end). destruct (k <? kold); [|reflexivity]. destruct (aset _ _ _); reflexivity. }
              rewrite EU, E3. eexists. split; [reflexivity|]. cbn [psi alpha beta sig gg iv kprev ns vv ww gi ivc kgi].
              unfold c2' in X1, X2, X3, X4, X5. cbn [psi alpha beta sig ns] in X1, X2, X3, X4, X5.
              split; [congruence|]. split; [congruence|]. split; [congruence|]. split; [congruence|]. split; [congruence|].
              rewrite E. replace (cc + 1 - 1) with cc by lia. split; [exact I3|]. split.
              + unfold c2' in HW. cbn [ns] in HW. rewrite Y8, Z9, E in HW. exact HW.
              + destruct L3; constructor; assumption. }
          destruct HUP as (c3 & E3 & X). exists c3. rewrite E3. split; [reflexivity|exact X].
        + destruct (co_update_ok kmax c1 k kold cc I1 A1) as (c3 & E3 & X1 & X2 & X3 & X4 & X5 & X6 & I3 & HW & L3); [rewrite Z9; exact E|rewrite Z9; exact Hle|lia|].
          exists c3. rewrite E3. split; [reflexivity|]. do 4 (split; [assumption|]). split; [congruence|]. rewrite E. replace (cc + 1 - 1) with cc by lia. split; [exact I3|]. split; [|exact L3].
          rewrite Z9, E in HW. exact HW. }
    destruct MID as (c2 & -> & Y1 & Y2 & Y3 & Y4 & Y5 & I2 & HW & L2).
    pose proof (ci_alpha _ _ _ I2) as AL. cbn [alpha] in AL.
    destruct (co_g_ok kmax k (fun j => cell (alpha c2) j) (sl (alpha c2) n k) n (ww c2) (gg c2)) as (w' & g' & EG & Lw' & Lg' & G1 & G2 & G3 & G4).
    + apply L2.
    + apply L2.
    + exact (proj2 Hk).
    + exact Hn.
    + rewrite len_sl by (rewrite (len_alpha _ _ L2); lia). lia.
    + intros l Hl. rewrite len_sl in Hl by (rewrite (len_alpha _ _ L2); lia). rewrite nth_sl by lia. reflexivity.
    + intros j Hj. rewrite HW by exact Hj. symmetry. apply (W_alpha c2 n); [exact AL|lia].
    + rewrite EG. eexists. split; [reflexivity|].
      assert (GG : forall i, i <= k -> cell g' i = gref (fun j => cell (alpha c2) j) i).
      { intros i Hi. destruct (Nat.le_gt_cases i n) as [H|H].
        - rewrite G1 by exact H. pose proof (ci_g _ _ _ I2) as GI. cbn [gg] in GI. rewrite GI by exact H. symmetry. apply (gref_alpha c2 n); [exact AL|exact H].
        - rewrite G2 by lia. destruct i as [|[|i]]; [lia|lia|]. reflexivity. }
      cbn [ns]. split; [|split; [exact Y5|]].
      * constructor; cbn [psi alpha beta sig gg iv kprev ns vv ww gi ivc kgi].
        -- split; [|cbn [gg]; split; rewrite GG by lia; reflexivity]. destruct L2; constructor; cbn [psi alpha beta sig gg iv kprev ns vv ww gi ivc kgi]; assumption.
        -- exists n. split; [|left; lia]. destruct I2. constructor; cbn [psi alpha beta sig gg iv kprev ns vv ww gi ivc kgi] in *; try assumption.
           ++ destruct L2; constructor; cbn [psi alpha beta sig gg iv kprev ns vv ww gi ivc kgi]; assumption.
           ++ intros i Hi. rewrite GG by lia. apply (gref_alpha c2 n); [exact AL|exact Hi].
           ++ intros q i Hq Hs1 Hs2 Hi Hlo. destruct (Nat.eq_dec i (k - n)) as [Ei|Hne]; [|rewrite G4 by lia; apply (ci_w0 q i Hq Hs1 Hs2 Hi Hlo)].
              rewrite G3 by lia. rewrite (W_alpha c2 n) by (try exact AL; lia). rewrite <- (ci_w0 q i Hq Hs1 Hs2 Hi Hlo). rewrite HW by lia. f_equal. lia.
        -- exact GG.
        -- intros _. split; [reflexivity|]. intros i Hi Hs. destruct (Nat.le_gt_cases i (k - n)) as [H|H]; [apply G3; exact H|].
           assert (S2 : 0 = ivc c2 \/ i + 1 < nth (ivc c2 - 0 - 1) (iv c2) 0) by (rewrite Nat.sub_0_r; destruct Hs as [Hs|Hs]; [left; auto|right; exact Hs]).
           rewrite G4 by lia. pose proof (ci_w _ _ _ I2 0 i) as X1. pose proof (ci_v _ _ _ I2 0 i) as X2. cbn [psi alpha beta sig gg iv kprev ns vv ww gi ivc kgi] in X1, X2.
           rewrite X1 by (try exact S2; lia). rewrite X2 by (try exact S2; lia). rewrite (W_alpha c2 n) by (try exact AL; lia). f_equal. lia.
      * unfold arrays_of. cbn [ns psi alpha beta sig]. rewrite Y5. replace (n <=? k) with true by (symmetry; apply Nat.leb_le; exact Hle). exists c1. split; [exact S1|]. auto.
  - eexists. split; [reflexivity|]. cbn [ns with_ns]. destruct HC as [HC|(H1 & H2 & cc & I & E & HC)]; [lia|].
    assert (In : coinv kmax (with_ns c n) cc) by (destruct I; constructor; try assumption; destruct ci_len0; constructor; assumption).
    split; [|split; [reflexivity|]].
    + constructor.
      * exact HBn.
      * exists cc. split; [exact In|]. right. cbn [ns with_ns kprev]. destruct I. lia.
      * intros i Hi. cbn [gg alpha with_ns]. rewrite (ci_g _ _ _ I) by lia. symmetry. apply (gref_alpha c cc); [apply (ci_alpha _ _ _ I)|lia].
      * cbn [kgi kprev ivc iv ww alpha with_ns]. intros Hlt. pose proof (ci_kgi _ _ _ I) as (K1 & K2 & K3 & K4). pose proof (ci_cc _ _ _ I) as Kc.
        assert (Ek : kprev c = k) by lia. split; [exact Ek|]. intros i Hi Hs.
        assert (S2 : 0 = ivc c \/ i + 1 < nth (ivc c - 0 - 1) (iv c) 0) by (rewrite Nat.sub_0_r; destruct Hs as [Hs|Hs]; [left; auto|right; exact Hs]).
        rewrite (ci_w _ _ _ I 0 i) by (try exact S2; lia). rewrite (ci_v _ _ _ I 0 i) by (try exact S2; lia). rewrite (W_alpha c cc) by (try apply (ci_alpha _ _ _ I); lia). f_equal. lia.
    + unfold arrays_of. cbn [ns psi alpha beta sig with_ns]. replace (n <=? k) with false by (symmetry; apply Nat.leb_gt; exact Hgt). auto.
Qed.
End Co.
