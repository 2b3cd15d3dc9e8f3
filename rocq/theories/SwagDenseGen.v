(** Dense output of SWAG for every arithmetic: no exception, and the table entry that the
    stored coefficients give. *)
From Coq Require Import String ZArith QArith Bool Lia List Arith.
From Verif Require Import Arith Common Stiff RK HStart RKInit Ode Swag SwagArr SwagCo SwagGen SwagDense.
Import ListNotations.
Open Scope nat_scope.

Section Gen.
Context {A : Arith}.
Notation num := (num A).
Notation vec := (list num).
Notation cell l i := (nth i l (@n0 A)).

Lemma gdi_loop_inv (P : nat -> num -> Prop) kmax k al w cnt : forall i g, cnt + i = k -> 1 <= i -> k <= kmax -> length al = kmax -> length w = kmax ->
  (forall j x, i <= j < k -> P j x -> P (S j) (nadd A (nmul A x (nopp A (cell al j))) (cell w (k - j)))) -> P i g ->
  exists r, gdi_loop cnt i k al w g = inl r /\ P k r.
Proof.
  induction cnt as [|cnt IH]; intros i g Hc Hi Hk La Lw HS HP.
  - exists g. split; [reflexivity|]. replace k with i by lia. exact HP.
  - cbn [gdi_loop]. rewrite (aget_ok n0 al) by lia. replace (k <? i) with false by (symmetry; apply Nat.ltb_ge; lia). rewrite (aget_ok n0 w) by lia.
    apply IH; try assumption; try lia; [intros j x Hj; apply HS; lia|]. apply HS; [lia|exact HP].
Qed.

(** the entry of row i - 1, column k + 1 - i of the table; in the last pass row k - 1, column 1 *)
Lemma swag_gdi_inv (P : nat -> num -> Prop) kmax c k : codone kmax c k -> 1 <= k <= kmax ->
  (forall i, 1 <= i <= k -> P i (W (fun j => cell (alpha c) j) (i - 1) (k + 1 - i))) ->
  (forall i x, 1 <= i < k -> P i x -> P (S i) (nadd A (nmul A x (nopp A (cell (alpha c) i))) (W (fun j => cell (alpha c) j) (i - 1) (k - i)))) ->
  exists r, swag_gdi kmax c k = inl r /\ P k r.
Proof.
  intros [(L & _) (cc & I & HN) _ HW] Hk HP HS. unfold swag_gdi. destruct (Nat.leb_spec k (kgi c)) as [Hg|Hg].
  - pose proof (ci_kgi _ _ _ I) as (K1 & _ & _ & K4). rewrite (aget_ok n0 (gi c)) by (rewrite (len_gi _ _ L); lia). eexists. split; [reflexivity|].
    rewrite (ci_gi _ _ _ I) by lia. rewrite <- (W_alpha c cc) by (try apply (ci_alpha _ _ _ I); lia). specialize (HP k ltac:(lia)). replace (k + 1 - k) with 1 in HP by lia. exact HP.
  - destruct (HW Hg) as (Ek & HW'). pose proof (len_alpha _ _ L) as La. pose proof (len_w _ _ L) as Lw.
    destruct (Nat.eqb_spec (ivc c) 0) as [E0|N0].
    + rewrite (aget_ok n0 (sw_iqq kmax)) by (rewrite iqq_len; lia). rewrite iqq_cell by lia. apply (gdi_loop_inv P kmax); try lia.
      * intros j x Hj Hx. rewrite HW' by (try (left; exact E0); lia). replace (k - 1 - (k - j)) with (j - 1) by lia. apply HS; [lia|exact Hx].
      * specialize (HP 1 ltac:(lia)). replace (k + 1 - 1) with k in HP by lia. exact HP.
    + pose proof (ci_k _ _ _ I) as Hkm. pose proof (ci_cc _ _ _ I) as Hcc. destruct (ci_iv _ _ _ I) as (nj & HJ). destruct (HJ (ivc c - 1) ltac:(lia)) as (J1 & J2 & J3 & _). rewrite (aget_ok 0 (iv c)) by (rewrite (len_iv _ _ L); lia).
      set (iw := nth (ivc c - 1) (iv c) 0) in *.
      assert (Hiw : iw = k + 3 - nj (ivc c - 1) /\ 2 <= nj (ivc c - 1) <= cc /\ nj (ivc c - 1) <= k) by lia. destruct Hiw as (Hiw & Hn1 & Hn2).
      replace (iw =? 0) with false by (symmetry; apply Nat.eqb_neq; lia). replace (k + 2 <? iw) with false by (symmetry; apply Nat.ltb_ge; lia). cbn [orb].
      rewrite (aget_ok n0 (ww c)) by lia.
      assert (S1 : 1 = 0 \/ nth (ivc c - 1) (iv c) 0 <= iw - 1 + 1) by (right; fold iw; lia).
      assert (S2 : 1 = ivc c \/ iw - 1 + 1 < nth (ivc c - 1 - 1) (iv c) 0).
      { destruct (Nat.eq_dec (ivc c) 1) as [E1|N1]; [left; auto|right]. destruct (HJ (ivc c - 1 - 1) ltac:(lia)) as (Q1 & Q2 & Q3 & Q4). specialize (Q4 (ivc c - 1) ltac:(lia)). rewrite Q1. lia. }
      assert (EW : cell (ww c) (iw - 1) = W (fun j => cell (alpha c) j) (k + 2 - iw - 1) (k + 1 - (k + 2 - iw))).
      { rewrite (ci_w _ _ _ I 1 (iw - 1)) by (try exact S1; try exact S2; lia). rewrite (ci_v _ _ _ I 1 (iw - 1)) by (try exact S1; try exact S2; lia).
        replace (Nat.min (cc - 1) (kprev c - 1 + 1 - (iw - 1))) with (k + 2 - iw - 1) by lia. replace (k + 1 - (k + 2 - iw)) with (iw - 1) by lia. symmetry. apply (W_alpha c cc); [apply (ci_alpha _ _ _ I)|lia]. }
      rewrite EW. apply (gdi_loop_inv P kmax); try lia.
      * intros j x Hj Hx. assert (S3 : ivc c = 0 \/ k - j + 1 < nth (ivc c - 1) (iv c) 0) by (right; fold iw; lia).
        rewrite HW' by (try exact S3; lia). replace (k - 1 - (k - j)) with (j - 1) by lia. apply HS; [lia|exact Hx].
      * apply HP. lia.
Qed.

(** after an accepted step *)
Record dense_ready (kmax : nat) (s : SSt A) : Prop := {
  dr_k : 1 <= s_kold s <= kmax; dr_phi : length (s_phi s) = kmax + 2; dr_co : codone kmax (s_co s) (s_kold s) }.

Lemma diff0_len (l : vec) : length (diff0 l) = length l.
Proof. unfold diff0. assert (H : forall (l m : vec), length l <= length m -> length (map2 (nsub A) l m) = length l) by (intros a; induction a as [|x a IH]; intros [|y b] H; cbn in *; try lia; rewrite IH; lia). apply H. cbn. lia. Qed.
Lemma diff0_nth (l : vec) i : i < length l -> cell (diff0 l) i = nsub A (cell l i) (match i with O => n0 | S j => cell l j end).
Proof.
  unfold diff0. intros H. rewrite (nth_map2 _ _ _ n0 n0) by (cbn [length]; lia). destruct i; reflexivity.
Qed.

Lemma dense_impl_ok kmax told s : dense_ready kmax s -> exists D, swag_dense_impl kmax told s = inl (SDSwag D) /\ swag_gdi kmax (s_co s) (s_kold s) = inl (sd_gdi D) /\
  sd_told D = told /\ sd_t D = s_t s /\ sd_y D = s_y s /\ sd_oy D = s_yold s /\ sd_kold D = s_kold s /\ sd_phi D = sl (s_phi s) 0 (s_kold s + 1) /\ sd_alpha D = sl (alpha (s_co s)) 1 (s_kold s) /\
  sd_gdif D = diff0 (sl (gg (s_co s)) 0 (s_kold s + 1)) /\ sd_iqq D = sl (sw_iqq kmax) 0 (s_kold s + 1).
Proof.
  intros [Hk Lp C]. unfold swag_dense_impl. destruct (Nat.eqb_spec (s_kold s) 0); [lia|].
  destruct (swag_gdi_inv (fun _ _ => True) kmax (s_co s) (s_kold s) C Hk (fun _ _ => I) (fun _ _ _ _ => I)) as (r & E & _). rewrite E. eexists. split; [reflexivity|]. cbn. repeat split.
Qed.

(** the loop: w[j] goes through the rows, g collects the heads *)
Fixpoint Wx (al : nat -> num) (xim1 : num) (w0 : nat -> num) (l i : nat) : num :=
  match l with O => w0 i | S l' => nsub A (nmul A (nadd A n1 (nmul A xim1 (al (S l')))) (Wx al xim1 w0 l' i)) (nmul A (al (S l')) (Wx al xim1 w0 l' (i + 1))) end.
Lemma sd_loop_ok al xim1 w0 k alps : forall i w g, length w = k + 1 -> length g = k + 1 -> i + length alps + 1 = k ->
  (forall l, l < length alps -> cell alps l = al (S (i + l))) -> (forall j, j <= k - i -> cell w j = Wx al xim1 w0 i j) ->
  exists w' g', sd_loop k i alps xim1 w g = inl (w', g') /\ length w' = k + 1 /\ length g' = k + 1 /\
    (forall j, j <= 1 -> cell w' j = Wx al xim1 w0 (k - 1) j) /\
    (forall j, j <= i + 1 -> cell g' j = cell g j) /\ (forall j, i + 2 <= j <= k -> cell g' j = Wx al xim1 w0 (j - 1) 0).
Proof.
  induction alps as [|alp alps IH]; intros i w g Lw Lg Hi Ha Hw.
  - cbn [length] in Hi. exists w, g. cbn [sd_loop]. split; [reflexivity|]. do 2 (split; [assumption|]). split; [|split; [auto|intros; lia]]. intros j Hj. rewrite Hw by lia. f_equal. lia.
  - cbn [length] in Hi. cbn [sd_loop]. assert (EA : alp = al (S i)) by (pose proof (Ha 0 ltac:(cbn; lia)) as Q; cbn [nth] in Q; rewrite Q; f_equal; lia).
    rewrite bop_ok by (rewrite !map_length, !len_sl; lia). set (d := map2 _ _ _). assert (Ld : length d = k - i) by (unfold d; rewrite len_map2; rewrite ?map_length, ?len_sl; lia).
    rewrite (set_sl_ok w) by lia. rewrite (aget_ok n0) by (rewrite len_upds; lia). rewrite (aset_ok g) by lia.
    assert (Ew : forall j, j <= k - S i -> cell (upds w 0 d) j = Wx al xim1 w0 (S i) j).
    { intros j Hj. rewrite nth_upds by lia. replace (0 <=? j) with true by reflexivity. replace (j <? 0 + length d) with true by (symmetry; apply Nat.ltb_lt; lia). cbn [andb]. rewrite Nat.sub_0_r.
      unfold d. rewrite (nth_map2 _ _ _ n0 n0) by (rewrite ?map_length, ?len_sl; lia). rewrite !(nth_map' _ _ n0) by (rewrite ?len_sl; lia). rewrite !nth_sl by lia. cbn [Wx]. rewrite EA. cbn [Nat.add]. rewrite !Hw by lia. replace (S j) with (j + 1) by lia. reflexivity. }
    destruct (IH (S i) (upds w 0 d) (upd g (i + 2) (cell (upds w 0 d) 0))) as (w' & g' & E & L1 & L2 & P1 & P2 & P3).
    + rewrite len_upds; lia.
    + rewrite len_upd; lia.
    + lia.
    + intros l Hl. pose proof (Ha (S l) ltac:(cbn [length]; lia)) as Q. cbn [nth] in Q. rewrite Q. f_equal. lia.
    + exact Ew.
    + exists w', g'. split; [exact E|]. do 2 (split; [assumption|]). split; [exact P1|]. split.
      * intros j Hj. rewrite P2 by lia. rewrite nth_upd by lia. replace (j =? i + 2) with false by (symmetry; apply Nat.eqb_neq; lia). reflexivity.
      * intros j Hj. destruct (Nat.eq_dec j (i + 2)) as [->|Hn]; [|apply P3; lia]. rewrite P2 by lia. rewrite nth_upd by lia. rewrite Nat.eqb_refl. rewrite Ew by lia. f_equal. lia.
Qed.

(** row 0 at xi *)
Fixpoint npw (x : num) (i : nat) : num := match i with O => x | S j => nmul A (npw x j) x end.
Lemma cumul_repeat x n i : i < n -> cell (cumul (nmul A) (repeat x n)) i = npw x i.
Proof.
  assert (R : forall m i, i < m -> nth i (repeat x m) n0 = x) by (induction m as [|m IHm]; intros [|j] Hj; cbn; try lia; auto; apply IHm; lia).
  intros H. induction i as [|i IH]; [rewrite nth_cumul_0; cbn [npw]; apply R; lia|]. rewrite nth_cumul_S by (rewrite repeat_length; lia). rewrite IH by lia. rewrite R by lia. reflexivity.
Qed.
Definition row0 (xi : num) (i : nat) : num := nmul A xi (nmul A (npw xi i) (iqq i)).
Definition gx (al : nat -> num) (xi : num) (i : nat) : num :=
  match i with O => xi | S O => nmul A (nmul A (lit (1#2)) xi) xi | S l => Wx al (nsub A xi n1) (row0 xi) l 0 end.

Record sdat_ok (D : SDat A) (al : nat -> num) : Prop := {
  sk_k : 1 <= sd_kold D;
  sk_phi : length (sd_phi D) = sd_kold D + 1; sk_alpha : length (sd_alpha D) = sd_kold D - 1; sk_gdif : length (sd_gdif D) = sd_kold D + 1; sk_iqq : length (sd_iqq D) = sd_kold D + 1;
  sk_al : forall l, l < sd_kold D - 1 -> cell (sd_alpha D) l = al (S l);
  sk_q : forall i, i <= sd_kold D -> cell (sd_iqq D) i = iqq i }.

Lemma sd_point_ok D al g x : sdat_ok D al -> length g = sd_kold D + 1 ->
  let k := sd_kold D in let h := nsub A (sd_t D) (sd_told D) in let xi := ndiv A (nsub A x (sd_told D)) h in
  let sigma := ndiv A (nsub A (Wx al (nsub A xi n1) (row0 xi) (k - 1) 1) (nmul A (nsub A xi n1) (Wx al (nsub A xi n1) (row0 xi) (k - 1) 0))) (sd_gdi D) in
  let cf := map (fun i => nsub A (nsub A (gx al xi i) (match i with O => n0 | S j => gx al xi j end)) (nmul A sigma (cell (sd_gdif D) i))) (seq 0 (k + 1)) in
  exists g', length g' = k + 1 /\
    sd_point D g x = inl (vadd (vscale h (lincomb (length (sd_y D)) cf (sd_phi D))) (vadd (vscale sigma (sd_y D)) (vscale (nsub A n1 sigma) (sd_oy D))), g').
Proof.
  intros [Hk Lp La Lg Lq Ha Hq] Lw. cbv zeta. unfold sd_point. set (k := sd_kold D) in *. set (h := nsub A (sd_t D) (sd_told D)). set (xi := ndiv A (nsub A x (sd_told D)) h).
  rewrite bop_ok by (rewrite len_cumul, repeat_length; lia). set (w := map _ (map2 _ _ _)). rewrite (aset_ok g) by lia. rewrite aset_ok by (rewrite len_upd; lia).
  assert (Lw0 : length w = k + 1) by (unfold w; rewrite map_length, len_map2; rewrite len_cumul, repeat_length; lia).
  assert (Ew : forall j, j <= k -> cell w j = row0 xi j).
  { intros j Hj. unfold w. rewrite (nth_map' _ _ n0) by (rewrite len_map2; rewrite len_cumul, repeat_length; lia). rewrite (nth_map2 _ _ _ n0 n0) by (rewrite ?len_cumul, ?repeat_length; lia). rewrite cumul_repeat by lia. rewrite Hq by lia. reflexivity. }
  destruct (sd_loop_ok al (nsub A xi n1) (row0 xi) k (sd_alpha D) 0 w (upd (upd g 0 xi) 1 (nmul A (nmul A (lit (1#2)) xi) xi))) as (w' & g' & E & L1 & L2 & P1 & P2 & P3).
  - exact Lw0.
  - rewrite !len_upd; try lia. rewrite len_upd; lia.
  - rewrite La. lia.
  - intros l Hl. rewrite La in Hl. rewrite Ha by lia. reflexivity.
  - intros j Hj. cbn [Wx]. apply Ew. lia.
  - rewrite E. rewrite (aget_ok n0 w' 1) by lia. rewrite (aget_ok n0 w' 0) by lia. rewrite !P1 by lia.
    set (sigma := ndiv A _ (sd_gdi D)).
    assert (Lgd : length (diff0 g') = k + 1) by (rewrite diff0_len; exact L2).
    assert (Gj : forall j, j <= k -> cell g' j = gx al xi j).
    { intros j Hj. destruct j as [|[|j]].
      - rewrite P2 by lia. rewrite nth_upd by (rewrite len_upd; lia). cbn [Nat.eqb]. rewrite nth_upd by lia. reflexivity.
      - rewrite P2 by lia. rewrite nth_upd by (rewrite len_upd; lia). reflexivity.
      - rewrite P3 by lia. cbn [gx]. f_equal. }
    rewrite bop_ok by (rewrite map_length; lia). rewrite bop_ok by (rewrite len_map2; rewrite ?map_length; lia).
    match goal with |- context [lincomb _ ?cf0 _] => set (cf' := cf0) end.
    match goal with |- context [lincomb _ (map ?ff (seq 0 (k + 1))) _] => set (cf := map ff (seq 0 (k + 1))) end.
    assert (EC : cf' = cf).
    { unfold cf', cf. apply (nth_ext _ _ n0 n0); [rewrite len_map2; rewrite ?map_length, ?seq_length; lia|]. intros j Hj. rewrite len_map2 in Hj by (rewrite map_length; lia).
      rewrite (nth_map2 _ _ _ n0 n0) by (rewrite ?map_length; lia). rewrite !(nth_map' _ _ n0) by lia. rewrite (nth_map' _ _ 0) by (rewrite seq_length; lia). rewrite seq_nth by lia. cbn [Nat.add].
      rewrite diff0_nth by lia. rewrite Gj by lia. destruct j as [|j]; [reflexivity|]. rewrite Gj by lia. reflexivity. }
    rewrite EC. exists (diff0 g'). split; [exact Lgd|reflexivity].
Qed.

Lemma sdat_ready kmax told s D : dense_ready kmax s -> swag_dense_impl kmax told s = inl (SDSwag D) -> sdat_ok D (fun j => cell (alpha (s_co s)) j).
Proof.
  intros R E. destruct (dense_impl_ok kmax told s R) as (D' & E' & _ & _ & _ & _ & _ & K & P & Al & G & Q). rewrite E in E'. injection E' as <-. destruct R as [Hk Lp C]. destruct (cd_base _ _ _ C) as (L & _).
  constructor; rewrite ?K, ?P, ?Al, ?G, ?Q, ?diff0_len, ?len_sl; rewrite ?(len_g _ _ L), ?(len_alpha _ _ L), ?iqq_len; try lia.
  - intros l Hl. rewrite nth_sl by lia. reflexivity.
  - intros i Hi. rewrite nth_sl by lia. cbn [Nat.add]. apply iqq_cell. lia.
Qed.

(** no exception *)
Lemma sd_points_ok D al xs : sdat_ok D al -> forall g, length g = sd_kold D + 1 -> exists ys, sd_points D g xs = inl ys /\ length ys = length xs.
Proof.
  intros K. induction xs as [|x xs IH]; intros g Lg; [exists []; split; reflexivity|]. cbn [sd_points]. destruct (sd_point_ok D al g x K Lg) as (g' & Lg' & ->). destruct (IH g' Lg') as (ys & -> & L). eexists. split; [reflexivity|]. cbn [length]. lia.
Qed.
End Gen.
