(** Lemmas on the checked array operations of Swag.v. *)
From Coq Require Import String ZArith QArith Bool Lia List Arith.
From Verif Require Import Arith Common Swag.
Import ListNotations.
Open Scope nat_scope.

Section Arr.
Context {X : Type} (d : X).
Definition upd (l : list X) (i : nat) (x : X) : list X := firstn i l ++ x :: skipn (S i) l.
Definition upds (l : list X) (a : nat) (v : list X) : list X := firstn a l ++ v ++ skipn (a + length v) l.

Lemma aget_ok l i : i < length l -> aget l i = inl (nth i l d).
Proof. intros H. unfold aget. rewrite (nth_error_nth' l d H). reflexivity. Qed.
Lemma aset_ok l i x : i < length l -> aset l i x = inl (upd l i x).
Proof. intros H. unfold aset. apply Nat.ltb_lt in H. rewrite H. reflexivity. Qed.
Lemma len_upd l i x : i < length l -> length (upd l i x) = length l.
Proof. intros H. unfold upd. rewrite app_length, firstn_length. cbn [length]. rewrite skipn_length. lia. Qed.
Lemma nth_firstn_lt (l : list X) n i : i < n -> nth i (firstn n l) d = nth i l d.
Proof. revert n i. induction l as [|a l IH]; intros [|n] [|i] H; cbn; try lia; auto. apply IH. lia. Qed.
Lemma nth_skipn_add (l : list X) n i : nth i (skipn n l) d = nth (n + i) l d.
Proof. revert n. induction l as [|a l IH]; intros [|n]; cbn; auto. destruct i; reflexivity. Qed.
Lemma nth_upd l i x j : i < length l -> nth j (upd l i x) d = if j =? i then x else nth j l d.
Proof.
  intros H. unfold upd. destruct (Nat.eqb_spec j i) as [->|Hn].
  - rewrite app_nth2 by (rewrite firstn_length; lia). rewrite firstn_length. replace (i - Nat.min i (length l)) with 0 by lia. reflexivity.
  - destruct (Nat.lt_ge_cases j i) as [H1|H1].
    + rewrite app_nth1 by (rewrite firstn_length; lia). apply nth_firstn_lt. exact H1.
    + rewrite app_nth2 by (rewrite firstn_length; lia). rewrite firstn_length. replace (j - Nat.min i (length l)) with (S (j - i - 1)) by lia.
      cbn [nth]. rewrite nth_skipn_add. f_equal. lia.
Qed.
Lemma len_sl (l : list X) a b : b <= length l -> length (sl l a b) = b - a.
Proof. intros H. unfold sl. rewrite firstn_length, skipn_length. lia. Qed.
Lemma nth_sl (l : list X) a b j : j < b - a -> nth j (sl l a b) d = nth (a + j) l d.
Proof. intros H. unfold sl. rewrite nth_firstn_lt by exact H. apply nth_skipn_add. Qed.
Lemma set_sl_ok l a b v : a <= b -> b <= length l -> length v = b - a -> set_sl l a b v = inl (upds l a v).
Proof. intros H1 H2 H3. unfold set_sl. rewrite (len_sl l a b H2), H3, Nat.eqb_refl. unfold upds. rewrite H3. reflexivity. Qed.
Lemma len_upds l a v : a + length v <= length l -> length (upds l a v) = length l.
Proof. intros H. unfold upds. rewrite !app_length, firstn_length, skipn_length. lia. Qed.
Lemma nth_upds l a v j : a + length v <= length l -> nth j (upds l a v) d = if (a <=? j) && (j <? a + length v) then nth (j - a) v d else nth j l d.
Proof.
  intros H. unfold upds. destruct (Nat.leb_spec a j) as [H1|H1]; cbn [andb].
  - rewrite app_nth2 by (rewrite firstn_length; lia). rewrite firstn_length. replace (Nat.min a (length l)) with a by lia.
    destruct (Nat.ltb_spec j (a + length v)) as [H2|H2].
    + apply app_nth1. lia.
    + rewrite app_nth2 by lia. rewrite nth_skipn_add. f_equal. lia.
  - rewrite app_nth1 by (rewrite firstn_length; lia). apply nth_firstn_lt. exact H1.
Qed.
Lemma upds_nil l a : upds l a [] = l.
Proof. unfold upds. cbn [app length]. rewrite Nat.add_0_r. apply firstn_skipn. Qed.
Lemma aset_inv l i x l' : aset l i x = inl l' -> i < length l /\ l' = upd l i x.
Proof. unfold aset. destruct (Nat.ltb_spec i (length l)); intros E; [injection E as <-; auto|discriminate]. Qed.
Lemma aget_inv l i x : aget l i = inl x -> i < length l /\ x = nth i l d.
Proof. unfold aget. destruct (nth_error l i) eqn:E; intros H; [injection H as <-|discriminate]. split; [apply nth_error_Some; congruence|]. symmetry. apply nth_error_nth. exact E. Qed.
End Arr.

Lemma bop_ok {X Y Z} (op : X -> Y -> Z) a b : length a = length b -> bop op a b = inl (map2 op a b).
Proof. intros H. unfold bop. rewrite H, Nat.eqb_refl. reflexivity. Qed.
Lemma len_map2 {X Y Z} (op : X -> Y -> Z) a b : length a = length b -> length (map2 op a b) = length a.
Proof. revert b. induction a as [|x a IH]; intros [|z b] H; cbn in *; try discriminate; auto. Qed.
Lemma nth_map2 {X Y Z} (op : X -> Y -> Z) a b dx dy dz j : j < length a -> j < length b -> nth j (map2 op a b) dz = op (nth j a dx) (nth j b dy).
Proof. revert b j. induction a as [|x a IH]; intros [|z b] [|j] H1 H2; cbn in *; try lia; auto. apply IH; lia. Qed.
Lemma nth_map' {X Y} (g : X -> Y) l dx dy j : j < length l -> nth j (map g l) dy = g (nth j l dx).
Proof. revert j. induction l as [|x l IH]; intros [|j] H; cbn in *; try lia; auto. apply IH; lia. Qed.
Lemma len_scan {X} (op : X -> X -> X) acc l : length (scan op acc l) = length l.
Proof. revert acc. induction l; intros; cbn; auto. Qed.
Lemma len_cumul {X} (op : X -> X -> X) l : length (cumul op l) = length l.
Proof. destruct l; cbn; [reflexivity|]. rewrite len_scan. reflexivity. Qed.
Lemma nth_scan_S {X} (op : X -> X -> X) (d : X) acc l j : S j < length l -> nth (S j) (scan op acc l) d = op (nth j (scan op acc l) d) (nth (S j) l d).
Proof.
  revert acc j. induction l as [|x l IH]; intros acc j H; cbn in H; [lia|]. cbn [scan nth].
  destruct l as [|x2 l]; [cbn in H; lia|]. destruct j as [|j]; [reflexivity|]. cbn [nth] in IH |- *. apply (IH (op acc x) j). cbn in *. lia.
Qed.
Lemma nth_cumul_0 {X} (op : X -> X -> X) (d : X) l : nth 0 (cumul op l) d = nth 0 l d.
Proof. destruct l; reflexivity. Qed.
Lemma nth_cumul_S {X} (op : X -> X -> X) (d : X) l j : S j < length l -> nth (S j) (cumul op l) d = op (nth j (cumul op l) d) (nth (S j) l d).
Proof.
  destruct l as [|x l]; intros H; cbn in H; [lia|]. cbn [cumul nth]. destruct j as [|j].
  - destruct l as [|x2 l]; [cbn in H; lia|]. reflexivity.
  - rewrite nth_scan_S by lia. reflexivity.
Qed.
