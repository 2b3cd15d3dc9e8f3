(** Layout of the combined system of sens_forward, for any arithmetic. *)
From Coq Require Import String ZArith QArith Bool List Lia Arith.
From Verif Require Import Arith Common Sens.
Import ListNotations.
Close Scope string_scope. Open Scope nat_scope.

Section G.
Context {A : Arith}.
Notation num := (num A).
Notation vec := (list num).
Notation mat := (list (list num)).

Lemma len_concat {X} n (ss : list (list X)) : Forall (fun s => length s = n) ss -> length (concat ss) = length ss * n.
Proof. induction 1 as [|s ss H HF IH]; [reflexivity|]. cbn. rewrite app_length, H, IH. reflexivity. Qed.
Lemma nth_concat {X} n (ss : list (list X)) d : Forall (fun s => length s = n) ss -> forall j i, i < n -> nth (j * n + i) (concat ss) d = nth i (nth j ss []) d.
Proof.
  induction 1 as [|s ss H HF IH]; intros j i Hi.
  - cbn [concat]. destruct j; cbn [nth]; destruct i; try reflexivity; destruct (_ + _); reflexivity.
  - cbn [concat]. destruct j as [|j].
    + cbn [Nat.mul Nat.add nth]. apply app_nth1. lia.
    + cbn [nth]. rewrite app_nth2 by lia. rewrite <- (IH j i Hi). f_equal. lia.
Qed.
Lemma nth_seqmap {X} (f : nat -> X) n q (d0 : X) : q < n -> nth q (map f (seq 0 n)) d0 = f q.
Proof. intros H. rewrite (nth_indep _ d0 (f 0)) by (rewrite map_length, seq_length; exact H). rewrite map_nth, seq_nth by exact H. reflexivity. Qed.
Lemma nth_mapd {X Y} (f : X -> Y) l q dx dy : q < length l -> nth q (map f l) dy = f (nth q l dx).
Proof. intros H. rewrite (nth_indep _ dy (f dx)) by (rewrite map_length; exact H). apply map_nth. Qed.
Lemma len_col j (M : mat) : length (col j M) = length M.
Proof. apply map_length. Qed.
Lemma nth_col j (M : mat) i : i < length M -> nth i (col j M) n0 = nth j (nth i M []) n0.
Proof. intros H. unfold col. rewrite (nth_mapd _ _ _ []) by exact H. reflexivity. Qed.

(** the columns, one after the other *)
Lemma flattenF_cols n m (M : mat) : length M = n -> flattenF n m M = concat (map (fun j => col j M) (seq 0 m)).
Proof.
  intros L. assert (HF : Forall (fun s : vec => length s = n) (map (fun j => col j M) (seq 0 m))).
  { apply Forall_forall. intros s Hs. apply in_map_iff in Hs. destruct Hs as (j & <- & _). rewrite len_col. exact L. }
  assert (LC : length (concat (map (fun j => col j M) (seq 0 m))) = n * m) by (rewrite (len_concat n) by exact HF; rewrite map_length, seq_length; lia).
  apply (nth_ext _ _ n0 n0).
  - unfold flattenF. rewrite map_length, seq_length, LC. reflexivity.
  - unfold flattenF. rewrite map_length, seq_length. intros k Hk. rewrite nth_seqmap by exact Hk. assert (Hn : n <> 0) by lia.
    pose proof (Nat.div_mod k n Hn) as E. pose proof (Nat.mod_upper_bound k n Hn) as B. assert (Hq : k / n < m) by (apply Nat.div_lt_upper_bound; lia).
    transitivity (nth (k mod n) (nth (k / n) (map (fun j => col j M) (seq 0 m)) []) n0).
    + rewrite nth_seqmap by exact Hq. rewrite nth_col by lia. reflexivity.
    + rewrite <- (nth_concat n _ n0 HF) by exact B. f_equal. lia.
Qed.
Lemma reshapeF_col n m (ss : mat) j : length ss = m -> Forall (fun s => length s = n) ss -> j < m -> col j (reshapeF n m (concat ss)) = nth j ss [].
Proof.
  intros L HF Hj. assert (Lj : length (nth j ss []) = n). { rewrite Forall_forall in HF. apply HF, nth_In. lia. }
  apply (nth_ext _ _ n0 n0).
  - rewrite len_col. unfold reshapeF. rewrite map_length, seq_length, Lj. reflexivity.
  - rewrite len_col. unfold reshapeF. rewrite map_length, seq_length. intros i Hi. rewrite nth_col by (rewrite map_length, seq_length; exact Hi). rewrite nth_seqmap by exact Hi. rewrite nth_seqmap by exact Hj. apply nth_concat; assumption.
Qed.
Lemma reshapeF_shape n m (v : vec) : length (reshapeF n m v) = n /\ Forall (fun r => length r = m) (reshapeF n m v).
Proof.
  unfold reshapeF. rewrite map_length, seq_length. split; [reflexivity|]. apply Forall_forall. intros r Hr. apply in_map_iff in Hr. destruct Hr as (i & <- & _). rewrite map_length, seq_length. reflexivity.
Qed.
Lemma map2_nth' {P Q S} (f : P -> Q -> S) dp dq ds : forall u v i, i < length u -> i < length v -> nth i (map2 f u v) ds = f (nth i u dp) (nth i v dq).
Proof. induction u as [|a u IH]; intros [|b v] i Hu Hv; cbn in Hu, Hv; try lia. destruct i; [reflexivity|]. cbn [map2 nth]. apply IH; lia. Qed.
Lemma map2_len' {P Q S} (f : P -> Q -> S) : forall u v, length (map2 f u v) = Nat.min (length u) (length v).
Proof. induction u as [|a u IH]; intros [|b v]; try reflexivity. cbn. rewrite IH. reflexivity. Qed.

Definition shaped (n m : nat) (M : mat) : Prop := length M = n /\ Forall (fun r => length r = m) M.
Lemma shaped_row n m (M : mat) i : shaped n m M -> i < n -> length (nth i M []) = m.
Proof. intros [L H] Hi. rewrite Forall_forall in H. apply H, nth_In. lia. Qed.
Lemma shape2_spec n m (M : mat) : shape2 n m M = true <-> shaped n m M.
Proof.
  unfold shape2, shaped. rewrite andb_true_iff, Nat.eqb_eq, forallb_forall, Forall_forall. split; intros [H1 H2]; split; auto; intros x Hx; apply Nat.eqb_eq, H2, Hx.
Qed.

(** *** the right hand side, block by block *)
Lemma total_fun_blocks Ny Np (f : num -> vec -> vec) (dfdy dfdp : num -> vec -> mat) t y ss :
  length y = Ny -> length ss = Np -> Forall (fun s => length s = Ny) ss -> length (dfdy t y) = Ny -> shaped Ny Np (dfdp t y) ->
  total_fun Ny Np f dfdy dfdp t (y ++ concat ss) = (f t y ++ concat (map (fun j => vadd (matvec (dfdy t y) (nth j ss [])) (col j (dfdp t y))) (seq 0 Np)))%list.
Proof.
  intros Ly Ls HF LJ HP. unfold total_fun. rewrite firstn_app, skipn_app, Ly, Nat.sub_diag, <- Ly, firstn_all, skipn_all, Ly. cbn [firstn skipn app]. rewrite app_nil_r. cbv zeta. f_equal.
  assert (LM : forall S, length (matadd (matmat Np (dfdy t y) S) (dfdp t y)) = Ny).
  { intros S. unfold matadd, matmat. rewrite map2_len', map_length, LJ, (proj1 HP). apply Nat.min_id. }
  rewrite flattenF_cols by apply LM.
  f_equal. apply map_ext_in. intros j Hj. apply in_seq in Hj.
  apply (nth_ext _ _ n0 n0).
  - rewrite len_col. unfold matadd, matmat, vadd, matvec. rewrite !map2_len', !map_length, len_col. rewrite (proj1 HP). reflexivity.
  - rewrite len_col, LM. intros i Hi. rewrite nth_col by (rewrite LM; exact Hi). unfold matadd, matmat.
    rewrite (map2_nth' _ [] [] []) by (rewrite ?map_length, ?LJ, ?(proj1 HP); exact Hi).
    rewrite (nth_mapd _ _ _ []) by (rewrite LJ; exact Hi).
    unfold vadd at 1. rewrite (map2_nth' _ n0 n0 n0).
    2: { rewrite map_length, seq_length. lia. }
    2: { rewrite (shaped_row Ny Np _ _ HP Hi). lia. }
    rewrite nth_seqmap by lia.
    unfold vadd. rewrite (map2_nth' _ n0 n0 n0).
    2: { unfold matvec. rewrite map_length, LJ. exact Hi. }
    2: { rewrite len_col, (proj1 HP). exact Hi. }
    rewrite nth_col by (rewrite (proj1 HP); exact Hi). f_equal. unfold matvec. rewrite (nth_mapd _ _ _ []) by (rewrite LJ; exact Hi). f_equal. apply reshapeF_col; [exact Ls|exact HF|lia].
Qed.

(** every vector of the right length is made of blocks *)
Fixpoint chunks {X} (n m : nat) (v : list X) : list (list X) := match m with O => [] | S m' => firstn n v :: chunks n m' (skipn n v) end.
Lemma chunks_spec {X} n m : forall v : list X, length v = n * m -> concat (chunks n m v) = v /\ length (chunks n m v) = m /\ Forall (fun s => length s = n) (chunks n m v).
Proof.
  induction m as [|m IH]; intros v L.
  - cbn. rewrite Nat.mul_0_r in L. apply length_zero_iff_nil in L. subst. auto.
  - destruct (IH (skipn n v)) as (E1 & E2 & E3); [rewrite skipn_length; lia|]. cbn [chunks concat length]. rewrite E1, E2, firstn_skipn. split; [reflexivity|]. split; [reflexivity|]. constructor; [|exact E3]. rewrite firstn_length. lia.
Qed.
End G.
