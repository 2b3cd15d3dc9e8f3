(** Sparsity pattern, Jacobians and tolerances handed to solve_ivp by sensitivity.py. *)
From Coquelicot Require Import Coquelicot.
From Coq Require Import String Reals Lra Psatz Lia List Arith Bool.
From Verif Require Import Arith Common RX RKReal Series OrderThm OrderRK OrderModel ESDLin Sens SensGen Flow SensReal.
Import ListNotations.
Close Scope string_scope. Open Scope nat_scope.

Section G.
Context {A : Arith}.
Notation num := (num A).
Notation vec := (list num).
Notation mat := (list (list num)).

Lemma sparsity_entry Ny Np r c : r < Ny * (Np + 1) -> c < Ny * (Np + 1) ->
  nth c (nth r (jac_sparsity Ny Np) []) false = (Nat.ltb c Ny || existsb (fun i => Nat.leb ((i + 1) * Ny) r && Nat.ltb r ((i + 2) * Ny) && Nat.leb ((i + 1) * Ny) c && Nat.ltb c ((i + 2) * Ny)) (seq 0 Np))%bool.
Proof. intros Hr Hc. unfold jac_sparsity. rewrite (nth_seqmap _ _ r []) by exact Hr. rewrite (nth_seqmap _ _ c false) by exact Hc. reflexivity. Qed.
Lemma sparsity_own Ny Np j i l : j < Np -> i < Ny -> l < Ny -> nth (Ny + (j * Ny + l)) (nth (Ny + (j * Ny + i)) (jac_sparsity Ny Np) []) false = true.
Proof.
  intros Hj Hi Hl. rewrite sparsity_entry by nia. apply orb_true_iff. right. apply existsb_exists. exists j. split; [apply in_seq; lia|].
  rewrite !andb_true_iff, !Nat.leb_le, !Nat.ltb_lt. nia.
Qed.
Lemma sparsity_covers Ny Np (f : num -> vec -> vec) (dfdy dfdp : num -> vec -> mat) t v v' r :
  (forall y, length y = Ny -> length (f t y) = Ny /\ length (dfdy t y) = Ny /\ shaped Ny Np (dfdp t y)) ->
  length v = Ny * (Np + 1) -> length v' = Ny * (Np + 1) -> r < Ny * (Np + 1) ->
  (forall c, c < Ny * (Np + 1) -> nth c (nth r (jac_sparsity Ny Np) []) false = true -> nth c v n0 = nth c v' n0) ->
  nth r (total_fun Ny Np f dfdy dfdp t v) n0 = nth r (total_fun Ny Np f dfdy dfdp t v') n0.
Proof.
  intros HS Lv Lv' Hr HA.
  assert (Ey : firstn Ny v = firstn Ny v').
  { apply (nth_ext _ _ n0 n0); [rewrite !firstn_length; lia|]. intros i Hi. rewrite firstn_length in Hi. rewrite !SensReal.nth_firstn by lia. apply HA; [lia|].
    rewrite sparsity_entry by lia. apply orb_true_iff. left. apply Nat.ltb_lt. lia. }
  assert (Ly : length (firstn Ny v) = Ny) by (rewrite firstn_length; lia). set (y := firstn Ny v) in *.
  destruct (HS y Ly) as (Lf & LJ & SP).
  destruct (chunks_spec Ny Np (skipn Ny v)) as (C1 & C2 & C3); [rewrite skipn_length; lia|]. destruct (chunks_spec Ny Np (skipn Ny v')) as (C1' & C2' & C3'); [rewrite skipn_length; lia|].
  set (ss := chunks Ny Np (skipn Ny v)) in *. set (ss' := chunks Ny Np (skipn Ny v')) in *.
  assert (Ev : v = (y ++ concat ss)%list) by (rewrite C1; symmetry; apply firstn_skipn). assert (Ev' : v' = (y ++ concat ss')%list) by (rewrite C1', Ey; symmetry; apply firstn_skipn).
  rewrite Ev, Ev', !total_fun_blocks by assumption. destruct (lt_dec r Ny) as [L|L]; [rewrite !app_nth1 by lia; reflexivity|].
  rewrite !app_nth2 by lia. rewrite Lf. assert (Hn : Ny <> 0) by lia. set (k := r - Ny). pose proof (Nat.div_mod k Ny Hn) as E. pose proof (Nat.mod_upper_bound k Ny Hn) as B. set (j := k / Ny) in *. set (i := k mod Ny) in *.
  assert (Hj : j < Np) by (apply Nat.div_lt_upper_bound; [exact Hn|unfold k; nia]).
  assert (FB : forall s : mat, Forall (fun b : vec => length b = Ny) (map (fun j => vadd (matvec (dfdy t y) (nth j s [])) (col j (dfdp t y))) (seq 0 Np))).
  { intros s. apply Forall_forall. intros b Hb. apply in_map_iff in Hb. destruct Hb as (q & <- & _). unfold vadd. rewrite map2_len'. unfold matvec. rewrite map_length, len_col, LJ, (proj1 SP). apply Nat.min_id. }
  replace k with (j * Ny + i) by nia. rewrite !(nth_concat Ny _ n0 (FB _)) by exact B. rewrite !nth_seqmap by exact Hj. do 3 f_equal.
  apply (nth_ext _ _ n0 n0). { rewrite Forall_forall in C3, C3'. rewrite C3, C3'; [reflexivity|apply nth_In; lia|apply nth_In; lia]. }
  intros l Hl. assert (Hl' : l < Ny) by (rewrite Forall_forall in C3; rewrite C3 in Hl; [exact Hl|apply nth_In; lia]).
  unfold ss, ss'. rewrite !nth_chunks, !SensReal.nth_skipn by assumption. apply HA; [nia|]. replace r with (Ny + (j * Ny + i)) by (unfold k in E; nia). apply sparsity_own; assumption.
Qed.
Lemma block_diag_entry Ny k (J : mat) a b i l : i < Ny -> l < Ny -> a < k -> b < k ->
  nth (b * Ny + l) (nth (a * Ny + i) (block_diag Ny k J) []) n0 = if Nat.eqb a b then nth l (nth i J []) n0 else n0.
Proof.
  intros Hi Hl Ha Hb. unfold block_diag. rewrite (nth_seqmap _ _ _ []) by nia. rewrite nth_seqmap by nia. rewrite !Nat.div_add_l, !(Nat.div_small) by lia. rewrite !Nat.add_0_r.
  rewrite (Nat.add_comm (b * Ny)), (Nat.add_comm (a * Ny)), !Nat.mod_add, !Nat.mod_small by lia. reflexivity.
Qed.
End G.

Open Scope R_scope.
Lemma rsum_split n m (g : nat -> R) : rsum (n + m) g = rsum n g + rsum m (fun k => g (n + k)%nat).
Proof. induction m as [|m IH]; [rewrite Nat.add_0_r; cbn; ring|]. rewrite Nat.add_succ_r. cbn [rsum]. rewrite IH. ring. Qed.

Section R.
Variables (Ny Np : nat) (M : Model RX) (f : R -> list R -> list R -> list R) (J P : R -> list R -> list R -> list (list R)).
Hypothesis HM : models Ny Np M f J P.
Variable p : list R.
Hypothesis Hp : length p = Np.
Notation JF := (fun t y => u_jac M t y (fin p)).
Notation PF := (fun t y => u_dfdp M t y (fin p)).
Lemma jac_bw_comp (yd : num RX -> list (num RX)) (y : R -> list R) t e z : yd (Fin t) = fin (y t) -> length (y t) = Ny ->
  exists JB, jac_bw Ny e yd JF PF Np (Fin t) z = fin2 JB /\ length JB = (Ny + Np + e)%nat /\ Forall (fun r => length r = (Ny + Np + e)%nat) JB /\
    (forall i l, (i < Ny)%nat -> (l < Ny)%nat -> ent JB i l = - ent (J t (y t) p) l i) /\ (forall j l, (j < Np)%nat -> (l < Ny)%nat -> ent JB (Ny + j) l = ent (P t (y t) p) l j) /\
    (forall q c, (q < Ny + Np + e)%nat -> (Ny <= c)%nat -> ent JB q c = 0) /\ (forall q c, (Ny + Np <= q)%nat -> ent JB q c = 0).
Proof.
  intros Ey Ly. destruct (m_J _ _ _ _ _ _ HM t _ p Ly Hp) as [SJ EJ]. destruct (m_P _ _ _ _ _ _ HM t _ p Ly Hp) as [SP EP].
  pose proof (proj1 (shaped_fin _ _ _) SJ) as [LJ FJ]. pose proof (proj1 (shaped_fin _ _ _) SP) as [LP FP].
  unfold jac_bw. rewrite Ey, EJ, EP, (transp_fin Ny Ny _ LJ), (transp_fin Ny Np _ LP).
  set (R1 := tab Ny (fun i => (tab Ny (fun l => - ent (J t (y t) p) l i) ++ repeat 0 (Np + e))%list)).
  set (R2 := tab Np (fun j => (tab Ny (fun l => ent (P t (y t) p) l j) ++ repeat 0 (Np + e))%list)).
  set (R3 := repeat (repeat 0 (Ny + Np + e)%nat) e).
  assert (ZR : forall k, repeat (@n0 RX) k = fin (repeat 0 k)) by (intros k; rewrite n0_RX; induction k; cbn; [reflexivity|f_equal; assumption]).
  exists (R1 ++ R2 ++ R3)%list. rewrite !map_app. split; [|split; [|split; [|split; [|split; [|split]]]]].
  - f_equal; [|f_equal].
    + unfold R1. unfold tab. rewrite !map_map. apply map_ext. intros i. rewrite vopp_fin, ZR, map_app. f_equal. rewrite !map_map. reflexivity.
    + unfold R2. unfold tab. rewrite !map_map. apply map_ext. intros j. rewrite ZR, map_app. reflexivity.
    + unfold R3. rewrite ZR. generalize (repeat 0 (Ny + Np + e)%nat). intros v. clear. induction e; cbn; [reflexivity|f_equal; assumption].
  - unfold R1, R2, R3. rewrite !app_length, !tab_len, repeat_length. lia.
  - apply Forall_app. split; [|apply Forall_app; split]; apply Forall_forall; intros r Hr.
    + unfold R1 in Hr; unfold tab at 1 in Hr. apply in_map_iff in Hr. destruct Hr as (i & <- & _). rewrite app_length, tab_len, repeat_length. lia.
    + unfold R2 in Hr; unfold tab at 1 in Hr. apply in_map_iff in Hr. destruct Hr as (i & <- & _). rewrite app_length, tab_len, repeat_length. lia.
    + unfold R3 in Hr. apply repeat_spec in Hr. subst r. rewrite repeat_length. reflexivity.
  - intros i l Hi Hl. unfold ent at 1. rewrite app_nth1 by (unfold R1; rewrite tab_len; exact Hi). unfold R1. rewrite tab_nth by exact Hi. rewrite app_nth1 by (rewrite tab_len; exact Hl). rewrite tab_nth by exact Hl. reflexivity.
  - intros j l Hj Hl. unfold ent at 1. rewrite app_nth2 by (unfold R1; rewrite tab_len; lia). unfold R1. rewrite tab_len. replace (Ny + j - Ny)%nat with j by lia. rewrite app_nth1 by (unfold R2; rewrite tab_len; exact Hj). unfold R2. rewrite tab_nth by exact Hj. rewrite app_nth1 by (rewrite tab_len; exact Hl). rewrite tab_nth by exact Hl. reflexivity.
  - intros q c Hq Hc. unfold ent. destruct (lt_dec q Ny) as [L|L]; [|destruct (lt_dec q (Ny + Np)) as [L2|L2]].
    + rewrite app_nth1 by (unfold R1; rewrite tab_len; exact L). unfold R1. rewrite tab_nth by exact L. rewrite app_nth2 by (rewrite tab_len; lia). apply nth_repeat.
    + rewrite app_nth2 by (unfold R1; rewrite tab_len; lia). unfold R1. rewrite tab_len. rewrite app_nth1 by (unfold R2; rewrite tab_len; lia). unfold R2. rewrite tab_nth by lia. rewrite app_nth2 by (rewrite tab_len; lia). apply nth_repeat.
    + rewrite app_nth2 by (unfold R1; rewrite tab_len; lia). unfold R1. rewrite tab_len. rewrite app_nth2 by (unfold R2; rewrite tab_len; lia). unfold R3. assert (X : forall k m, nth c (nth k (repeat (repeat 0 m) e) []) 0 = 0). { intros k m. destruct (lt_dec k e) as [K|K]; [|rewrite (nth_overflow (repeat (repeat 0 m) e) []) by (rewrite repeat_length; lia); destruct c; reflexivity]. assert (H : In (nth k (repeat (repeat 0 m) e) []) (repeat (repeat 0 m) e)) by (apply nth_In; rewrite repeat_length; exact K). apply repeat_spec in H. rewrite H. apply nth_repeat. } apply X.
  - intros q c Hq. unfold ent. rewrite app_nth2 by (unfold R1; rewrite tab_len; lia). unfold R1. rewrite tab_len. rewrite app_nth2 by (unfold R2; rewrite tab_len; lia). unfold R3. assert (X : forall k m, nth c (nth k (repeat (repeat 0 m) e) []) 0 = 0). { intros k m. destruct (lt_dec k e) as [K|K]; [|rewrite (nth_overflow (repeat (repeat 0 m) e) []) by (rewrite repeat_length; lia); destruct c; reflexivity]. assert (H : In (nth k (repeat (repeat 0 m) e) []) (repeat (repeat 0 m) e)) by (apply nth_In; rewrite repeat_length; exact K). apply repeat_spec in H. rewrite H. apply nth_repeat. } apply X.
Qed.
End R.
