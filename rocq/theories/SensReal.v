(** The systems of sensitivity.py over the reals, component by component. *)
From Coquelicot Require Import Coquelicot.
From Coq Require Import String Reals Lra Psatz Lia List Arith.
From Verif Require Import Arith Common RX RKReal Series OrderThm OrderRK OrderModel ESDLin Sens SensGen Flow.
Import ListNotations.
Close Scope string_scope. Open Scope nat_scope. Open Scope R_scope.

Notation fin := (map Fin).
Notation fin2 := (map (map Fin)).
Definition ent (M : list (list R)) (i j : nat) : R := nth j (nth i M []) 0.
Definition tab {X} (n : nat) (g : nat -> X) : list X := map g (seq 0 n).
Lemma tab_len {X} n (g : nat -> X) : length (tab n g) = n. Proof. unfold tab. rewrite map_length, seq_length. reflexivity. Qed.
Lemma tab_nth {X} n (g : nat -> X) i d : (i < n)%nat -> nth i (tab n g) d = g i. Proof. apply nth_seqmap. Qed.
Lemma tab_of {X} (v : list X) n d : length v = n -> v = tab n (fun i => nth i v d).
Proof. intros <-. apply (nth_ext _ _ d d); [rewrite tab_len; reflexivity|]. intros i Hi. rewrite tab_nth by exact Hi. reflexivity. Qed.
Lemma tab_ext {X} n (g h : nat -> X) : (forall i, (i < n)%nat -> g i = h i) -> tab n g = tab n h.
Proof. intros H. unfold tab. apply map_ext_in. intros i Hi. apply in_seq in Hi. apply H. lia. Qed.
Lemma fin_tab n (g : nat -> R) : fin (tab n g) = tab n (fun i => Fin (g i)). Proof. unfold tab. apply map_map. Qed.
Lemma nth_fin (v : list R) i : nth i (fin v) (Fin 0) = Fin (nth i v 0). Proof. exact (map_nth Fin v 0 i). Qed.
Lemma nth_fin2 (X : list (list R)) i : nth i (fin2 X) [] = fin (nth i X []). Proof. exact (map_nth (map Fin) X [] i). Qed.
Lemma fin_inj (u v : list R) : fin u = fin v -> u = v.
Proof. revert v. induction u as [|a u IH]; intros [|b v] E; try discriminate; [reflexivity|]. cbn in E. injection E as -> E. f_equal. apply IH, E. Qed.

Lemma col_fin j (X : list (list R)) n : length X = n -> @col RX j (fin2 X) = fin (tab n (fun i => ent X i j)).
Proof.
  intros <-. unfold col. rewrite n0_RX, map_map, fin_tab. apply (nth_ext _ _ (Fin 0) (Fin 0)); [rewrite tab_len, map_length; reflexivity|].
  rewrite map_length. intros i Hi. rewrite tab_nth by exact Hi. rewrite (nth_mapd _ _ _ []) by exact Hi. apply nth_fin.
Qed.
Lemma transp_fin n m (X : list (list R)) : length X = n -> @transp RX m (fin2 X) = fin2 (tab m (fun j => tab n (fun i => ent X i j))).
Proof. intros L. unfold transp, tab at 1. rewrite map_map. apply map_ext. intros j. apply col_fin, L. Qed.
Lemma matvec_fin n m (X : list (list R)) v : length X = n -> Forall (fun r => length r = m) X -> length v = m ->
  @matvec RX (fin2 X) (fin v) = fin (tab n (fun i => rsum m (fun l => ent X i l * nth l v 0))).
Proof.
  intros <- HF Hv. unfold matvec. rewrite map_map, fin_tab. apply (nth_ext _ _ (Fin 0) (Fin 0)); [rewrite tab_len, map_length; reflexivity|].
  rewrite map_length. intros i Hi. rewrite tab_nth by exact Hi. rewrite (nth_mapd _ _ _ []) by exact Hi. apply ndot_fin; [|exact Hv]. rewrite Forall_forall in HF. apply HF, nth_In, Hi.
Qed.
Lemma vecmat_fin n m (v : list R) (X : list (list R)) : length X = n -> length v = n -> @vecmat RX m (fin v) (fin2 X) = fin (tab m (fun j => rsum n (fun i => nth i v 0 * ent X i j))).
Proof.
  intros L Lv. unfold vecmat. rewrite fin_tab. unfold tab at 1. apply map_ext. intros j. rewrite (col_fin j X n L). rewrite (ndot_fin n); [|exact Lv|apply tab_len]. f_equal. apply rsum_ext. intros i Hi. rewrite tab_nth by exact Hi. reflexivity.
Qed.
Lemma vadd_tab n (a b : nat -> R) : @vadd RX (fin (tab n a)) (fin (tab n b)) = fin (tab n (fun i => a i + b i)).
Proof.
  rewrite !fin_tab. unfold tab, vadd. generalize (seq 0 n). induction l as [|i l IH]; [reflexivity|]. cbn [map map2]. f_equal. exact IH.
Qed.
Lemma vadd_fin' (u v : list R) n : length u = n -> length v = n -> @vadd RX (fin u) (fin v) = fin (tab n (fun i => nth i u 0 + nth i v 0)).
Proof. intros Lu Lv. rewrite (tab_of u n 0 Lu) at 1. rewrite (tab_of v n 0 Lv) at 1. apply vadd_tab. Qed.
Lemma vopp_fin (v : list R) : @vopp RX (fin v) = fin (map Ropp v).
Proof. unfold vopp. rewrite !map_map. reflexivity. Qed.
Lemma vopp_tab n (a : nat -> R) : @vopp RX (fin (tab n a)) = fin (tab n (fun i => - a i)).
Proof. rewrite vopp_fin. unfold tab. rewrite !map_map. reflexivity. Qed.
Lemma firstn_fin n (v : list R) : firstn n (fin v) = fin (firstn n v). Proof. apply firstn_map. Qed.
Lemma skipn_fin n (v : list R) : skipn n (fin v) = fin (skipn n v). Proof. apply skipn_map. Qed.
Lemma nth_firstn {X} (d : X) n : forall (v : list X) i, (i < n)%nat -> nth i (firstn n v) d = nth i v d.
Proof. induction n as [|n IH]; intros [|a v] i Hi; try lia; [destruct i; reflexivity|]. destruct i; [reflexivity|]. cbn. apply IH. lia. Qed.
Lemma nth_skipn {X} (d : X) n : forall (v : list X) i, nth i (skipn n v) d = nth (n + i) v d.
Proof. induction n as [|n IH]; intros [|a v] i; try reflexivity; [cbn; destruct i; reflexivity|]. cbn. apply IH. Qed.
Lemma chunks_map {X Y} (g : X -> Y) n m : forall v, chunks n m (map g v) = map (map g) (chunks n m v).
Proof. induction m as [|m IH]; intros v; [reflexivity|]. cbn [chunks map]. rewrite firstn_map, skipn_map, IH. reflexivity. Qed.
Lemma nth_chunks {X} (d : X) n m : forall v j i, (j < m)%nat -> (i < n)%nat -> nth i (nth j (chunks n m v) []) d = nth (j * n + i) v d.
Proof.
  induction m as [|m IH]; intros v j i Hj Hi; [lia|]. destruct j as [|j]; cbn [chunks nth]; [apply nth_firstn; exact Hi|]. rewrite IH by lia. rewrite nth_skipn. f_equal. lia.
Qed.

(** real functions behind the user's functions *)
Record models (Ny Np : nat) (M : Model RX) (f : R -> list R -> list R -> list R) (J P : R -> list R -> list R -> list (list R)) : Prop := {
  m_f : forall t y p, length y = Ny -> length p = Np -> length (f t y p) = Ny /\ u_fun M (Fin t) (fin y) (fin p) = fin (f t y p);
  m_J : forall t y p, length y = Ny -> length p = Np -> @shaped RX Ny Ny (fin2 (J t y p)) /\ u_jac M (Fin t) (fin y) (fin p) = fin2 (J t y p);
  m_P : forall t y p, length y = Ny -> length p = Np -> @shaped RX Ny Np (fin2 (P t y p)) /\ u_dfdp M (Fin t) (fin y) (fin p) = fin2 (P t y p) }.

Lemma shaped_fin n m (X : list (list R)) : @shaped RX n m (fin2 X) <-> length X = n /\ Forall (fun r => length r = m) X.
Proof.
  unfold shaped. rewrite map_length. split; intros [H1 H2]; split; auto; rewrite Forall_forall in *; intros r Hr.
  - rewrite <- (map_length Fin r). apply H2, in_map, Hr.
  - apply in_map_iff in Hr. destruct Hr as (x & <- & Hx). rewrite map_length. apply H2, Hx.
Qed.

Lemma len_app_blocks {X} Ny Np (u : list X) (ss : list (list X)) : length u = Ny -> length ss = Np -> Forall (fun s => length s = Ny) ss -> length (u ++ concat ss) = (Ny * (Np + 1))%nat.
Proof. intros H1 H2 H3. rewrite app_length, (len_concat Ny _ H3), H1, H2. lia. Qed.

Lemma total_y0_comp Ny Np (y0 : list R) (D : list (list R)) : length y0 = Ny -> @shaped RX Ny Np (fin2 D) ->
  exists v, @total_y0 RX Ny Np (fin y0) (fin2 D) = fin v /\ length v = (Ny * (Np + 1))%nat /\ (forall i, (i < Ny)%nat -> nth i v 0 = nth i y0 0) /\
    (forall j i, (j < Np)%nat -> (i < Ny)%nat -> nth (Ny + (j * Ny + i)) v 0 = ent D i j).
Proof.
  intros Ly SD. pose proof (proj1 (shaped_fin _ _ _) SD) as [LD FD]. unfold total_y0. rewrite (@flattenF_cols RX) by (rewrite map_length; exact LD).
  set (bs := map (fun j => tab Ny (fun i => ent D i j)) (seq 0 Np)).
  assert (Fb : Forall (fun s => length s = Ny) bs). { apply Forall_forall. intros s Hs. apply in_map_iff in Hs. destruct Hs as (j & <- & _). apply tab_len. }
  assert (Lb : length bs = Np) by (unfold bs; rewrite map_length, seq_length; reflexivity).
  exists (y0 ++ concat bs)%list. repeat split.
  - rewrite map_app. f_equal. rewrite concat_map. f_equal. unfold bs. rewrite map_map. apply map_ext. intros j. apply col_fin, LD.
  - apply len_app_blocks; assumption.
  - intros i Hi. apply app_nth1. lia.
  - intros j i Hj Hi. rewrite app_nth2 by lia. rewrite Ly. replace (Ny + (j * Ny + i) - Ny)%nat with (j * Ny + i)%nat by lia. rewrite (nth_concat Ny _ 0 Fb) by exact Hi.
    unfold bs. rewrite nth_seqmap by exact Hj. rewrite tab_nth by exact Hi. reflexivity.
Qed.

Section T.
Variables (Ny Np : nat) (M : Model RX) (f : R -> list R -> list R -> list R) (J P : R -> list R -> list R -> list (list R)).
Hypothesis HM : models Ny Np M f J P.
Variable p : list R.
Hypothesis Hp : length p = Np.
Notation F := (fun t y => u_fun M t y (fin p)).
Notation JF := (fun t y => u_jac M t y (fin p)).
Notation PF := (fun t y => u_dfdp M t y (fin p)).

Lemma total_fun_comp t z : length z = (Ny * (Np + 1))%nat ->
  exists v, total_fun Ny Np F JF PF (Fin t) (fin z) = fin v /\ length v = (Ny * (Np + 1))%nat /\
    (forall i, (i < Ny)%nat -> nth i v 0 = nth i (f t (firstn Ny z) p) 0) /\
    (forall j i, (j < Np)%nat -> (i < Ny)%nat -> nth (Ny + (j * Ny + i)) v 0 = rsum Ny (fun l => ent (J t (firstn Ny z) p) i l * nth (Ny + (j * Ny + l)) z 0) + ent (P t (firstn Ny z) p) i j).
Proof.
  intros Lz. assert (Ly : length (firstn Ny z) = Ny) by (rewrite firstn_length; lia).
  assert (Ls : length (skipn Ny z) = (Ny * Np)%nat) by (rewrite skipn_length; lia).
  destruct (chunks_spec Ny Np (skipn Ny z) Ls) as (C1 & C2 & C3).
  destruct (m_f _ _ _ _ _ _ HM t _ p Ly Hp) as [Lf Ef]. destruct (m_J _ _ _ _ _ _ HM t _ p Ly Hp) as [SJ EJ]. destruct (m_P _ _ _ _ _ _ HM t _ p Ly Hp) as [SP EP].
  pose proof (proj1 (shaped_fin _ _ _) SJ) as [LJ FJ]. pose proof (proj1 (shaped_fin _ _ _) SP) as [LP FP].
  set (y := firstn Ny z) in *. set (ss := chunks Ny Np (skipn Ny z)) in *.
  assert (E : fin z = (fin y ++ concat (fin2 ss))%list). { rewrite <- concat_map, C1, <- map_app. unfold y. rewrite firstn_skipn. reflexivity. }
  rewrite E. rewrite total_fun_blocks.
  2: rewrite map_length; exact Ly. 2: rewrite map_length; exact C2.
  2: { rewrite Forall_forall in *. intros s Hs. apply in_map_iff in Hs. destruct Hs as (x & <- & Hx). rewrite map_length. apply C3, Hx. }
  2: rewrite EJ, map_length; exact LJ. 2: rewrite EP; exact SP.
  rewrite Ef, EJ, EP.
  set (bs := map (fun j => tab Ny (fun i => rsum Ny (fun l => ent (J t y p) i l * nth l (nth j ss []) 0) + ent (P t y p) i j)) (seq 0 Np)).
  assert (Fb : Forall (fun s => length s = Ny) bs). { apply Forall_forall. intros s Hs. apply in_map_iff in Hs. destruct Hs as (j & <- & _). apply tab_len. }
  assert (Lb : length bs = Np) by (unfold bs; rewrite map_length, seq_length; reflexivity).
  exists (f t y p ++ concat bs)%list. repeat split.
  - rewrite map_app. f_equal. rewrite concat_map. f_equal. unfold bs. rewrite map_map. apply map_ext_in. intros j Hj. apply in_seq in Hj.
    rewrite nth_fin2. rewrite (matvec_fin Ny Ny _ _ LJ FJ). 2: { rewrite Forall_forall in C3. apply C3, nth_In. lia. }
    rewrite (col_fin j _ Ny LP). apply vadd_tab.
  - apply len_app_blocks; assumption.
  - intros i Hi. apply app_nth1. lia.
  - intros j i Hj Hi. rewrite app_nth2 by lia. rewrite Lf. replace (Ny + (j * Ny + i) - Ny)%nat with (j * Ny + i)%nat by lia. rewrite (nth_concat Ny _ 0 Fb) by exact Hi.
    unfold bs. rewrite nth_seqmap by exact Hj. rewrite tab_nth by exact Hi. f_equal. apply rsum_ext. intros l Hl. f_equal. unfold ss. rewrite nth_chunks by assumption. apply nth_skipn.
Qed.

(** the backward systems *)
Lemma bw_end_comp (yd : num RX -> list (num RX)) (y : R -> list R) t mu xi : yd (Fin t) = fin (y t) -> length (y t) = Ny -> length mu = Ny ->
  exists v, bw_end Ny Np yd JF PF (Fin t) (fin (mu ++ xi)) = fin v /\ length v = (Ny + Np)%nat /\
    (forall i, (i < Ny)%nat -> nth i v 0 = - rsum Ny (fun l => ent (J t (y t) p) l i * nth l mu 0)) /\
    (forall j, (j < Np)%nat -> nth (Ny + j) v 0 = rsum Ny (fun l => ent (P t (y t) p) l j * nth l mu 0)).
Proof.
  intros Ey Ly Lmu. destruct (m_J _ _ _ _ _ _ HM t _ p Ly Hp) as [SJ EJ]. destruct (m_P _ _ _ _ _ _ HM t _ p Ly Hp) as [SP EP].
  pose proof (proj1 (shaped_fin _ _ _) SJ) as [LJ FJ]. pose proof (proj1 (shaped_fin _ _ _) SP) as [LP FP].
  unfold bw_end. rewrite Ey, EJ, EP, firstn_fin. rewrite firstn_app, Lmu, Nat.sub_diag, <- Lmu, firstn_all, Lmu. cbn [firstn]. rewrite app_nil_r.
  rewrite (transp_fin Ny Ny _ LJ), (transp_fin Ny Np _ LP).
  rewrite (matvec_fin Ny Ny), (matvec_fin Np Ny); try (apply tab_len); try exact Lmu.
  2, 3: apply Forall_forall; intros s Hs; unfold tab in Hs; apply in_map_iff in Hs; destruct Hs as (j & <- & _); apply tab_len.
  rewrite vopp_tab. eexists. split; [symmetry; apply map_app|]. rewrite app_length, !tab_len. split; [reflexivity|]. split.
  - intros i Hi. rewrite app_nth1 by (rewrite tab_len; exact Hi). rewrite tab_nth by exact Hi. f_equal. apply rsum_ext. intros l Hl. unfold ent at 1. rewrite !tab_nth by assumption. reflexivity.
  - intros j Hj. rewrite app_nth2 by (rewrite tab_len; lia). rewrite tab_len. replace (Ny + j - Ny)%nat with j by lia. rewrite tab_nth by exact Hj. apply rsum_ext. intros l Hl. unfold ent at 1. rewrite !tab_nth by assumption. reflexivity.
Qed.
Lemma bw_int_comp (yd : num RX -> list (num RX)) (y : R -> list R) (g gp gy : num RX -> list (num RX) -> list (num RX)) t lam rest rg rgp rgy : yd (Fin t) = fin (y t) -> length (y t) = Ny -> length lam = Ny ->
  g (Fin t) (fin (y t)) = fin [rg] -> gp (Fin t) (fin (y t)) = fin rgp -> length rgp = Np -> gy (Fin t) (fin (y t)) = fin rgy -> length rgy = Ny ->
  exists v, bw_int Ny Np yd JF PF g gp gy (Fin t) (fin (lam ++ rest)) = fin v /\ length v = (Ny + Np + 1)%nat /\
    (forall i, (i < Ny)%nat -> nth i v 0 = - (rsum Ny (fun l => ent (J t (y t) p) l i * nth l lam 0) + nth i rgy 0)) /\
    (forall j, (j < Np)%nat -> nth (Ny + j) v 0 = rsum Ny (fun l => ent (P t (y t) p) l j * nth l lam 0) + nth j rgp 0) /\
    nth (Ny + Np) v 0 = rg.
Proof.
  intros Ey Ly Llam Eg Egp Lgp Egy Lgy. destruct (m_J _ _ _ _ _ _ HM t _ p Ly Hp) as [SJ EJ]. destruct (m_P _ _ _ _ _ _ HM t _ p Ly Hp) as [SP EP].
  pose proof (proj1 (shaped_fin _ _ _) SJ) as [LJ FJ]. pose proof (proj1 (shaped_fin _ _ _) SP) as [LP FP].
  unfold bw_int. rewrite Ey, EJ, EP, Eg, Egp, Egy, firstn_fin. rewrite firstn_app, Llam, Nat.sub_diag, <- Llam, firstn_all, Llam. cbn [firstn]. rewrite app_nil_r.
  rewrite (transp_fin Ny Ny _ LJ), (transp_fin Ny Np _ LP).
  rewrite (matvec_fin Ny Ny), (matvec_fin Np Ny); try (apply tab_len); try exact Llam.
  2, 3: apply Forall_forall; intros s Hs; unfold tab in Hs; apply in_map_iff in Hs; destruct Hs as (j & <- & _); apply tab_len.
  rewrite (vadd_fin' _ rgy Ny), (vadd_fin' _ rgp Np); try apply tab_len; try assumption.
  rewrite vopp_tab. eexists. split; [rewrite <- !map_app; reflexivity|]. rewrite !app_length, !tab_len. split; [cbn; lia|]. split; [|split].
  - intros i Hi. rewrite app_nth1 by (rewrite tab_len; exact Hi). rewrite tab_nth by exact Hi. rewrite tab_nth by exact Hi. f_equal. f_equal. apply rsum_ext. intros l Hl. unfold ent at 1. rewrite !tab_nth by assumption. reflexivity.
  - intros j Hj. rewrite app_nth2 by (rewrite tab_len; lia). rewrite tab_len. replace (Ny + j - Ny)%nat with j by lia. rewrite app_nth1 by (rewrite tab_len; exact Hj). rewrite !tab_nth by exact Hj. f_equal. apply rsum_ext. intros l Hl. unfold ent at 1. rewrite !tab_nth by assumption. reflexivity.
  - rewrite app_nth2 by (rewrite tab_len; lia). rewrite app_nth2 by (rewrite !tab_len; lia). rewrite !tab_len. replace (Ny + Np - Ny - Np)%nat with 0%nat by lia. reflexivity.
Qed.
End T.
