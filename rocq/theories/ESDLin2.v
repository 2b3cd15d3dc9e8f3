(** ESDIRK on linear problems: the linear solves (ODE with or without mass matrix, DAE), the classes. *)
From Coq Require Import String Reals Lra QArith Qreals Bool Lia List Arith.
From Verif Require Import Arith Common Stiff RK HStart RKInit RX Tableaux Classes Dense Ode RKReal RKInitReal Series OrderRK OrderModel RKSpecProofs
  ESDIRK ESDCls ESDGen ESDReal ESDInv ESDLin.
Import ListNotations.
Close Scope string_scope. Open Scope nat_scope. Open Scope R_scope.

Lemma lc_solve_ode m d M J c : em_d m = Fin (rd m) -> x_dae c = None -> x_n c = d -> x_M c = option_map (map (map Fin)) M ->
  (forall X, M = Some X -> rshape d X) -> rshape d J -> exact_solve d (x_solve c) ->
  forall h Sc L b x, h <> 0 -> (Sc, L) = iteration_matrix m c (map (map Fin) J) (Fin h) -> length b = d ->
    x_solve c L (mv Sc (map Fin b)) = Some x ->
    exists x', x = map Fin x' /\ length x' = d /\ forall q, (q < d)%nat -> rmv_opt d M x' q - h * rd m * rmv d J x' q = nth q b 0.
Proof.
  intros Ed ED En EM HM HJ HS h Sc L b x Hh HI Hb E. unfold iteration_matrix in HI. rewrite ED, EM, En, Ed in HI.
  injection HI as -> ->. cbn [mv] in E. rewrite mat_of_fin in E. change (nmul RX (Fin h) (Fin (rd m))) with (Fin (h * rd m)) in E.
  change (num RX) with xr in *. rewrite msub_fin in E.
  destruct (HS (rmsub (rmat_of d M) (h * rd m) J) b x) as (x' & E1 & E2 & E3); [apply rmsub_shape; [apply rmat_of_shape; exact HM|exact HJ]|exact Hb|exact E|].
  exists x'. split; [exact E1|]. split; [exact E2|]. intros q Hq. rewrite <- (E3 q Hq).
  rewrite rmv_msub by (first [exact Hq|exact HJ|apply rmat_of_shape; exact HM]). rewrite rmv_mat_of by exact Hq. reflexivity.
Qed.

(** ** DAE: rows scaled with U diag(1, .., 1, 1/(h d), ..) U^T *)
Definition rmmul (d : nat) (X Y : list (list R)) : list (list R) :=
  map (fun r => map (fun j => rsum d (fun l => nth l r 0 * nth j (nth l Y []) 0)) (seq 0 d)) X.
Definition rtr (d : nat) (X : list (list R)) : list (list R) := map (fun j => map (fun r => nth j r 0) X) (seq 0 d).
Definition rvec (d : nat) (g : nat -> R) : list R := map g (seq 0 d).
Lemma rvec_nth d g q : (q < d)%nat -> nth q (rvec d g) 0 = g q.
Proof. apply (nth_map_seq' g). Qed.

Lemma hd_len d X : rshape d X -> length (hd [] X) = d.
Proof. intros [HL HF]. destruct X as [|r X]; [exact HL|]. inversion HF; assumption. Qed.
Lemma hd_map_fin (X : list (list R)) : length (hd [] (map (map Fin) X)) = length (hd [] X).
Proof. destruct X; [reflexivity|]. cbn [map hd]. apply map_length. Qed.
Lemma nth0_map (f : list R -> R) (X : list (list R)) q : (q < length X)%nat -> nth q (map f X) 0 = f (nth q X []).
Proof. intros H. rewrite (nth_indep _ 0 (f [])) by (rewrite map_length; exact H). apply map_nth. Qed.
Lemma nthl_map (f : list R -> list R) (X : list (list R)) q : (q < length X)%nat -> nth q (map f X) [] = f (nth q X []).
Proof. intros H. rewrite (nth_indep _ [] (f [])) by (rewrite map_length; exact H). apply map_nth. Qed.

Lemma mcol_fin j (X : list (list R)) : @mcol RX j (map (map Fin) X) = map Fin (map (fun r => nth j r 0) X).
Proof.
  unfold mcol. rewrite !map_map. apply map_ext. intros r. rewrite n0_RX. exact (map_nth Fin r 0 j).
Qed.
Lemma mmul_fin d X Y : rshape d X -> rshape d Y -> @mmul RX (map (map Fin) X) (map (map Fin) Y) = map (map Fin) (rmmul d X Y).
Proof.
  intros HX HY. unfold mmul, rmmul. rewrite !map_map. apply map_ext_in. intros r Hr. rewrite map_map.
  pose proof (hd_map_fin Y) as E. rewrite (hd_len d Y HY) in E. change (num RX) with xr in *. rewrite E. apply map_ext. intros j.
  pose proof (mcol_fin j Y) as Em. change (num RX) with xr in *. rewrite Em.
  destruct HX as [_ HX]. rewrite Forall_forall in HX. destruct HY as [LY _].
  rewrite (ndot_fin d) by (first [apply HX; exact Hr|rewrite map_length; exact LY]). f_equal. apply rsum_ext. intros l Hl.
  rewrite nth0_map by lia. reflexivity.
Qed.
Lemma mtr_fin d X : rshape d X -> @mtr RX (map (map Fin) X) = map (map Fin) (rtr d X).
Proof.
  intros HX. unfold mtr, rtr. pose proof (hd_map_fin X) as E. rewrite (hd_len d X HX) in E. change (num RX) with xr in *. rewrite E, map_map.
  apply map_ext. intros j. exact (mcol_fin j X).
Qed.
Lemma rmmul_shape d X Y : rshape d X -> rshape d (rmmul d X Y).
Proof.
  intros [L H]. unfold rmmul. split; [rewrite map_length; exact L|]. apply Forall_forall. intros r Hr. apply in_map_iff in Hr. destruct Hr as (x & <- & _).
  rewrite map_length, seq_length. reflexivity.
Qed.
Lemma rtr_shape d X : rshape d X -> rshape d (rtr d X).
Proof.
  intros [L H]. unfold rtr. split; [rewrite map_length, seq_length; reflexivity|]. apply Forall_forall. intros r Hr. apply in_map_iff in Hr. destruct Hr as (x & <- & _).
  rewrite map_length. exact L.
Qed.
Lemma rmmul_entry d X Y q j : rshape d X -> (q < d)%nat -> (j < d)%nat -> nth j (nth q (rmmul d X Y) []) 0 = rsum d (fun l => nth l (nth q X []) 0 * nth j (nth l Y []) 0).
Proof.
  intros [L _] Hq Hj. unfold rmmul. rewrite (nthl_map (fun r => map (fun j => rsum d (fun l => nth l r 0 * nth j (nth l Y []) 0)) (seq 0 d))) by lia.
  rewrite (nth_map_seq' (fun j => rsum d _)) by exact Hj. reflexivity.
Qed.
Lemma rtr_entry d X q j : rshape d X -> (q < d)%nat -> (j < d)%nat -> nth j (nth q (rtr d X) []) 0 = nth q (nth j X []) 0.
Proof.
  intros [L _] Hq Hj. unfold rtr. rewrite (nth_map_seq' (fun j => map (fun r => nth j r 0) X)) by exact Hq. rewrite (nth0_map (fun r => nth q r 0)) by lia. reflexivity.
Qed.
Lemma rmv_mmul d X Y v q : rshape d X -> (q < d)%nat -> rmv d (rmmul d X Y) v q = rmv d X (rvec d (rmv d Y v)) q.
Proof.
  intros HX Hq. unfold rmv at 1. rewrite (rsum_ext d _ (fun j => rsum d (fun l => nth l (nth q X []) 0 * (nth j (nth l Y []) 0 * nth j v 0)))).
  2:{ intros j Hj. rewrite rmmul_entry by assumption. rewrite Rmult_comm, <- rsum_scal. apply rsum_ext. intros l Hl. ring. }
  rewrite rsum_swap. unfold rmv at 1. apply rsum_ext. intros l Hl. rewrite rvec_nth by exact Hl. unfold rmv. rewrite <- rsum_scal. reflexivity.
Qed.

(** U^T U = U U^T = 1 *)
Definition orthogonal (d : nat) (U : list (list R)) : Prop := rshape d U /\
  (forall i j, (i < d)%nat -> (j < d)%nat -> rsum d (fun l => nth i (nth l U []) 0 * nth j (nth l U []) 0) = if Nat.eqb i j then 1 else 0) /\
  (forall i j, (i < d)%nat -> (j < d)%nat -> rsum d (fun l => nth l (nth i U []) 0 * nth l (nth j U []) 0) = if Nat.eqb i j then 1 else 0).

Definition rscale (d : nat) (U : list (list R)) (sc : nat -> R) : list (list R) :=
  rmmul d (map (fun r => map (fun l => nth l r 0 * sc l) (seq 0 d)) U) (rtr d U).
Lemma rscale_mv d U sc v q : rshape d U -> (q < d)%nat ->
  rmv d (rscale d U sc) v q = rsum d (fun l => nth l (nth q U []) 0 * sc l * rsum d (fun k => nth l (nth k U []) 0 * nth k v 0)).
Proof.
  intros HU Hq. unfold rscale. rewrite rmv_mmul; [|split; [rewrite map_length; apply HU|apply Forall_forall; intros r Hr; apply in_map_iff in Hr; destruct Hr as (x & <- & _); rewrite map_length, seq_length; reflexivity]|exact Hq].
  unfold rmv at 1. apply rsum_ext. intros l Hl. rewrite (nthl_map (fun r => map (fun l => nth l r 0 * sc l) (seq 0 d))) by (destruct HU; lia).
  rewrite (nth_map_seq' (fun l => _ * sc l)) by exact Hl. rewrite rvec_nth by exact Hl. f_equal. unfold rmv. apply rsum_ext. intros k Hk. rewrite rtr_entry by assumption. reflexivity.
Qed.
(** the scaling is injective *)
Lemma rscale_inj d U sc v w : orthogonal d U -> (forall l, (l < d)%nat -> sc l <> 0) ->
  (forall q, (q < d)%nat -> rmv d (rscale d U sc) v q = rmv d (rscale d U sc) w q) -> forall q, (q < d)%nat -> nth q v 0 = nth q w 0.
Proof.
  intros (HU & O1 & O2) Hsc H.
  set (tv := fun (x : list R) l => rsum d (fun k => nth l (nth k U []) 0 * nth k x 0)).
  assert (H1 : forall x p, (p < d)%nat -> rsum d (fun q => nth p (nth q U []) 0 * rmv d (rscale d U sc) x q) = sc p * tv x p).
  { intros x p Hp. rewrite (rsum_ext d _ (fun q => rsum d (fun l => nth p (nth q U []) 0 * nth l (nth q U []) 0 * (sc l * tv x l)))).
    2:{ intros q Hq. rewrite rscale_mv by assumption. rewrite <- rsum_scal. apply rsum_ext. intros l Hl. unfold tv. ring. }
    rewrite rsum_swap. rewrite (rsum_ext d _ (fun l => (if Nat.eqb p l then 1 else 0) * (sc l * tv x l))).
    - rewrite (rsum_delta d p (fun l => sc l * tv x l)) by exact Hp. reflexivity.
    - intros l Hl. rewrite <- (O1 p l Hp Hl). rewrite (Rmult_comm (rsum _ _) (sc l * tv x l)), <- rsum_scal. apply rsum_ext. intros q Hq. ring. }
  assert (H2 : forall p, (p < d)%nat -> tv v p = tv w p).
  { intros p Hp. apply (Rmult_eq_reg_l (sc p)); [|apply Hsc; exact Hp]. rewrite <- !H1 by exact Hp. apply rsum_ext. intros q Hq. rewrite H by exact Hq. reflexivity. }
  assert (H3 : forall x q, (q < d)%nat -> rsum d (fun l => nth l (nth q U []) 0 * tv x l) = nth q x 0).
  { intros x q Hq. unfold tv. rewrite (rsum_ext d _ (fun l => rsum d (fun k => nth l (nth q U []) 0 * nth l (nth k U []) 0 * nth k x 0))).
    2:{ intros l Hl. rewrite <- rsum_scal. apply rsum_ext. intros; ring. }
    rewrite rsum_swap. rewrite (rsum_ext d _ (fun k => (if Nat.eqb q k then 1 else 0) * nth k x 0)).
    - apply (rsum_delta d q (fun k => nth k x 0)). exact Hq.
    - intros k Hk. rewrite <- (O2 q k Hq Hk). rewrite (Rmult_comm (rsum _ _) (nth k x 0)), <- rsum_scal. apply rsum_ext. intros; ring. }
  intros q Hq. rewrite <- (H3 v q Hq), <- (H3 w q Hq). apply rsum_ext. intros l Hl. rewrite H2 by exact Hl. reflexivity.
Qed.

Lemma map2_sc_fin d (r : list R) (sc : list R) : length r = d -> length sc = d ->
  map2 (nmul RX) (map Fin r) (map Fin sc) = map Fin (map (fun l => nth l r 0 * nth l sc 0) (seq 0 d)).
Proof.
  intros Hr Hc. destruct (map2_fin (nmul RX) Rmult (fun _ _ => eq_refl) r sc) as (x & E & L & N); [congruence|]. rewrite E. f_equal.
  apply nth_eq_list; [rewrite map_length, seq_length; congruence|]. intros q Hq. rewrite N by congruence. rewrite (nth_map_seq' (fun l => nth l r 0 * nth l sc 0)) by congruence. reflexivity.
Qed.
Lemma map_repeat' {X Y} (f : X -> Y) a n : map f (repeat a n) = repeat (f a) n.
Proof. induction n; [reflexivity|]. cbn [repeat map]. rewrite IHn. reflexivity. Qed.
Lemma scale_AE_fin d U k hd : rshape d U -> (k <= d)%nat -> hd <> 0 ->
  exists sc, @scale_AE RX (map (map Fin) U) k (Fin hd) = map (map Fin) (rscale d U (fun l => nth l sc 0)) /\ length sc = d /\ forall l, (l < d)%nat -> nth l sc 0 <> 0.
Proof.
  intros HU Hk Hh. exists (repeat 1 (d - k) ++ repeat (1 / hd) k)%list.
  assert (L : length (repeat 1 (d - k) ++ repeat (1 / hd) k) = d) by (rewrite app_length, !repeat_length; lia).
  split; [|split; [exact L|]].
  - unfold scale_AE, rscale. rewrite map_length. rewrite (proj1 HU). rewrite n1_RX.
    assert (E1 : ndiv RX (Fin 1) (Fin hd) = Fin (1 / hd)) by (cbn [ndiv RX]; unfold xdiv; destruct (Req_EM_T hd 0); [contradiction|reflexivity]). rewrite E1.
    assert (E2 : (@repeat xr (Fin 1) (d - k) ++ repeat (Fin (1 / hd)) k)%list = map Fin (repeat 1 (d - k) ++ repeat (1 / hd) k)) by (rewrite map_app, !map_repeat'; reflexivity).
    change (num RX) with xr in *. rewrite E2. pose proof (mtr_fin d U HU) as E3. change (num RX) with xr in *. rewrite E3.
    rewrite map_map. rewrite (map_ext_in _ (fun r => map Fin (map (fun l => nth l r 0 * nth l (repeat 1 (d - k) ++ repeat (1 / hd) k) 0) (seq 0 d)))).
    2:{ intros r Hr. apply map2_sc_fin; [|exact L]. destruct HU as [_ HU]. rewrite Forall_forall in HU. apply HU. exact Hr. }
    rewrite <- (map_map (fun r => map (fun l => nth l r 0 * nth l (repeat 1 (d - k) ++ repeat (1 / hd) k) 0) (seq 0 d)) (map Fin)).
    apply mmul_fin; [|apply rtr_shape; exact HU].
    split; [rewrite map_length; apply HU|apply Forall_forall; intros r Hr; apply in_map_iff in Hr; destruct Hr as (x & <- & _); rewrite map_length, seq_length; reflexivity].
  - intros l Hl. assert (HI : In (nth l (repeat 1 (d - k) ++ repeat (1 / hd) k) 0) (repeat 1 (d - k) ++ repeat (1 / hd) k)) by (apply nth_In; lia).
    apply in_app_or in HI. destruct HI as [HI|HI]; apply repeat_spec in HI; rewrite HI; [lra|]. unfold Rdiv. rewrite Rmult_1_l. apply Rinv_neq_0_compat. exact Hh.
Qed.

Lemma lc_solve_dae m d M J U k c : em_d m = Fin (rd m) -> rd m <> 0 -> x_dae c = Some (map (map Fin) U, k) -> (k <= d)%nat -> orthogonal d U -> x_n c = d -> x_M c = option_map (map (map Fin)) M ->
  (forall X, M = Some X -> rshape d X) -> rshape d J -> exact_solve d (x_solve c) ->
  forall h Sc L b x, h <> 0 -> (Sc, L) = iteration_matrix m c (map (map Fin) J) (Fin h) -> length b = d ->
    x_solve c L (mv Sc (map Fin b)) = Some x ->
    exists x', x = map Fin x' /\ length x' = d /\ forall q, (q < d)%nat -> rmv_opt d M x' q - h * rd m * rmv d J x' q = nth q b 0.
Proof.
  intros Ed Hd ED Hk HO En EM HM HJ HS h Sc L b x Hh HI Hb E. unfold iteration_matrix in HI. rewrite ED, EM, En, Ed in HI.
  change (nmul RX (Fin h) (Fin (rd m))) with (Fin (h * rd m)) in HI. rewrite mat_of_fin in HI.
  assert (Hhd : h * rd m <> 0) by (apply Rmult_integral_contrapositive; auto).
  destruct (scale_AE_fin d U k (h * rd m) (proj1 HO) Hk Hhd) as (sc & E1 & Lsc & Nsc).
  change (num RX) with xr in *. rewrite msub_fin in HI. rewrite E1 in HI.
  set (base := rmsub (rmat_of d M) (h * rd m) J) in *. set (S := rscale d U (fun l => nth l sc 0)) in *.
  assert (HSs : rshape d S).
  { unfold S, rscale. apply rmmul_shape. split; [rewrite map_length; apply HO|apply Forall_forall; intros r Hr; apply in_map_iff in Hr; destruct Hr as (y & <- & _); rewrite map_length, seq_length; reflexivity]. }
  assert (HB : rshape d base) by (apply rmsub_shape; [apply rmat_of_shape; exact HM|exact HJ]).
  pose proof (mmul_fin d S base HSs HB) as E2. change (num RX) with xr in *. rewrite E2 in HI. injection HI as -> ->.
  destruct (mv_fin d S b HSs Hb) as (r & E3 & L3 & N3). change (num RX) with xr in *. rewrite E3 in E.
  destruct (HS (rmmul d S base) r x) as (x' & X1 & X2 & X3); [apply rmmul_shape; exact HSs|exact L3|exact E|].
  exists x'. split; [exact X1|]. split; [exact X2|]. 
  assert (G : forall q, (q < d)%nat -> nth q (rvec d (rmv d base x')) 0 = nth q b 0).
  { apply (rscale_inj d U (fun l => nth l sc 0)); [exact HO|exact Nsc|]. fold S. intros q Hq. rewrite <- N3 by exact Hq. rewrite <- X3 by exact Hq. rewrite rmv_mmul by assumption. reflexivity. }
  intros q Hq. rewrite <- (G q Hq). rewrite rvec_nth by exact Hq. unfold base.
  rewrite rmv_msub by (first [exact Hq|exact HJ|apply rmat_of_shape; exact HM]). rewrite rmv_mat_of by exact Hq. reflexivity.
Qed.
