(** ESDIRK on linear problems: real linear algebra behind the model's lists, one stage. *)
From Coq Require Import String Reals Lra QArith Qreals Bool Lia List Arith.
From Verif Require Import Arith Common Stiff RK HStart RKInit RX Tableaux Classes Dense Ode RKReal RKInitReal Series OrderRK OrderModel RKSpecProofs
  ESDIRK ESDCls ESDGen ESDReal ESDInv.
Import ListNotations.
Close Scope string_scope. Open Scope nat_scope. Open Scope R_scope.

(** ** real vectors and matrices as lists *)
Definition xval (x : xr) : R := match x with Fin a => a | _ => 0 end.
(** component q of X v *)
Definition rmv (d : nat) (X : list (list R)) (v : list R) (q : nat) : R := rsum d (fun l => nth l (nth q X []) 0 * nth l v 0).
(** component q of M v; no matrix: the identity *)
Definition rmv_opt (d : nat) (M : option (list (list R))) (v : list R) (q : nat) : R :=
  match M with None => nth q v 0 | Some X => rmv d X v q end.
Definition rshape (d : nat) (X : list (list R)) : Prop := length X = d /\ Forall (fun r => length r = d) X.
Definition reye (d : nat) : list (list R) := map (fun i => map (fun j => if Nat.eqb i j then 1 else 0) (seq 0 d)) (seq 0 d).
Definition rmat_of (d : nat) (M : option (list (list R))) : list (list R) := match M with None => reye d | Some X => X end.

Lemma rshape_row d X q : rshape d X -> (q < d)%nat -> length (nth q X []) = d.
Proof. intros [L H] Hq. rewrite Forall_forall in H. apply H. apply nth_In. lia. Qed.

Lemma fold_fin (l : list R) a : fold_left (nadd RX) (map Fin l) (Fin a) = Fin (a + rsum (length l) (fun i => nth i l 0)).
Proof.
  revert a. induction l as [|x l IH]; intros a; [cbn; f_equal; ring|]. cbn [map fold_left]. change (nadd RX (Fin a) (Fin x)) with (Fin (a + x)). rewrite IH.
  cbn [length]. rewrite rsum_split. cbn [nth]. f_equal. ring.
Qed.
Lemma ndot_fin d (u v : list R) : length u = d -> length v = d -> @ndot RX (map Fin u) (map Fin v) = Fin (rsum d (fun l => nth l u 0 * nth l v 0)).
Proof.
  intros Hu Hv. unfold ndot, nsum.
  destruct (map2_fin (nmul RX) Rmult (fun _ _ => eq_refl) u v) as (r & E & L & N); [congruence|]. rewrite E, n0_RX, fold_fin.
  f_equal. rewrite Rplus_0_l, L, Hu. apply rsum_ext. intros i Hi. apply N. lia.
Qed.
Lemma nth_map_fin (u : list R) q : (q < length u)%nat -> nth q (map Fin u) (Fin 0) = Fin (nth q u 0).
Proof. intros _. apply (map_nth Fin). Qed.
Lemma mv_fin d (X : list (list R)) (v : list R) : rshape d X -> length v = d ->
  exists r, @mv RX (Some (map (map Fin) X)) (map Fin v) = map Fin r /\ length r = d /\ forall q, (q < d)%nat -> nth q r 0 = rmv d X v q.
Proof.
  intros [HL HF] Hv. exists (map (fun row => rsum d (fun l => nth l row 0 * nth l v 0)) X). split; [|split; [rewrite map_length; exact HL|]].
  - cbn [mv]. rewrite !map_map. apply map_ext_in. intros row Hr. rewrite Forall_forall in HF. apply ndot_fin; auto.
  - intros q Hq. rewrite <- HL in Hq. unfold rmv.
    rewrite (nth_indep _ 0 (rsum d (fun l => nth l [] 0 * nth l v 0))) by (rewrite map_length; exact Hq).
    rewrite (map_nth (fun row => rsum d (fun l => nth l row 0 * nth l v 0))). reflexivity.
Qed.
Lemma mv_opt_fin d M (v : list R) : (forall X, M = Some X -> rshape d X) -> length v = d ->
  exists r, @mv RX (option_map (map (map Fin)) M) (map Fin v) = map Fin r /\ length r = d /\ forall q, (q < d)%nat -> nth q r 0 = rmv_opt d M v q.
Proof.
  intros HM Hv. destruct M as [X|]; [exact (mv_fin d X v (HM X eq_refl) Hv)|]. exists v. auto.
Qed.
Lemma eye_fin d : @eye RX d = map (map Fin) (reye d).
Proof.
  unfold eye, reye. rewrite map_map. apply map_ext. intros i. rewrite map_map. apply map_ext. intros j. rewrite n0_RX, n1_RX. destruct (Nat.eqb i j); reflexivity.
Qed.
Lemma reye_shape d : rshape d (reye d).
Proof.
  unfold reye. split; [rewrite map_length, seq_length; reflexivity|]. apply Forall_forall. intros r Hr. apply in_map_iff in Hr.
  destruct Hr as (i & <- & _). rewrite map_length, seq_length. reflexivity.
Qed.
Lemma rsum_delta d q (f : nat -> R) : (q < d)%nat -> rsum d (fun l => (if Nat.eqb q l then 1 else 0) * f l) = f q.
Proof.
  induction d as [|d IH]; intros Hq; [lia|]. cbn [rsum]. destruct (Nat.eq_dec q d) as [->|Hne].
  - rewrite Nat.eqb_refl. rewrite rsum_zero; [ring|]. intros l Hl. destruct (Nat.eqb_spec d l); [lia|ring].
  - rewrite IH by lia. destruct (Nat.eqb_spec q d); [lia|ring].
Qed.
Lemma nth_map_seq' {X} (f : nat -> X) n q (d0 : X) : (q < n)%nat -> nth q (map f (seq 0 n)) d0 = f q.
Proof. intros H. rewrite (nth_indep _ d0 (f 0%nat)) by (rewrite map_length, seq_length; exact H). rewrite map_nth, seq_nth by exact H. reflexivity. Qed.
Lemma rsum_minus n f g : rsum n (fun k => f k - g k) = rsum n f - rsum n g.
Proof. induction n as [|n IH]; cbn [rsum]; [ring|rewrite IH; ring]. Qed.
Lemma rmv_eye d v q : (q < d)%nat -> rmv d (reye d) v q = nth q v 0.
Proof.
  intros Hq. unfold rmv, reye. rewrite (nth_map_seq' (fun i => map (fun j => if Nat.eqb i j then 1 else 0) (seq 0 d))) by exact Hq.
  rewrite <- (rsum_delta d q (fun l => nth l v 0) Hq). apply rsum_ext. intros l Hl.
  rewrite (nth_map_seq' (fun j => if Nat.eqb q j then 1 else 0)) by exact Hl. reflexivity.
Qed.
Lemma rmv_mat_of d M v q : (q < d)%nat -> rmv d (rmat_of d M) v q = rmv_opt d M v q.
Proof. intros Hq. destruct M; [reflexivity|]. apply rmv_eye. exact Hq. Qed.
Lemma rmat_of_shape d M : (forall X, M = Some X -> rshape d X) -> rshape d (rmat_of d M).
Proof. intros H. destruct M as [X|]; [exact (H X eq_refl)|apply reye_shape]. Qed.
Lemma mat_of_fin d M : @mat_of RX d (option_map (map (map Fin)) M) = map (map Fin) (rmat_of d M).
Proof. destruct M; [reflexivity|apply eye_fin]. Qed.

Definition rmsub (X : list (list R)) (a : R) (J : list (list R)) : list (list R) := map2 (map2 (fun x y => x - a * y)) X J.
Lemma map2_map {P Q S P' Q' S'} (f : P' -> Q' -> S') (g : P -> Q -> S) (a : P -> P') (b : Q -> Q') (k : S -> S') :
  (forall x y, f (a x) (b y) = k (g x y)) -> forall u v, map2 f (map a u) (map b v) = map k (map2 g u v).
Proof. intros H. induction u as [|x u IH]; intros [|y v]; cbn [map map2]; try reflexivity. rewrite H, IH. reflexivity. Qed.
Lemma msub_fin X a J : @msub RX (map (map Fin) X) (Fin a) (map (map Fin) J) = map (map Fin) (rmsub X a J).
Proof. unfold msub, rmsub. apply map2_map. intros x y. apply map2_map. intros p q. reflexivity. Qed.
Lemma map2_len {P Q S} (f : P -> Q -> S) u v : length (map2 f u v) = Nat.min (length u) (length v).
Proof. revert v. induction u as [|x u IH]; intros [|y v]; cbn [map2 length Nat.min]; auto. Qed.
Lemma map2_nth {P Q S} (f : P -> Q -> S) dp dq ds : forall u v i, (i < length u)%nat -> (i < length v)%nat -> nth i (map2 f u v) ds = f (nth i u dp) (nth i v dq).
Proof. induction u as [|x u IH]; intros [|y v] [|i] H1 H2; cbn [map2 length nth] in *; try lia; [reflexivity|]. apply IH; lia. Qed.
Lemma rmsub_shape d X a J : rshape d X -> rshape d J -> rshape d (rmsub X a J).
Proof.
  intros [L1 F1] [L2 F2]. assert (L : length (rmsub X a J) = d) by (unfold rmsub; rewrite map2_len; lia). split; [exact L|].
  apply Forall_forall. intros r Hr. apply (In_nth _ _ []) in Hr. destruct Hr as (i & Hi & <-). unfold rmsub. rewrite (map2_nth _ [] []) by lia.
  rewrite map2_len. rewrite (rshape_row d X i (conj L1 F1)), (rshape_row d J i (conj L2 F2)) by lia. lia.
Qed.
Lemma rmv_msub d X a J v q : rshape d X -> rshape d J -> (q < d)%nat -> rmv d (rmsub X a J) v q = rmv d X v q - a * rmv d J v q.
Proof.
  intros HX HJ Hq. unfold rmv. rewrite <- rsum_scal. rewrite <- rsum_minus. apply rsum_ext. intros l Hl.
  unfold rmsub. pose proof (rshape_row d X q HX Hq) as R1. pose proof (rshape_row d J q HJ Hq) as R2. destruct HX as [L1 F1], HJ as [L2 F2].
  rewrite (map2_nth _ [] []) by lia. rewrite (map2_nth _ 0 0) by lia. ring.
Qed.
Lemma rmv_ext d X u v q : (forall l, (l < d)%nat -> nth l u 0 = nth l v 0) -> rmv d X u q = rmv d X v q.
Proof. intros H. apply rsum_ext. intros l Hl. rewrite H by exact Hl. reflexivity. Qed.
Lemma rmv_lin d X u v w a b q : (forall l, (l < d)%nat -> nth l w 0 = a * nth l u 0 + b * nth l v 0) -> rmv d X w q = a * rmv d X u q + b * rmv d X v q.
Proof.
  intros H. unfold rmv. rewrite <- !rsum_scal. rewrite <- rsum_plus. apply rsum_ext. intros l Hl. rewrite H by exact Hl. ring.
Qed.
Lemma rmv_opt_lin d X u v w a b q : (q < d)%nat -> (forall l, (l < d)%nat -> nth l w 0 = a * nth l u 0 + b * nth l v 0) -> rmv_opt d X w q = a * rmv_opt d X u q + b * rmv_opt d X v q.
Proof. intros Hq H. destruct X; [exact (rmv_lin _ _ _ _ _ _ _ _ H)|]. apply H. exact Hq. Qed.

(** ** linear problems *)
(** F(t, u) = J u + g(t) *)
Definition linear_rhs (d : nat) (J : list (list R)) (g : R -> nat -> R) (F : R -> list R -> list R) : Prop :=
  forall t u q, length u = d -> (q < d)%nat -> nth q (F t u) 0 = rmv d J u q + g t q.
(** solve_lu returns the solution of L x = b when it returns *)
Definition exact_solve (d : nat) (solve : list (list xr) -> list xr -> option (list xr)) : Prop :=
  forall L b x, rshape d L -> length b = d -> solve (map (map Fin) L) (map Fin b) = Some x ->
  exists x', x = map Fin x' /\ length x' = d /\ forall q, (q < d)%nat -> rmv d L x' q = nth q b 0.

(** the coefficients as reals *)
Definition rA (m : EMeth RX) (i l : nat) : R := xval (nth l (nth i (em_A m) []) (Fin 0)).
Definition rC (m : EMeth RX) (i : nat) : R := xval (nth i (em_C m) (Fin 0)).
Definition rB (m : EMeth RX) (l : nat) : R := xval (nth l (em_B m) (Fin 0)).
Definition rE (m : EMeth RX) (l : nat) : R := xval (nth l (em_E m) (Fin 0)).
Definition rd (m : EMeth RX) : R := xval (em_d m).

Record real_tab (m : EMeth RX) : Prop := {
  rt_A : Forall allfin (em_A m); rt_C : allfin (em_C m); rt_Az : Forall allfin (em_Az m); rt_E : allfin (em_E m); rt_d : em_d m = Fin (rd m);
  rt_lenA : length (em_A m) = em_stages m; rt_rows : Forall (fun r => length r = em_stages m) (em_A m);
  rt_diag : forall i, (1 <= i < em_stages m)%nat -> rA m i i = rd m;
  rt_low : forall i l, (i < l)%nat -> rA m i l = 0;
  rt_00 : rA m 0 0 = 0; rt_c0 : rC m 0 = 0; rt_c1 : rC m (em_stages m - 1) = 1;
  rt_last : forall l, rA m (em_stages m - 1) l = rB m l
}.

(** a configuration for the linear problem M y' = J y + g(t) *)
Record lin_cfg (m : EMeth RX) (d : nat) (M : option (list (list R))) (J : list (list R)) (F : R -> list R -> list R) (c : ECfg RX) : Prop := {
  lc_lin : x_linear c = true;
  lc_M : x_M c = option_map (map (map Fin)) M;
  lc_Ms : forall X, M = Some X -> rshape d X;
  lc_Js : rshape d J;
  lc_lift : lifts d F (x_fun c);
  lc_rhs : exists g, linear_rhs d J g F;
  lc_solve : forall h Sc L b x, h <> 0 -> (Sc, L) = iteration_matrix m c (map (map Fin) J) (Fin h) -> length b = d ->
    x_solve c L (mv Sc (map Fin b)) = Some x ->
    exists x', x = map Fin x' /\ length x' = d /\ forall q, (q < d)%nat -> rmv_opt d M x' q - h * rd m * rmv d J x' q = nth q b 0
}.

Lemma allfin_map (l : list xr) : allfin l -> l = map Fin (map xval l).
Proof.
  induction l as [|x l IH]; intros H; [reflexivity|]. inversion_clear H as [|a b H1 H2]. destruct H1 as [r Hr]. cbn [map]. rewrite <- (IH H2).
  change (num RX) with xr in *. rewrite Hr. reflexivity.
Qed.
Lemma forallb_nisfin (u : list R) : forallb (@nisfin RX) (map Fin u) = true.
Proof. induction u; [reflexivity|]. cbn [map forallb]. rewrite IHu. reflexivity. Qed.
Lemma vsub_fin u v : length u = length v -> exists r, @vsub RX (map Fin u) (map Fin v) = map Fin r /\ length r = length u /\
    forall q, (q < length u)%nat -> nth q r 0 = nth q u 0 - nth q v 0.
Proof. apply (map2_fin (nsub RX) Rminus). reflexivity. Qed.
Lemma rpoint_len d y h g : length (rpoint d y h g) = d.
Proof. unfold rpoint. rewrite map_length, seq_length. reflexivity. Qed.
Lemma rpoint_nth d y h g q : (q < d)%nat -> nth q (rpoint d y h g) 0 = nth q y 0 + h * g q.
Proof. intros H. unfold rpoint. rewrite (nth_map_seq' (fun q => nth q y 0 + h * g q)) by exact H. reflexivity. Qed.
Lemma vadd_scale_fin d u a v : length u = d -> length v = d -> @vadd RX (map Fin u) (vscale (Fin a) (map Fin v)) = map Fin (rpoint d u a (fun q => nth q v 0)).
Proof.
  intros Hu Hv. destruct (vscale_fin a v) as (r & E & L & N). rewrite E. destruct (vadd_fin u r) as (r2 & E2 & L2 & N2); [congruence|]. rewrite E2. f_equal.
  apply nth_eq_list; [rewrite rpoint_len; congruence|]. intros q Hq. rewrite N2 by congruence. rewrite N, rpoint_nth by congruence. reflexivity.
Qed.

Lemma rowfin (X : list (list xr)) i : Forall allfin X -> nth i X [] = map Fin (map xval (nth i X [])).
Proof.
  intros H. apply allfin_map. destruct (lt_dec i (length X)) as [Hi|Hi]; [rewrite Forall_forall in H; apply H, nth_In; exact Hi|rewrite nth_overflow by lia; constructor].
Qed.
Lemma xval_nth l i : nth l (map xval i) 0 = xval (nth l i (Fin 0)).
Proof. exact (map_nth xval i (Fin 0) l). Qed.


Section Lin.
Variables (m : EMeth RX) (d : nat) (M : option (list (list R))) (J : list (list R)) (F : R -> list R -> list R) (c : ECfg RX).
Hypothesis HT : real_tab m.
Hypothesis HC : lin_cfg m d M J F c.
Hypothesis Hs : (2 <= em_stages m)%nat.

Lemma newton_lin ts h psi z y L w dzo rate r w' : h <> 0 -> length psi = d -> length z = d ->
  (w_Sc w, L) = iteration_matrix m c (map (map Fin) J) (Fin h) ->
  newton m c (Fin ts) (Fin h) (map Fin psi) y L NEWTON_MAXITER 0 w (map Fin z) dzo rate = (r, w') ->
  match r with
  | NwConv z' _ _ => exists z2, z' = map Fin z2 /\ length z2 = d /\
       (forall q, (q < d)%nat -> rmv_opt d M z2 q = h * nth q (F ts (rpoint d psi (rd m) (fun q => nth q z2 0))) 0) /\
       exists p, w_calls w' = (w_calls w ++ [(Fin ts, p)])%list
  | NwDiv _ _ => False
  | NwRaise _ => True
  end.
Proof.
  intros Hh Hp Hz HL H. destruct HC as [C1 C2 C3 C4 C5 [g C6] C7].
  pose proof (newton_linear m c _ _ _ _ _ _ _ _ _ _ _ C1 H) as HN. clear H.
  rewrite (rt_d m HT) in HN. rewrite (vadd_scale_fin d psi (rd m) z Hp Hz) in HN.
  destruct (C5 ts (rpoint d psi (rd m) (fun q => nth q z 0)) (rpoint_len _ _ _ _)) as (LF & EF). 
  set (yp := rpoint d psi (rd m) (fun q => nth q z 0)) in *.
  destruct r as [z' rr ni|rr ni|e]; [|destruct HN as (_ & HN & _); rewrite EF, forallb_nisfin in HN; discriminate HN|exact I].
  destruct HN as (_ & _ & dz & -> & _ & ES & EC). rewrite EF, C2 in ES.
  destruct (vscale_fin h (F ts yp)) as (hf & E1 & L1 & N1).
  destruct (mv_opt_fin d M z C3 Hz) as (mz & E2 & L2 & N2). rewrite E1, E2 in ES.
  destruct (vsub_fin hf mz) as (res & E3 & L3 & N3); [congruence|]. rewrite E3 in ES.
  destruct (C7 h _ _ res dz Hh HL ltac:(congruence) ES) as (dz' & -> & L4 & N4).
  destruct (vadd_fin z dz') as (z2 & E5 & L5 & N5); [congruence|]. rewrite Hz in *.
  exists z2. split; [exact E5|]. split; [congruence|]. split; [|eexists; exact EC].
  intros q Hq. rewrite (rmv_opt_lin d M z dz' z2 1 1 q Hq) by (intros l Hl; rewrite N5 by lia; ring).
  assert (EJ : rmv d J (rpoint d psi (rd m) (fun q => nth q z2 0)) q = 1 * rmv d J yp q + rd m * rmv d J dz' q).
  { apply rmv_lin. intros l Hl. unfold yp. rewrite !rpoint_nth by exact Hl. rewrite N5 by lia. ring. }
  rewrite (C6 ts (rpoint d psi (rd m) (fun q => nth q z2 0)) q (rpoint_len _ _ _ _) Hq), EJ.
  specialize (N4 q Hq). rewrite N3, N1, N2 in N4 by (first [lia|congruence]). rewrite (C6 ts yp q (rpoint_len _ _ _ _) Hq) in N4. lra.
Qed.

(** the stage equations up to stage n *)
Definition stage_eqs (t h : R) (y : list R) (ks : list (list R)) : Prop :=
  forall i, (i < length ks)%nat -> length (nth i ks []) = d /\
    forall q, (q < d)%nat -> rmv_opt d M (nth i ks []) q = nth q (F (t + rC m i * h) (rpoint d y h (lcomb (S i) (rA m i) ks))) 0.

Lemma lcomb_app k w ks x q : (k <= length ks)%nat -> lcomb k w (ks ++ [x]) q = lcomb k w ks q.
Proof. intros H. unfold lcomb. apply rsum_ext. intros l Hl. rewrite app_nth1 by lia. reflexivity. Qed.
Lemma rpoint_ext y h g g' : (forall q, (q < d)%nat -> g q = g' q) -> rpoint d y h g = rpoint d y h g'.
Proof. intros H. unfold rpoint. apply map_ext_in. intros q Hq. apply in_seq in Hq. rewrite H by lia. reflexivity. Qed.

Lemma hcomb_row h (X : list (list xr)) i n ks (y : list R) : Forall allfin X -> length ks = n -> Forall (fun k => length k = d) ks -> length y = d ->
  @vscale RX (Fin h) (lincomb d (firstn n (nth i X [])) (map (map Fin) ks)) = map Fin (map (fun q => h * lcomb n (fun l => xval (nth l (nth i X []) (Fin 0))) ks q) (seq 0 d)).
Proof.
  intros HX HK HF Hy. rewrite (lincomb_eq (A := RX)). rewrite (rowfin X i HX), firstn_map.
  destruct (hcomb_fin d (firstn n (map xval (nth i X []))) ks h HF) as (r & E & L & N).
  etransitivity; [exact E|]. f_equal. apply nth_eq_list; [rewrite map_length, seq_length; exact L|]. intros q Hq. rewrite L in Hq.
  rewrite N by exact Hq. rewrite (nth_map_seq' (fun q => h * _)) by exact Hq. f_equal. rewrite HK. unfold lcomb. apply rsum_ext. intros l Hl.
  rewrite nth_firstn_lt by exact Hl. rewrite xval_nth. rewrite <- (rowfin X i HX). reflexivity.
Qed.
Lemma vadd_map y (g : nat -> R) : length y = d -> @vadd RX (map Fin y) (map Fin (map g (seq 0 d))) = map Fin (map (fun q => nth q y 0 + g q) (seq 0 d)).
Proof.
  intros Hy. destruct (vadd_fin y (map g (seq 0 d))) as (r & E & L & N); [rewrite map_length, seq_length; exact Hy|]. rewrite E. f_equal.
  apply nth_eq_list; [rewrite map_length, seq_length; congruence|]. intros q Hq. rewrite N by congruence.
  rewrite !nth_map_seq' by congruence. reflexivity.
Qed.

Lemma estages_lin t h y L : h <> 0 -> length y = d ->
  forall left n w ks psi z r w', (n + left = em_stages m)%nat -> (1 <= n)%nat -> length ks = n -> stage_eqs t h y ks ->
  (w_Sc w, L) = iteration_matrix m c (map (map Fin) J) (Fin h) ->
  ((2 <= n)%nat -> vadd psi (vscale (em_d m) z) = map Fin (rpoint d y h (lcomb n (rA m (n - 1)) ks))) ->
  estages m c (Fin t) (Fin h) (map Fin y) L left n w (map (map Fin) ks) psi z = (r, w') ->
  match r with
  | SgOk K psi' z' => exists ks', K = map (map Fin) ks' /\ length ks' = em_stages m /\ stage_eqs t h y ks' /\ firstn n ks' = ks /\
      vadd psi' (vscale (em_d m) z') = map Fin (rpoint d y h (lcomb (em_stages m) (rA m (em_stages m - 1)) ks')) /\
      exists l, w_calls w' = (w_calls w ++ l)%list /\ map fst l = map (fun i => Fin (t + rC m i * h)) (seq n left)
  | SgDiv => False
  | SgRaise _ => True
  end.
Proof.
  intros Hh Hy. induction left as [|left IH]; intros n w ks psi z r w' Hn H1 HK HE HL HP H; cbn [estages] in H.
  - injection H as <- <-. exists ks. split; [reflexivity|]. split; [lia|]. split; [exact HE|]. split; [apply firstn_all2; lia|]. split.
    + replace (em_stages m) with n by lia. apply HP. lia.
    + exists []. rewrite app_nil_r. auto.
  - assert (HF : Forall (fun k => length k = d) ks).
    { apply Forall_forall. intros k Hk. apply (In_nth _ _ []) in Hk. destruct Hk as (i & Hi & <-). apply (HE i Hi). }
    rewrite map_length, Hy in H. pose proof (hcomb_row h (em_A m) n n ks y (rt_A m HT) HK HF Hy) as X1.
    pose proof (hcomb_row h (em_Az m) n n ks y (rt_Az m HT) HK HF Hy) as X2. change (num RX) with xr in *. 
    rewrite X1, X2 in H. clear X1 X2.
    rewrite vadd_map in H by exact Hy. cbv beta in H.
    assert (ET : nadd RX (Fin t) (nmul RX (nth n (em_C m) n0) (Fin h)) = Fin (t + rC m n * h)).
    { unfold rC. pose proof (rt_C m HT) as HCC. apply allfin_map in HCC. rewrite n0_RX. rewrite HCC at 1.
      change (num RX) with xr in *. rewrite (map_nth Fin (map xval (em_C m)) 0 n), xval_nth. reflexivity. }
    change (num RX) with xr in *. rewrite ET in H.
    match type of H with context [newton _ _ _ _ (map Fin ?p) _ _ _ _ _ (map Fin ?z) _ _] => set (psir := p) in *; set (zr := z) in * end.
    assert (Lp : length psir = d) by (unfold psir; rewrite map_length, seq_length; reflexivity).
    assert (Lz : length zr = d) by (unfold zr; rewrite map_length, seq_length; reflexivity).
    match type of H with (match ?x with (_, _) => _ end) = _ => destruct x as [nr w1] eqn:EN end.
    pose proof (newton_core _ _ _ _ _ _ _ _ _ _ _ _ _ _ _ EN) as (EC & _).
    apply (newton_lin _ _ _ _ _ _ _ _ _ _ _ Hh Lp Lz HL) in EN.
    destruct nr as [z' rr ni|rr ni|e]; [|contradiction|injection H as <- <-; exact I].
    destruct EN as (z2 & -> & Lz2 & NZ & p & Ep).
    set (k := map (fun a => a / h) z2).
    assert (Lk : length k = d) by (unfold k; rewrite map_length; exact Lz2).
    assert (Nk : forall q, nth q k 0 = nth q z2 0 / h).
    { intros q. unfold k. rewrite <- (Rmult_0_l (/ h)) at 1. change (0 * / h) with (0 / h). apply (map_nth (fun a => a / h)). }
    assert (Ek : map (fun a : xr => ndiv RX a (Fin h)) (map Fin z2) = map Fin k).
    { unfold k. rewrite !map_map. apply map_ext. intros a. cbn [ndiv RX xdiv]. unfold xdiv. destruct (Req_EM_T h 0); [contradiction|reflexivity]. }
    change (num RX) with xr in *. rewrite Ek in H.
    assert (EA : (map (map Fin) ks ++ [map Fin k])%list = map (map Fin) (ks ++ [k])) by (rewrite map_app; reflexivity).
    rewrite EA in H.
    assert (Lks : length (ks ++ [k]) = S n) by (rewrite app_length; cbn [length]; lia).
    assert (EP : rpoint d psir (rd m) (fun q => nth q z2 0) = rpoint d y h (lcomb (S n) (rA m n) (ks ++ [k]))).
    { apply nth_eq_list; [rewrite !rpoint_len; reflexivity|]. intros q Hq. rewrite rpoint_len in Hq. rewrite !rpoint_nth by exact Hq.
      unfold psir. rewrite nth_map_seq' by exact Hq. unfold lcomb at 2. cbn [rsum]. rewrite app_nth2, HK, Nat.sub_diag by lia. cbn [nth].
      rewrite (rt_diag m HT n) by lia. rewrite Nk. change (rsum n (fun k0 => rA m n k0 * nth q (nth k0 (ks ++ [k]) []) 0)) with (lcomb n (rA m n) (ks ++ [k]) q).
      rewrite lcomb_app by lia. unfold rA. change (num RX) with xr. field. exact Hh. }
    apply (IH (S n)) in H; [|lia|lia|exact Lks| | |].
    + destruct r as [K psi' z''| |e]; [|contradiction|exact I].
      destruct H as (ks' & B1 & B2 & B3 & B4 & B5 & l & B6 & B7). exists ks'. split; [exact B1|]. split; [exact B2|]. split; [exact B3|]. split.
      * assert (E : firstn n (firstn (S n) ks') = firstn n (ks ++ [k])) by (rewrite B4; reflexivity). rewrite firstn_firstn in E. replace (Nat.min n (S n)) with n in E by lia.
        rewrite E. rewrite firstn_app, HK, Nat.sub_diag. cbn [firstn]. rewrite app_nil_r. apply firstn_all2. lia.
      * split; [exact B5|]. exists ((Fin (t + rC m n * h), p) :: l). split.
        -- rewrite B6. cbn [w_rates w_calls]. rewrite Ep, <- app_assoc. reflexivity.
        -- cbn [map fst seq]. rewrite B7. reflexivity.
    + intros i Hi. rewrite Lks in Hi. destruct (Nat.eq_dec i n) as [->|Hne].
      * rewrite app_nth2, HK, Nat.sub_diag by lia. cbn [nth]. split; [exact Lk|]. intros q Hq.
        rewrite (rmv_opt_lin d M z2 z2 k (/ h) 0 q Hq) by (intros l Hl; rewrite Nk; unfold Rdiv; ring).
        rewrite NZ by exact Hq. rewrite EP. field. exact Hh.
      * rewrite app_nth1 by lia. destruct (HE i) as (G1 & G2); [lia|]. split; [exact G1|]. intros q Hq. rewrite G2 by exact Hq. do 2 f_equal.
        apply rpoint_ext. intros q0 Hq0. symmetry. apply lcomb_app. lia.
    + cbn [w_rates w_Sc]. unfold core in EC. injection EC as _ _ _ _ E5 _ _ _ _ _ _. rewrite E5. exact HL.
    + intros _. replace (S n - 1)%nat with n by lia. rewrite (rt_d m HT). rewrite (vadd_scale_fin d psir (rd m) z2 Lp Lz2). rewrite EP. reflexivity.
Qed.
End Lin.
