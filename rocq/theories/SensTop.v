(** From exact solutions of the problems handed to solve_ivp to the values returned. *)
From Coquelicot Require Import Coquelicot.
From Coq Require Import String Reals Lra Psatz Lia List Arith Bool.
From Verif Require Import Arith Common RX RKReal Series OrderThm OrderRK OrderModel ESDLin Sens SensGen Flow SensReal SensFlow.
Import ListNotations.
Close Scope string_scope. Open Scope nat_scope. Open Scope R_scope.

(** real functions behind the objective *)
Record objective (Ny Np : nat) (O : Objective RX) (g : R -> list R -> list R -> R) (gp gy : R -> list R -> list R -> list R) : Prop := {
  o_g : forall t y p, length y = Ny -> length p = Np -> u_g O (Fin t) (fin y) (fin p) = [Fin (g t y p)];
  o_p : forall t y p, length y = Ny -> length p = Np -> length (gp t y p) = Np /\ u_dgdp O (Fin t) (fin y) (fin p) = fin (gp t y p);
  o_y : forall t y p, length y = Ny -> length p = Np -> length (gy t y p) = Ny /\ u_dgdy O (Fin t) (fin y) (fin p) = fin (gy t y p) }.
(** gy = dg/dy and gp = dg/dp along y between ta and tb, remainder quadratic *)
Definition gradients_along (Ny Np : nat) (g : R -> list R -> list R -> R) (gp gy : R -> list R -> list R -> list R) (p : list R) (ta tb : R) (y : R -> list R) : Prop :=
  exists rho K B, 0 < rho /\ 0 <= K /\ 0 <= B /\ forall t, between ta tb t ->
    (forall i, (i < Ny)%nat -> Rabs (nth i (gy t (y t) p) 0) <= B) /\
    forall u p', length u = Ny -> length p' = Np -> close Ny rho u (y t) -> close Np rho p' p ->
      Rabs (g t u p' - g t (y t) p - rsum Ny (fun l => nth l (gy t (y t) p) 0 * (nth l u 0 - nth l (y t) 0)) - rsum Np (fun j => nth j (gp t (y t) p) 0 * (nth j p' 0 - nth j p 0)))
        <= K * (dist1 Ny u (y t) ^ 2 + dist1 Np p' p ^ 2).

(** every nearby parameter vector has its solution, on the whole interval *)
Definition solution_family (Ny Np : nat) (f : R -> list R -> list R -> list R) (y0 : list R -> list R) (p : list R) (t0 tf : R) (Y : list R -> R -> list R) : Prop :=
  exists r, 0 < r /\ forall p', length p' = Np -> close Np r p' p -> solves_ode Ny f p' t0 tf (Y p') /\ Y p' t0 = y0 p'.

Lemma split_len Ny (w : list R) k : length w = (Ny + k)%nat -> w = (firstn Ny w ++ skipn Ny w)%list /\ length (firstn Ny w) = Ny /\ length (skipn Ny w) = k.
Proof. intros H. rewrite firstn_skipn, firstn_length, skipn_length, H. repeat split; lia. Qed.
Section Top.
Variables (Ny Np : nat) (M : Model RX) (f : R -> list R -> list R -> list R) (J P : R -> list R -> list R -> list (list R)).
Hypothesis HM : models Ny Np M f J P.
Variables (p : list R) (t0 tf : R) (y0 : list R -> list R) (D : list (list R)) (Y : list R -> R -> list R).
Hypothesis Hp : length p = Np.
Hypothesis HD : @shaped RX Ny Np (fin2 D).
Hypothesis HJP : derivatives_along Ny Np f J P p t0 tf (Y p).
Hypothesis Hy0 : derivative_at Ny Np y0 D p.
Hypothesis HY : solution_family Ny Np f y0 p t0 tf Y.
Notation F := (fun t y => u_fun M t y (fin p)).
Notation JF := (fun t y => u_jac M t y (fin p)).
Notation PF := (fun t y => u_dfdp M t y (fin p)).

Lemma y0_len : length (y0 p) = Ny.
Proof. destruct Hy0 as (rho & K & H1 & H2 & H3). apply (H3 p Hp). apply self_close. lra. Qed.
Lemma Yp_sol : solves_ode Ny f p t0 tf (Y p) /\ Y p t0 = y0 p.
Proof. destruct HY as (r & Hr & H). apply H; [exact Hp|]. apply self_close. lra. Qed.
Lemma test_f t : @test1 RX Ny (u_fun M) (Fin t) (fin (y0 p)) (fin p) = inl F.
Proof. unfold test1. destruct (m_f _ _ _ _ _ _ HM t _ p y0_len Hp) as [L E]. rewrite E, map_length, L, Nat.eqb_refl. reflexivity. Qed.
Lemma test_P t : @test2 RX Ny Np (u_dfdp M) (Fin t) (fin (y0 p)) (fin p) = inl PF.
Proof. unfold test2. destruct (m_P _ _ _ _ _ _ HM t _ p y0_len Hp) as [L E]. rewrite E. rewrite (proj2 (shape2_spec Ny Np _) L). reflexivity. Qed.
Lemma test_J t : @test2 RX Ny Ny (u_jac M) (Fin t) (fin (y0 p)) (fin p) = inl JF.
Proof. unfold test2. destruct (m_J _ _ _ _ _ _ HM t _ p y0_len Hp) as [L E]. rewrite E. rewrite (proj2 (shape2_spec Ny Ny _) L). reflexivity. Qed.

(** the trajectory of the combined solve: y and the sensitivities *)
Lemma forward_traj at_ rtol bdf uaj u : solves_pb (forward_pb Ny Np F JF PF (Fin t0) (Fin tf) (fin (y0 p)) (fin2 D) at_ rtol bdf uaj) t0 tf u ->
  (forall t, length (u t) = (Ny * (Np + 1))%nat) /\ (forall t, between t0 tf t -> firstn Ny (u t) = Y p t) /\
  (forall j i t, (j < Np)%nat -> (i < Ny)%nat -> between t0 tf t ->
     is_derive (fun s => nth (Ny + (j * Ny + i)) (u s) 0) t (rsum Ny (fun l => ent (J t (Y p t) p) i l * nth (Ny + (j * Ny + l)) (u t) 0) + ent (P t (Y p t) p) i j)) /\
  (forall j i, (j < Np)%nat -> (i < Ny)%nat -> nth (Ny + (j * Ny + i)) (u t0) 0 = ent D i j).
Proof.
  intros (_ & _ & E0 & HL & HV). unfold forward_pb in E0, HL, HV. cbn [i_y0 i_fun] in E0, HL, HV.
  destruct (total_y0_comp Ny Np (y0 p) D y0_len HD) as (v0 & Ev & Lv & V1 & V2). rewrite Ev in E0, HL. apply fin_inj in E0.
  assert (Lu : forall t, length (u t) = (Ny * (Np + 1))%nat) by (intros t; rewrite HL, map_length; exact Lv). subst v0.
  assert (Lf : forall t, length (firstn Ny (u t)) = Ny) by (intros t; rewrite firstn_length, Lu; lia).
  assert (Q : forall t, between t0 tf t -> firstn Ny (u t) = Y p t).
  { apply (unique_solution Ny Np f J P p t0 tf Hp (Y p) (fun t => firstn Ny (u t)) HJP (proj1 Yp_sol)).
    - split; [exact Lf|]. intros t Ht i Hi. destruct (HV t Ht) as (v & Ev2 & Dv). destruct (total_fun_comp Ny Np M f J P HM p Hp t (u t) (Lu t)) as (w & Ew & Lw & W1 & W2).
      assert (v = w) by (apply fin_inj; rewrite <- Ev2; exact Ew). subst w. rewrite <- W1 by exact Hi.
      apply (is_derive_ext (V := R_NormedModule) (fun s => nth i (u s) 0)); [intros s; symmetry; apply nth_firstn, Hi|]. apply Dv. rewrite Lu. nia.
    - rewrite (proj2 Yp_sol). apply (list_ext_R Ny); [apply Lf|apply y0_len|]. intros i Hi. rewrite nth_firstn by exact Hi. apply V1, Hi. }
  split; [exact Lu|]. split; [exact Q|]. split; [|intros; apply V2; assumption].
  intros j i t Hj Hi Ht. destruct (HV t Ht) as (v & Ev2 & Dv). destruct (total_fun_comp Ny Np M f J P HM p Hp t (u t) (Lu t)) as (w & Ew & Lw & W1 & W2).
  assert (v = w) by (apply fin_inj; rewrite <- Ev2; exact Ew). subst w. rewrite <- (Q t Ht). rewrite <- W2 by assumption. apply Dv. rewrite Lu. nia.
Qed.

(** sens_forward returns the end of that trajectory *)
Lemma sens_forward_value solve atol at_ rtol t_eval bdf uaj (z : list R) :
  total_atol Ny atol (fin p) = inl at_ -> (forall te, t_eval = Some te -> nth (length te - 1) te (Fin 0) = Fin tf) ->
  solve (forward_pb Ny Np F JF PF (Fin t0) (Fin tf) (fin (y0 p)) (fin2 D) at_ rtol bdf uaj) = Some (fin z) -> length z = (Ny * (Np + 1))%nat ->
  sens_forward solve M (Fin t0) (Fin tf) (fin (y0 p)) (fin p) (fin2 D) atol rtol t_eval bdf uaj =
    inl {| f_sens := fin2 (tab Ny (fun i => tab Np (fun j => nth (Ny + (j * Ny + i)) z 0))); f_y := fin (firstn Ny z) |}.
Proof.
  intros Ha Ht Hs Lz. unfold sens_forward. rewrite !map_length, y0_len, Hp, (proj2 (shape2_spec Ny Np _) HD). cbn [negb].
  match goal with |- (if ?b then _ else _) = _ => replace b with false end.
  2: { destruct t_eval as [te|]; [|reflexivity]. specialize (Ht te eq_refl). assert (El : last te (Fin 0) = nth (length te - 1) te (Fin 0)).
       { clear. induction te as [|a te IH]; [reflexivity|]. destruct te as [|b te]; [reflexivity|]. change (last (a :: b :: te) (Fin 0)) with (last (b :: te) (Fin 0)). rewrite IH. cbn [length]. replace (S (S (length te)) - 1)%nat with (S (S (length te) - 1)) by lia. reflexivity. }
       rewrite n0_RX. change (num RX) with xr in *. rewrite El, Ht. cbn. unfold Reqb. destruct (Req_EM_T tf tf) as [|N]; [reflexivity|congruence]. }
  rewrite test_f, test_P, test_J, Ha. cbv zeta. rewrite Hs. f_equal. rewrite skipn_fin, firstn_fin. f_equal.
  unfold reshapeF. rewrite n0_RX. unfold tab. rewrite map_map. apply map_ext_in. intros i Hi. apply in_seq in Hi. rewrite map_map. apply map_ext_in. intros j Hj. apply in_seq in Hj.
  rewrite nth_fin. f_equal. apply nth_skipn.
Qed.

Lemma forward_is_derivative at_ rtol bdf uaj u j i t : solves_pb (forward_pb Ny Np F JF PF (Fin t0) (Fin tf) (fin (y0 p)) (fin2 D) at_ rtol bdf uaj) t0 tf u ->
  (j < Np)%nat -> (i < Ny)%nat -> between t0 tf t -> is_derive (fun eps => nth i (Y (bump j eps p) t) 0) 0 (nth (Ny + (j * Ny + i)) (u t) 0).
Proof.
  intros Hu Hj Hi Ht. destruct (forward_traj _ _ _ _ _ Hu) as (Lu & Q & HS & H0).
  destruct (flow_bump Ny Np f J P p t0 tf Hp Y y0 D j (fun t i => nth (Ny + (j * Ny + i)) (u t) 0) HJP Hy0 HY Hj) as (C & del & Hdel & HB).
  - intros s l Hs Hl. apply HS; assumption.
  - intros l Hl. apply H0; assumption.
  - apply (quad_derive _ _ C del Hdel). intros eps He. rewrite bump_0. apply HB; assumption.
Qed.

(** *** the adjoint runs *)
Variables (O : Objective RX) (g : R -> list R -> list R -> R) (gp gy : R -> list R -> list R -> list R).
Hypothesis HO : objective Ny Np O g gp gy.
Lemma test_g t : @test1 RX 1 (u_g O) (Fin t) (fin (y0 p)) (fin p) = inl (fun t y => u_g O t y (fin p)).
Proof. unfold test1. rewrite (o_g _ _ _ _ _ _ HO t _ p y0_len Hp). reflexivity. Qed.
Lemma test_gp t : @test1 RX Np (u_dgdp O) (Fin t) (fin (y0 p)) (fin p) = inl (fun t y => u_dgdp O t y (fin p)).
Proof. unfold test1. destruct (o_p _ _ _ _ _ _ HO t _ p y0_len Hp) as [L E]. rewrite E, map_length, L, Nat.eqb_refl. reflexivity. Qed.
Lemma test_gy t : @test1 RX Ny (u_dgdy O) (Fin t) (fin (y0 p)) (fin p) = inl (fun t y => u_dgdy O t y (fin p)).
Proof. unfold test1. destruct (o_y _ _ _ _ _ _ HO t _ p y0_len Hp) as [L E]. rewrite E, map_length, L, Nat.eqb_refl. reflexivity. Qed.

Lemma D_shape : length D = Ny. Proof. exact (proj1 (proj1 (shaped_fin _ _ _) HD)). Qed.
Lemma Yp_len t : length (Y p t) = Ny. Proof. exact (proj1 (proj1 Yp_sol) t). Qed.
Notation Gf := (fun t y => u_g O t y (fin p)).
Notation GPf := (fun t y => u_dgdp O t y (fin p)).
Notation GYf := (fun t y => u_dgdy O t y (fin p)).


Lemma adj_end_value dense solve implicit rtol atol aj aq sol_y yd (w : list R) :
  forward_dense dense sol_y implicit F JF (Fin t0) (Fin tf) (fin (y0 p)) atol rtol = inl yd -> yd (Fin tf) = fin (Y p tf) ->
  solve (adj_end_pb Ny Np yd JF PF GYf (Fin t0) (Fin tf) rtol aj aq implicit) = Some (fin w) -> length w = (Ny + Np)%nat ->
  sens_adjoint_end dense solve M O (Fin t0) (Fin tf) (fin (y0 p)) (fin p) (fin2 D) implicit rtol atol aj aq sol_y =
    inl {| ae_sens := fin (tab Np (fun j => nth j (gp tf (Y p tf) p) 0 + rsum Ny (fun i => nth i w 0 * ent D i j) - nth (Ny + j) w 0)); ae_g := [Fin (g tf (Y p tf) p)] |}.
Proof.
  intros Hd Ey Hs Lw. unfold sens_adjoint_end. rewrite !map_length, y0_len, Hp, (proj2 (shape2_spec Ny Np _) HD). cbn [negb].
  rewrite test_f, test_P, test_J, test_gy, test_gp, test_g, Hd. cbv zeta. rewrite Hs. f_equal. rewrite Ey.
  rewrite (o_g _ _ _ _ _ _ HO) by (apply Yp_len || exact Hp). destruct (o_p _ _ _ _ _ _ HO tf _ p (Yp_len tf) Hp) as [Lg Eg]. rewrite Eg.
  rewrite firstn_fin, skipn_fin. destruct (split_len Ny w Np Lw) as (_ & L1 & L2). f_equal.
  rewrite (vecmat_fin Ny Np _ D D_shape L1). rewrite (vadd_fin' _ _ Np Lg (tab_len _ _)), vopp_fin. rewrite (vadd_fin' _ _ Np (tab_len _ _)) by (rewrite map_length; exact L2).
  f_equal. apply tab_ext. intros j Hj. rewrite !tab_nth by exact Hj. rewrite (nth_mapd _ _ _ 0) by (rewrite L2; exact Hj). rewrite nth_skipn. unfold Rminus. f_equal. f_equal.
  apply rsum_ext. intros i Hi. rewrite nth_firstn by exact Hi. reflexivity.
Qed.

Lemma adj_end_traj yd rtol aj aq implicit w : (forall t, between t0 tf t -> yd (Fin t) = fin (Y p t)) ->
  solves_pb (adj_end_pb Ny Np yd JF PF GYf (Fin t0) (Fin tf) rtol aj aq implicit) tf t0 w ->
  (forall t, length (w t) = (Ny + Np)%nat) /\
  (forall t i, between t0 tf t -> (i < Ny)%nat -> is_derive (fun s => nth i (w s) 0) t (- (rsum Ny (fun l => ent (J t (Y p t) p) l i * nth l (w t) 0) + 0))) /\
  (forall t j, between t0 tf t -> (j < Np)%nat -> is_derive (fun s => nth (Ny + j) (w s) 0) t (rsum Ny (fun l => ent (P t (Y p t) p) l j * nth l (w t) 0) + 0)) /\
  (forall i, (i < Ny)%nat -> nth i (w tf) 0 = nth i (gy tf (Y p tf) p) 0) /\ (forall j, (j < Np)%nat -> nth (Ny + j) (w tf) 0 = 0).
Proof.
  intros Hy (_ & _ & E0 & HL & HV). unfold adj_end_pb in E0, HL, HV. cbn [i_y0 i_fun] in E0, HL, HV.
  rewrite (Hy tf (between_r _ _)) in E0, HL. destruct (o_y _ _ _ _ _ _ HO tf _ p (Yp_len tf) Hp) as [Lg Eg]. rewrite Eg in E0, HL.
  assert (Lw : forall t, length (w t) = (Ny + Np)%nat) by (intros t; rewrite HL, app_length, map_length, repeat_length, Lg; reflexivity).
  assert (Ew : w tf = (gy tf (Y p tf) p ++ repeat 0 Np)%list). { apply fin_inj. rewrite <- E0, map_app. f_equal. rewrite n0_RX. clear. induction Np; cbn; [reflexivity|]. f_equal. assumption. }
  split; [exact Lw|].
  assert (HV' : forall t, between t0 tf t -> exists v, (forall q, (q < Ny + Np)%nat -> is_derive (fun s => nth q (w s) 0) t (nth q v 0)) /\
     (forall i, (i < Ny)%nat -> nth i v 0 = - rsum Ny (fun l => ent (J t (Y p t) p) l i * nth l (w t) 0)) /\ (forall j, (j < Np)%nat -> nth (Ny + j) v 0 = rsum Ny (fun l => ent (P t (Y p t) p) l j * nth l (w t) 0))).
  { intros t Ht. destruct (HV t (between_sym _ _ _ Ht)) as (v & Ev & Dv). destruct (split_len Ny (w t) Np (Lw t)) as (Es & L1 & L2).
    destruct (bw_end_comp Ny Np M f J P HM p Hp yd (Y p) t (firstn Ny (w t)) (skipn Ny (w t)) (Hy t Ht) (Yp_len t) L1) as (v' & Ev' & Lv' & V1 & V2).
    rewrite <- Es in Ev'. assert (v = v') by (apply fin_inj; rewrite <- Ev; exact Ev'). subst v'. exists v. split; [intros q Hq; apply Dv; rewrite Lw; exact Hq|]. split.
    - intros i Hi. rewrite V1 by exact Hi. f_equal. apply rsum_ext. intros l Hl. rewrite nth_firstn by exact Hl. reflexivity.
    - intros j Hj. rewrite V2 by exact Hj. apply rsum_ext. intros l Hl. rewrite nth_firstn by exact Hl. reflexivity. }
  split; [|split; [|split]].
  - intros t i Ht Hi. destruct (HV' t Ht) as (v & Dv & V1 & _). rewrite Rplus_0_r, <- V1 by exact Hi. apply Dv. lia.
  - intros t j Ht Hj. destruct (HV' t Ht) as (v & Dv & _ & V2). rewrite Rplus_0_r, <- V2 by exact Hj. apply Dv. lia.
  - intros i Hi. rewrite Ew. apply app_nth1. rewrite Lg. exact Hi.
  - intros j Hj. rewrite Ew. rewrite app_nth2 by (rewrite Lg; lia). apply nth_repeat.
Qed.

(** the end-point identity *)
Lemma end_identity at_ rtol bdf uaj u yd rtol2 aj aq implicit w j : solves_pb (forward_pb Ny Np F JF PF (Fin t0) (Fin tf) (fin (y0 p)) (fin2 D) at_ rtol bdf uaj) t0 tf u ->
  (forall t, between t0 tf t -> yd (Fin t) = fin (Y p t)) -> solves_pb (adj_end_pb Ny Np yd JF PF GYf (Fin t0) (Fin tf) rtol2 aj aq implicit) tf t0 w -> (j < Np)%nat ->
  rsum Ny (fun i => nth i (w t0) 0 * ent D i j) - nth (Ny + j) (w t0) 0 = rsum Ny (fun i => nth i (gy tf (Y p tf) p) 0 * nth (Ny + (j * Ny + i)) (u tf) 0).
Proof.
  intros Hu Hyd Hw Hj. destruct (forward_traj _ _ _ _ _ Hu) as (Lu & Q & HS & H0). destruct (adj_end_traj _ _ _ _ _ _ Hyd Hw) as (Lw & W1 & W2 & W3 & W4).
  pose proof (W_const Ny t0 tf (fun t i l => ent (J t (Y p t) p) i l) (fun t i => ent (P t (Y p t) p) i j) (fun _ _ => 0) (fun _ => 0)
    (fun t i => nth (Ny + (j * Ny + i)) (u t) 0) (fun t i => nth i (w t) 0) (fun t => nth (Ny + j) (w t) 0)) as E. cbv beta in E.
  rewrite (rsum_ext Ny (fun i => nth i (w t0) 0 * ent D i j) (fun i => nth i (w t0) 0 * nth (Ny + (j * Ny + i)) (u t0) 0)) by (intros i Hi; rewrite H0 by assumption; reflexivity).
  rewrite E.
  - rewrite (W4 j Hj). rewrite Rminus_0_r. apply rsum_ext. intros i Hi. rewrite W3 by exact Hi. reflexivity.
  - intros t i Ht Hi. apply HS; assumption.
  - intros t i Ht Hi. apply W1; assumption.
  - intros t Ht. apply W2; assumption.
  - intros t _. rewrite rsum_zero; [ring|intros; ring].
Qed.

(** composing with the objective *)
Lemma obj_bump (j : nat) (S : R -> nat -> R) ta tb : gradients_along Ny Np g gp gy p ta tb (Y p) -> (j < Np)%nat -> (forall t, between ta tb t -> between t0 tf t) ->
  (exists C del, 0 < del /\ forall eps, Rabs eps <= del -> forall t, between t0 tf t -> forall i, (i < Ny)%nat -> Rabs (nth i (Y (bump j eps p) t) 0 - nth i (Y p t) 0 - eps * S t i) <= C * eps ^ 2) ->
  (forall i, (i < Ny)%nat -> exists B, forall t, between t0 tf t -> Rabs (S t i) <= B) ->
  exists C del, 0 <= C /\ 0 < del /\ forall eps, Rabs eps <= del -> forall t, between ta tb t ->
    Rabs (g t (Y (bump j eps p) t) (bump j eps p) - g t (Y p t) p - eps * (rsum Ny (fun i => nth i (gy t (Y p t) p) 0 * S t i) + nth j (gp t (Y p t) p) 0)) <= C * eps ^ 2.
Proof.
  intros (rho & K & B & Hrho & HK & HB & HG) Hj Hin (C & del & Hdel & HF) HS. destruct HY as (r & Hr & HYr).
  assert (HS' : exists BS, 0 <= BS /\ forall t, between t0 tf t -> forall i, (i < Ny)%nat -> Rabs (S t i) <= BS).
  { assert (X : forall m, (m <= Ny)%nat -> exists BS, 0 <= BS /\ forall t, between t0 tf t -> forall i, (i < m)%nat -> Rabs (S t i) <= BS).
    { induction m as [|m IH]; intros Hm; [exists 0; split; [lra|]; intros; lia|]. destruct (IH ltac:(lia)) as (b1 & H1 & H2). destruct (HS m ltac:(lia)) as (b2 & H3).
      exists (Rmax b1 b2). split; [eapply Rle_trans; [exact H1|apply Rmax_l]|]. intros t Ht i Hi. destruct (Nat.eq_dec i m) as [->|N]; [eapply Rle_trans; [apply H3, Ht|apply Rmax_r]|]. eapply Rle_trans; [apply H2; [exact Ht|lia]|apply Rmax_l]. }
    apply X. lia. }
  destruct HS' as (BS & HBS & HSb). set (C' := Rabs C). assert (HC' : 0 <= C') by apply Rabs_pos. set (L := C' + BS).
  set (d := Rmin (Rmin del r) (Rmin (rho / (L + 1)) (Rmin rho 1))). assert (HL : 0 <= L) by (unfold L; lra).
  assert (Hq : 0 < rho / (L + 1)) by (apply Rdiv_lt_0_compat; lra).
  assert (Hd : 0 < d) by (unfold d; repeat apply Rmin_glb_lt; lra).
  assert (D1 : d <= del) by (unfold d; eapply Rle_trans; [apply Rmin_l|apply Rmin_l]). assert (D2 : d <= r) by (unfold d; eapply Rle_trans; [apply Rmin_l|apply Rmin_r]).
  assert (D3 : d <= rho / (L + 1)) by (unfold d; eapply Rle_trans; [apply Rmin_r|apply Rmin_l]). assert (D4 : d <= rho) by (unfold d; eapply Rle_trans; [apply Rmin_r|eapply Rle_trans; [apply Rmin_r|apply Rmin_l]]).
  assert (D5 : d <= 1) by (unfold d; eapply Rle_trans; [apply Rmin_r|eapply Rle_trans; [apply Rmin_r|apply Rmin_r]]).
  exists (K * ((INR Ny * L) ^ 2 + 1) + INR Ny * (B * C')), d. pose proof (pos_INR Ny) as HN. split; [|split; [exact Hd|]].
  { assert (0 <= (INR Ny * L) ^ 2) by nra. assert (0 <= B * C') by nra. assert (0 <= INR Ny * (B * C')) by nra. nra. }
  intros eps He t Ht. pose proof (Hin t Ht) as Ht'. destruct (HG t Ht) as (HGb & HR). pose proof (Rabs_pos eps) as E0.
  assert (Lb : length (bump j eps p) = Np) by (rewrite bump_len; exact Hp).
  assert (Cl : forall x, d <= x -> close Np x (bump j eps p) p) by (intros x Hx; rewrite <- Hp; apply bump_close; lra).
  destruct (HYr _ Lb (Cl r D2)) as [[Ly _] _].
  assert (E2 : eps ^ 2 <= Rabs eps) by (rewrite <- (pow2_abs eps); nra). assert (E2p : 0 <= eps ^ 2) by nra.
  assert (F2 : forall i, (i < Ny)%nat -> Rabs (nth i (Y (bump j eps p) t) 0 - nth i (Y p t) 0 - eps * S t i) <= C' * eps ^ 2).
  { intros i Hi. eapply Rle_trans; [apply HF; [lra|exact Ht'|exact Hi]|]. apply Rmult_le_compat_r; [exact E2p|apply Rle_abs]. }
  assert (F1 : forall i, (i < Ny)%nat -> Rabs (nth i (Y (bump j eps p) t) 0 - nth i (Y p t) 0) <= L * Rabs eps).
  { intros i Hi. specialize (F2 i Hi). specialize (HSb t Ht' i Hi). replace (nth i (Y (bump j eps p) t) 0 - nth i (Y p t) 0) with ((nth i (Y (bump j eps p) t) 0 - nth i (Y p t) 0 - eps * S t i) + eps * S t i) by ring.
    eapply Rle_trans; [apply Rabs_triang|]. rewrite Rabs_mult. unfold L. assert (C' * eps ^ 2 <= C' * Rabs eps) by (apply Rmult_le_compat_l; assumption). assert (Rabs eps * Rabs (S t i) <= Rabs eps * BS) by (apply Rmult_le_compat_l; assumption). lra. }
  assert (HC : close Ny rho (Y (bump j eps p) t) (Y p t)).
  { intros i Hi. eapply Rle_trans; [apply F1, Hi|]. apply Rle_trans with (L * (rho / (L + 1))); [apply Rmult_le_compat_l; lra|]. unfold Rdiv. apply Rmult_le_reg_r with (L + 1); [lra|]. rewrite !Rmult_assoc, Rinv_l by lra. nra. }
  specialize (HR (Y (bump j eps p) t) (bump j eps p) (Ly t) Lb HC (Cl rho D4)).
  assert (Hj' : (j < length p)%nat) by lia. assert (EP := bump_lin j eps p (fun j => nth j (gp t (Y p t) p) 0) Hj'). rewrite Hp in EP. rewrite EP in HR. assert (ED := bump_dist j eps p Hj'). rewrite Hp in ED. rewrite ED, pow2_abs in HR. clear EP ED.
  assert (DD : dist1 Ny (Y (bump j eps p) t) (Y p t) <= INR Ny * L * Rabs eps). { rewrite Rmult_assoc. unfold dist1. rewrite <- rsum_const. apply rsum_le. intros i Hi. apply F1, Hi. }
  assert (D0 : 0 <= dist1 Ny (Y (bump j eps p) t) (Y p t)) by (apply rsum_nonneg; intros; apply Rabs_pos).
  assert (DQ : dist1 Ny (Y (bump j eps p) t) (Y p t) ^ 2 <= (INR Ny * L) ^ 2 * eps ^ 2). { rewrite <- (pow2_abs eps). replace ((INR Ny * L) ^ 2 * Rabs eps ^ 2) with ((INR Ny * L * Rabs eps) ^ 2) by ring. apply pow_incr. lra. }
  assert (HK2 : K * (dist1 Ny (Y (bump j eps p) t) (Y p t) ^ 2 + eps ^ 2) <= K * ((INR Ny * L) ^ 2 + 1) * eps ^ 2) by (rewrite (Rmult_assoc K); apply Rmult_le_compat_l; [exact HK|lra]).
  set (q := fun i => nth i (Y (bump j eps p) t) 0 - nth i (Y p t) 0) in *. set (G0 := fun i => nth i (gy t (Y p t) p) 0).
  assert (EG : rsum Ny (fun i => G0 i * (q i - eps * S t i)) = rsum Ny (fun i => G0 i * q i) - eps * rsum Ny (fun i => G0 i * S t i)).
  { rewrite <- rsum_scal, <- rsum_sub. apply rsum_ext. intros; ring. }
  assert (BG : Rabs (rsum Ny (fun i => G0 i * (q i - eps * S t i))) <= INR Ny * (B * C') * eps ^ 2).
  { rewrite Rmult_assoc, <- rsum_const. apply rsum_abs_le'. intros i Hi. rewrite Rabs_mult, Rmult_assoc. apply Rmult_le_compat; [apply Rabs_pos|apply Rabs_pos|apply HGb, Hi|apply F2, Hi]. }
  change (rsum Ny (fun l => nth l (gy t (Y p t) p) 0 * (nth l (Y (bump j eps p) t) 0 - nth l (Y p t) 0))) with (rsum Ny (fun i => G0 i * q i)) in HR.
  change (rsum Ny (fun i => nth i (gy t (Y p t) p) 0 * S t i)) with (rsum Ny (fun i => G0 i * S t i)).
  set (dg := g t (Y (bump j eps p) t) (bump j eps p) - g t (Y p t) p) in *. set (gpj := nth j (gp t (Y p t) p) 0) in *.
  replace (dg - eps * (rsum Ny (fun i => G0 i * S t i) + gpj)) with ((dg - rsum Ny (fun i => G0 i * q i) - eps * gpj) + rsum Ny (fun i => G0 i * (q i - eps * S t i))) by (rewrite EG; ring).
  eapply Rle_trans; [apply Rabs_triang|]. lra.
Qed.

Lemma bounded_between (S : R -> R) : (forall t, between t0 tf t -> ex_derive S t) -> exists B, forall t, between t0 tf t -> Rabs (S t) <= B.
Proof.
  intros H. assert (HC : forall c, Rmin t0 tf <= c <= Rmax t0 tf -> continuity_pt S c) by (intros c Hc; apply continuity_pt_filterlim, (ex_derive_continuous S c), H, Hc).
  assert (L : Rmin t0 tf <= Rmax t0 tf) by apply Rminmax.
  destruct (continuity_ab_maj S _ _ L HC) as (xM & H1 & _). destruct (continuity_ab_min S _ _ L HC) as (xm & H2 & _).
  exists (Rmax (Rabs (S xM)) (Rabs (S xm))). intros t Ht. specialize (H1 t Ht). specialize (H2 t Ht). pose proof (Rmax_l (Rabs (S xM)) (Rabs (S xm))). pose proof (Rmax_r (Rabs (S xM)) (Rabs (S xm))). pose proof (Rle_abs (S xM)). pose proof (Rle_abs (- S xm)) as Q. rewrite Rabs_Ropp in Q. apply Rabs_le. lra.
Qed.
Lemma forward_uniform at_ rtol bdf uaj u j : solves_pb (forward_pb Ny Np F JF PF (Fin t0) (Fin tf) (fin (y0 p)) (fin2 D) at_ rtol bdf uaj) t0 tf u -> (j < Np)%nat ->
  (exists C del, 0 < del /\ forall eps, Rabs eps <= del -> forall t, between t0 tf t -> forall i, (i < Ny)%nat -> Rabs (nth i (Y (bump j eps p) t) 0 - nth i (Y p t) 0 - eps * nth (Ny + (j * Ny + i)) (u t) 0) <= C * eps ^ 2) /\
  (forall i, (i < Ny)%nat -> exists B, forall t, between t0 tf t -> Rabs (nth (Ny + (j * Ny + i)) (u t) 0) <= B).
Proof.
  intros Hu Hj. destruct (forward_traj _ _ _ _ _ Hu) as (Lu & Q & HS & H0). split.
  - apply (flow_bump Ny Np f J P p t0 tf Hp Y y0 D j (fun t i => nth (Ny + (j * Ny + i)) (u t) 0) HJP Hy0 HY Hj).
    + intros s l Hs Hl. apply HS; assumption.
    + intros l Hl. apply H0; assumption.
  - intros i Hi. apply (bounded_between (fun t => nth (Ny + (j * Ny + i)) (u t) 0)). intros t Ht. eexists. apply HS; assumption.
Qed.
Lemma end_gradient at_ rtol bdf uaj u j : solves_pb (forward_pb Ny Np F JF PF (Fin t0) (Fin tf) (fin (y0 p)) (fin2 D) at_ rtol bdf uaj) t0 tf u -> (j < Np)%nat ->
  gradients_along Ny Np g gp gy p tf tf (Y p) ->
  is_derive (fun eps => g tf (Y (bump j eps p) tf) (bump j eps p)) 0 (rsum Ny (fun i => nth i (gy tf (Y p tf) p) 0 * nth (Ny + (j * Ny + i)) (u tf) 0) + nth j (gp tf (Y p tf) p) 0).
Proof.
  intros Hu Hj HG. destruct (forward_uniform _ _ _ _ _ j Hu Hj) as [H1 H2].
  destruct (obj_bump j (fun t i => nth (Ny + (j * Ny + i)) (u t) 0) tf tf HG Hj) as (C & del & HC & Hdel & Q); [|exact H1|exact H2|].
  - intros t [T1 T2]. rewrite Rmin_left in T1 by lra. rewrite Rmax_left in T2 by lra. replace t with tf by lra. apply between_r.
  - apply (quad_derive _ _ C del Hdel). intros eps He. rewrite bump_0. apply Q; [exact He|apply between_l].
Qed.

(** *** the integral objective *)
Lemma adj_int_value dense solve implicit rtol atol aj aq aG sol_y yd (w : list R) :
  forward_dense dense sol_y implicit F JF (Fin t0) (Fin tf) (fin (y0 p)) atol rtol = inl yd ->
  solve (adj_int_pb Ny Np yd JF PF Gf GPf GYf (Fin t0) (Fin tf) rtol aj aq aG implicit) = Some (fin w) -> length w = (Ny + Np + 1)%nat ->
  sens_adjoint_int dense solve M O (Fin t0) (Fin tf) (fin (y0 p)) (fin p) (fin2 D) implicit rtol atol aj aq aG sol_y =
    inl {| ai_sens := fin (tab Np (fun j => rsum Ny (fun i => nth i w 0 * ent D i j) - nth (Ny + j) w 0)); ai_G := Fin (- nth (Ny + Np) w 0) |}.
Proof.
  intros Hd Hs Lw. unfold sens_adjoint_int. rewrite !map_length, y0_len, Hp, (proj2 (shape2_spec Ny Np _) HD). cbn [negb].
  rewrite test_f, test_P, test_J, test_gy, test_gp, test_g, Hd. cbv zeta. rewrite Hs. f_equal.
  rewrite firstn_fin, skipn_fin. destruct (split_len Ny w (Np + 1) ltac:(lia)) as (Ew & L1 & L2).
  assert (Er : exists r x, skipn Ny w = (r ++ [x])%list). { destruct (exists_last (l := skipn Ny w)) as (r & x & E); [intros E; rewrite E in L2; cbn in L2; lia|]. exists r, x. exact E. }
  destruct Er as (r & x & Er). assert (Lr : length r = Np) by (rewrite Er, app_length in L2; cbn in L2; lia).
  assert (Nr : forall j, (j < Np)%nat -> nth j r 0 = nth (Ny + j) w 0). { intros j Hj. rewrite <- nth_skipn, Er, app_nth1 by lia. reflexivity. }
  assert (Nx : x = nth (Ny + Np) w 0). { rewrite <- nth_skipn, Er, app_nth2 by lia. rewrite Lr, Nat.sub_diag. reflexivity. }
  f_equal.
  - rewrite Er, map_app. cbn [map]. rewrite removelast_last. rewrite (vecmat_fin Ny Np _ D D_shape L1), vopp_fin. rewrite (vadd_fin' _ _ Np (tab_len _ _)) by (rewrite map_length; exact Lr).
    f_equal. apply tab_ext. intros j Hj. rewrite !tab_nth by exact Hj. rewrite (nth_mapd _ _ _ 0) by (rewrite Lr; exact Hj). rewrite Nr by exact Hj. unfold Rminus. f_equal.
    apply rsum_ext. intros i Hi. rewrite nth_firstn by exact Hi. reflexivity.
  - assert (El : last (fin w) n0 = Fin x). { rewrite Ew, Er, app_assoc, map_app. cbn [map]. apply last_last. }
    change (num RX) with xr in *. rewrite El. cbn. rewrite Nx. reflexivity.
Qed.

Lemma adj_int_traj yd rtol aj aq aG implicit w : (forall t, between t0 tf t -> yd (Fin t) = fin (Y p t)) ->
  solves_pb (adj_int_pb Ny Np yd JF PF Gf GPf GYf (Fin t0) (Fin tf) rtol aj aq aG implicit) tf t0 w ->
  (forall t, length (w t) = (Ny + Np + 1)%nat) /\
  (forall t i, between t0 tf t -> (i < Ny)%nat -> is_derive (fun s => nth i (w s) 0) t (- (rsum Ny (fun l => ent (J t (Y p t) p) l i * nth l (w t) 0) + nth i (gy t (Y p t) p) 0))) /\
  (forall t j, between t0 tf t -> (j < Np)%nat -> is_derive (fun s => nth (Ny + j) (w s) 0) t (rsum Ny (fun l => ent (P t (Y p t) p) l j * nth l (w t) 0) + nth j (gp t (Y p t) p) 0)) /\
  (forall t, between t0 tf t -> is_derive (fun s => nth (Ny + Np) (w s) 0) t (g t (Y p t) p)) /\ (forall q, nth q (w tf) 0 = 0).
Proof.
  intros Hy (_ & _ & E0 & HL & HV). unfold adj_int_pb in E0, HL, HV. cbn [i_y0 i_fun] in E0, HL, HV.
  assert (Lw : forall t, length (w t) = (Ny + Np + 1)%nat) by (intros t; rewrite HL, repeat_length; reflexivity).
  assert (Ew : w tf = repeat 0 (Ny + Np + 1)). { apply fin_inj. rewrite <- E0, n0_RX. generalize (Ny + Np + 1)%nat. clear. induction n; cbn; [reflexivity|]. f_equal. assumption. }
  split; [exact Lw|].
  assert (HV' : forall t, between t0 tf t -> exists v, (forall q, (q < Ny + Np + 1)%nat -> is_derive (fun s => nth q (w s) 0) t (nth q v 0)) /\
     (forall i, (i < Ny)%nat -> nth i v 0 = - (rsum Ny (fun l => ent (J t (Y p t) p) l i * nth l (w t) 0) + nth i (gy t (Y p t) p) 0)) /\ (forall j, (j < Np)%nat -> nth (Ny + j) v 0 = rsum Ny (fun l => ent (P t (Y p t) p) l j * nth l (w t) 0) + nth j (gp t (Y p t) p) 0) /\
     nth (Ny + Np) v 0 = g t (Y p t) p).
  { intros t Ht. destruct (HV t (between_sym _ _ _ Ht)) as (v & Ev & Dv). destruct (split_len Ny (w t) (Np + 1) ltac:(rewrite Lw; lia)) as (Es & L1 & L2).
    destruct (o_y _ _ _ _ _ _ HO t _ p (Yp_len t) Hp) as [Lgy Egy]. destruct (o_p _ _ _ _ _ _ HO t _ p (Yp_len t) Hp) as [Lgp Egp].
    destruct (bw_int_comp Ny Np M f J P HM p Hp yd (Y p) Gf GPf GYf t (firstn Ny (w t)) (skipn Ny (w t)) (g t (Y p t) p) _ _ (Hy t Ht) (Yp_len t) L1 (o_g _ _ _ _ _ _ HO t _ p (Yp_len t) Hp) Egp Lgp Egy Lgy) as (v' & Ev' & Lv' & V1 & V2 & V3).
    rewrite <- Es in Ev'. assert (v = v') by (apply fin_inj; rewrite <- Ev; exact Ev'). subst v'. exists v. split; [intros q Hq; apply Dv; rewrite Lw; exact Hq|]. split; [|split; [|exact V3]].
    - intros i Hi. rewrite V1 by exact Hi. f_equal. f_equal. apply rsum_ext. intros l Hl. rewrite nth_firstn by exact Hl. reflexivity.
    - intros j Hj. rewrite V2 by exact Hj. f_equal. apply rsum_ext. intros l Hl. rewrite nth_firstn by exact Hl. reflexivity. }
  split; [|split; [|split]].
  - intros t i Ht Hi. destruct (HV' t Ht) as (v & Dv & V1 & _). rewrite <- V1 by exact Hi. apply Dv. lia.
  - intros t j Ht Hj. destruct (HV' t Ht) as (v & Dv & _ & V2 & _). rewrite <- V2 by exact Hj. apply Dv. lia.
  - intros t Ht. destruct (HV' t Ht) as (v & Dv & _ & _ & V3). rewrite <- V3. apply Dv. lia.
  - intros q. rewrite Ew. apply nth_repeat.
Qed.

Lemma int_identity at_ rtol bdf uaj u yd rtol2 aj aq aG implicit w j : solves_pb (forward_pb Ny Np F JF PF (Fin t0) (Fin tf) (fin (y0 p)) (fin2 D) at_ rtol bdf uaj) t0 tf u ->
  (forall t, between t0 tf t -> yd (Fin t) = fin (Y p t)) -> solves_pb (adj_int_pb Ny Np yd JF PF Gf GPf GYf (Fin t0) (Fin tf) rtol2 aj aq aG implicit) tf t0 w -> (j < Np)%nat ->
  (forall t i, between t0 tf t -> (i < Ny)%nat -> continuous (fun s => nth i (gy s (Y p s) p) 0) t) -> (forall t, between t0 tf t -> continuous (fun s => nth j (gp s (Y p s) p) 0) t) ->
  is_RInt (fun t => rsum Ny (fun i => nth i (gy t (Y p t) p) 0 * nth (Ny + (j * Ny + i)) (u t) 0) + nth j (gp t (Y p t) p) 0) t0 tf
    (rsum Ny (fun i => nth i (w t0) 0 * ent D i j) - nth (Ny + j) (w t0) 0).
Proof.
  intros Hu Hyd Hw Hj C1 C2. destruct (forward_traj _ _ _ _ _ Hu) as (Lu & Q & HS & H0). destruct (adj_int_traj _ _ _ _ _ _ _ Hyd Hw) as (Lw & W1 & W2 & W3 & W4).
  pose proof (W_int Ny t0 tf (fun t i l => ent (J t (Y p t) p) i l) (fun t i => ent (P t (Y p t) p) i j) (fun t i => nth i (gy t (Y p t) p) 0) (fun t => nth j (gp t (Y p t) p) 0)
    (fun t i => nth (Ny + (j * Ny + i)) (u t) 0) (fun t i => nth i (w t) 0) (fun t => nth (Ny + j) (w t) 0)) as E. cbv beta in E.
  rewrite (rsum_ext Ny (fun i => nth i (w t0) 0 * ent D i j) (fun i => nth i (w t0) 0 * nth (Ny + (j * Ny + i)) (u t0) 0)) by (intros i Hi; rewrite H0 by assumption; reflexivity).
  replace (rsum Ny (fun i => nth i (w t0) 0 * nth (Ny + (j * Ny + i)) (u t0) 0) - nth (Ny + j) (w t0) 0) with
    (rsum Ny (fun i => nth i (w t0) 0 * nth (Ny + (j * Ny + i)) (u t0) 0) - nth (Ny + j) (w t0) 0 - (rsum Ny (fun i => nth i (w tf) 0 * nth (Ny + (j * Ny + i)) (u tf) 0) - nth (Ny + j) (w tf) 0)).
  2: { rewrite (rsum_zero Ny (fun i => nth i (w tf) 0 * _)) by (intros; rewrite W4; ring). rewrite (W4 (Ny + j)%nat). ring. }
  apply E; auto.
Qed.
Lemma int_value yd rtol2 aj aq aG implicit w : (forall t, between t0 tf t -> yd (Fin t) = fin (Y p t)) ->
  solves_pb (adj_int_pb Ny Np yd JF PF Gf GPf GYf (Fin t0) (Fin tf) rtol2 aj aq aG implicit) tf t0 w ->
  (forall t, between t0 tf t -> continuous (fun s => g s (Y p s) p) t) -> is_RInt (fun t => g t (Y p t) p) t0 tf (- nth (Ny + Np) (w t0) 0).
Proof.
  intros Hyd Hw HC. destruct (adj_int_traj _ _ _ _ _ _ _ Hyd Hw) as (Lw & W1 & W2 & W3 & W4).
  replace (- nth (Ny + Np) (w t0) 0) with (minus (nth (Ny + Np) (w tf) 0) (nth (Ny + Np) (w t0) 0)) by (rewrite W4; unfold minus, plus, opp; cbn; ring).
  apply (is_RInt_derive (V := R_CompleteNormedModule) (fun t => nth (Ny + Np) (w t) 0) (fun t => g t (Y p t) p)); intros t Ht; [apply W3; exact Ht|apply HC; exact Ht].
Qed.
Lemma int_gradient at_ rtol bdf uaj u j sens (Gv : R -> R) : solves_pb (forward_pb Ny Np F JF PF (Fin t0) (Fin tf) (fin (y0 p)) (fin2 D) at_ rtol bdf uaj) t0 tf u -> (j < Np)%nat ->
  gradients_along Ny Np g gp gy p t0 tf (Y p) ->
  is_RInt (fun t => rsum Ny (fun i => nth i (gy t (Y p t) p) 0 * nth (Ny + (j * Ny + i)) (u t) 0) + nth j (gp t (Y p t) p) 0) t0 tf sens ->
  (exists r, 0 < r /\ forall eps, Rabs eps <= r -> is_RInt (fun t => g t (Y (bump j eps p) t) (bump j eps p)) t0 tf (Gv eps)) ->
  is_derive Gv 0 sens.
Proof.
  intros Hu Hj HG HI (r & Hr & HGv). destruct (forward_uniform _ _ _ _ _ j Hu Hj) as [H1 H2].
  destruct (obj_bump j (fun t i => nth (Ny + (j * Ny + i)) (u t) 0) t0 tf HG Hj (fun t H => H) H1 H2) as (C & del & HC & Hdel & Q).
  apply (quad_derive _ _ (Rabs (tf - t0) * C) (Rmin del r)); [apply Rmin_glb_lt; assumption|]. intros eps He.
  pose proof (Rmin_l del r). pose proof (Rmin_r del r). pose proof (HGv eps ltac:(lra)) as I1. pose proof (HGv 0 ltac:(rewrite Rabs_R0; lra)) as I0. rewrite bump_0 in I0.
  pose proof (is_RInt_minus (V := R_NormedModule) _ _ _ _ _ _ (is_RInt_minus (V := R_NormedModule) _ _ _ _ _ _ I1 I0) (is_RInt_scal (V := R_NormedModule) _ _ _ eps _ HI)) as I.
  rewrite Rmult_assoc. apply (norm_RInt_le_const_abs (V := R_NormedModule) _ t0 tf _ (C * eps ^ 2)) in I; [exact I|].
  intros t Ht. exact (Q eps ltac:(lra) t Ht).
Qed.
End Top.
