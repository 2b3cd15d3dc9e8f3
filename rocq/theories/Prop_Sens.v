(** C41 and C42: sensitivity.py.

    solve_ivp is an oracle; "exact" means that the value returned is the end point of a differentiable
    function solving the problem it was given ([solves_pb], SensFlow.v).  The real functions behind the
    user's callables: [models], [objective]; their derivatives: [derivatives_along], [derivative_at],
    [gradients_along]; [solution_family]: the exact solutions for all nearby parameter vectors. *)
From Coquelicot Require Import Coquelicot.
From Coq Require Import String Reals Lra Psatz Lia List Arith Bool.
From Verif Require Import Arith Common RX RKReal Series OrderThm OrderRK OrderModel ESDLin Sens SensGen Flow SensReal SensFlow SensTop SensExtra.
Import ListNotations.
Close Scope string_scope. Open Scope nat_scope.

(** ** C41: the problem sens_forward hands to solve_ivp, any arithmetic *)
Section G.
Context {A : Arith}.
Notation num := (num A).
Notation vec := (list num).
Notation mat := (list (list num)).
Variables (Ny Np : nat) (f : num -> vec -> vec) (jac dfdp : num -> vec -> mat) (t0 tf : num) (y0 : vec) (dy0dp : mat) (at_ : vec) (rtol : num) (bdf uaj : bool).
Notation pb := (forward_pb Ny Np f jac dfdp t0 tf y0 dy0dp at_ rtol bdf uaj).

(** the right hand side: f(t, y), then for each parameter j the block J s_j + (df/dp)_j *)
Theorem c41_rhs t y ss : length y = Ny -> length ss = Np -> Forall (fun s => length s = Ny) ss -> length (jac t y) = Ny -> shaped Ny Np (dfdp t y) ->
  i_fun pb t (y ++ concat ss) = (f t y ++ concat (map (fun j => vadd (matvec (jac t y) (nth j ss [])) (col j (dfdp t y))) (seq 0 Np)))%list.
Proof. apply total_fun_blocks. Qed.
(** no vector of the right size escapes that description *)
Theorem c41_blocks_exhaust (v : vec) : length v = Ny * (Np + 1) -> exists y ss, v = (y ++ concat ss)%list /\ length y = Ny /\ length ss = Np /\ Forall (fun s => length s = Ny) ss.
Proof.
  intros L. destruct (chunks_spec Ny Np (skipn Ny v)) as (C1 & C2 & C3); [rewrite skipn_length; lia|]. exists (firstn Ny v), (chunks Ny Np (skipn Ny v)).
  rewrite C1, firstn_skipn, firstn_length. repeat split; try assumption. lia.
Qed.
(** the initial value: y0, then the columns of dy0/dp *)
Theorem c41_initial : length dy0dp = Ny -> i_y0 pb = (y0 ++ concat (map (fun j => col j dy0dp) (seq 0 Np)))%list /\ i_ta pb = t0 /\ i_tb pb = tf.
Proof. intros L. split; [|split; reflexivity]. unfold forward_pb, total_y0. cbn [i_y0]. f_equal. apply flattenF_cols, L. Qed.
(** a zero in the sparsity pattern is a missing dependency: a component of the right hand side is
    determined by the components marked in its row *)
Theorem c41_sparsity_covers S t v v' r : i_jac pb = Sparsity S ->
  (forall y, length y = Ny -> length (f t y) = Ny /\ length (jac t y) = Ny /\ shaped Ny Np (dfdp t y)) ->
  length v = Ny * (Np + 1) -> length v' = Ny * (Np + 1) -> r < Ny * (Np + 1) ->
  (forall c, c < Ny * (Np + 1) -> nth c (nth r S []) false = true -> nth c v n0 = nth c v' n0) ->
  nth r (i_fun pb t v) n0 = nth r (i_fun pb t v') n0.
Proof.
  unfold forward_pb. cbn [i_jac i_fun]. destruct uaj; [discriminate|]. destruct bdf; [|discriminate]. intros E. injection E as <-. apply sparsity_covers.
Qed.
Theorem c41_sparsity_when : (exists S, i_jac pb = Sparsity S) <-> bdf = true /\ uaj = false.
Proof. unfold forward_pb. cbn [i_jac]. split; [intros [S E]; destruct uaj, bdf; try discriminate; auto|intros [-> ->]; eexists; reflexivity]. Qed.
(** the approximate Jacobian: J in every diagonal block, zero elsewhere *)
Theorem c41_approx_jac G t v a b i l : i_jac pb = Jac G -> i < Ny -> l < Ny -> a <= Np -> b <= Np ->
  nth (b * Ny + l) (nth (a * Ny + i) (G t v) []) n0 = if Nat.eqb a b then nth l (nth i (jac t (firstn Ny v)) []) n0 else n0.
Proof.
  unfold forward_pb. cbn [i_jac]. intros E. assert (EG : G = total_jac Ny Np jac) by (destruct uaj; [congruence|destruct bdf; discriminate]). subst G.
  intros. unfold total_jac. apply block_diag_entry; lia.
Qed.
End G.

Section Out.
Context {A : Arith}.
Notation num := (num A).
(** what is returned: the first block, and a matrix whose column j is block j; a failed solve is an exception *)
Theorem c41_output (solve : Ivp A -> option (list num)) M t0 tf y0 p dy0dp atol rtol te bdf uaj F :
  sens_forward solve M t0 tf y0 p dy0dp atol rtol te bdf uaj = inl F ->
  exists at_ yl, total_atol (length y0) atol p = inl at_ /\
    solve (forward_pb (length y0) (length p) (fun t y => u_fun M t y p) (fun t y => u_jac M t y p) (fun t y => u_dfdp M t y p) t0 tf y0 dy0dp at_ rtol bdf uaj) = Some yl /\
    forall y ss, yl = (y ++ concat ss)%list -> length y = length y0 -> length ss = length p -> Forall (fun s => length s = length y0) ss ->
      f_y F = y /\ shaped (length y0) (length p) (f_sens F) /\ forall j, j < length p -> col j (f_sens F) = nth j ss [].
Proof.
  unfold sens_forward. destruct (negb _); [discriminate|]. destruct (match te with Some _ => _ | None => _ end); [discriminate|].
  unfold test1, test2. destruct (Nat.eqb _ _); [|discriminate]. destruct (shape2 (length y0) (length p) _); [|discriminate]. destruct (shape2 _ _ _); [|discriminate].
  destruct (total_atol _ _ _) as [at_|]; [|discriminate]. cbv zeta. destruct (solve _) as [yl|] eqn:Es; [|discriminate]. intros E. injection E as <-.
  exists at_, yl. split; [reflexivity|]. split; [exact Es|]. intros y ss -> Ly Ls HF. cbn [f_y f_sens]. rewrite <- Ly, firstn_app, skipn_app, Nat.sub_diag, firstn_all, skipn_all. cbn [firstn skipn app]. rewrite app_nil_r, Ly.
  split; [reflexivity|]. split; [apply reshapeF_shape|]. intros j Hj. apply reshapeF_col; assumption.
Qed.
Theorem c41_solver_failure (solve : Ivp A -> option (list num)) M t0 tf y0 p dy0dp atol rtol te bdf uaj : (forall pb, solve pb = None) ->
  forall F, sens_forward solve M t0 tf y0 p dy0dp atol rtol te bdf uaj <> inl F.
Proof. intros Hs F E. destruct (c41_output _ _ _ _ _ _ _ _ _ _ _ _ _ E) as (a & yl & _ & H & _). rewrite Hs in H. discriminate. Qed.
(** documented "float, or sequence": a list or tuple of the right length is never accepted *)
Theorem c41_list_atol_refuted (solve : Ivp A -> option (list num)) M t0 tf y0 p dy0dp a rtol te bdf uaj : p <> [] -> forall F, sens_forward solve M t0 tf y0 p dy0dp (ASeq a) rtol te bdf uaj <> inl F.
Proof.
  intros Hp F E. destruct (c41_output _ _ _ _ _ _ _ _ _ _ _ _ _ E) as (x & yl & H & _). cbn in H. destruct (Nat.eqb _ _); [|discriminate]. destruct p; [congruence|discriminate].
Qed.
End Out.

Open Scope R_scope.
(** tolerances: atol for y; atol_i / |p_j| for sensitivity number j, atol_i when p_j = 0 *)
Theorem c41_atol Ny (a : atol_arg) (av p : list R) : length av = Ny -> (exists x, a = AFloat (Fin x) /\ av = repeat x Ny) \/ a = ANdarray (fin av) ->
  exists at_, total_atol Ny a (fin p) = inl (fin at_) /\ length at_ = (Ny * (length p + 1))%nat /\ (forall i, (i < Ny)%nat -> nth i at_ 0 = nth i av 0) /\
    (forall j i, (j < length p)%nat -> (i < Ny)%nat -> nth (Ny + (j * Ny + i)) at_ 0 = if Req_EM_T (nth j p 0) 0 then nth i av 0 else nth i av 0 / Rabs (nth j p 0)).
Proof.
  intros La Ha. assert (PF : forall x q, ndiv RX (Fin x) (@p_factor RX (Fin q)) = Fin (if Req_EM_T q 0 then x else x / Rabs q)).
  { intros x q. unfold p_factor. rewrite n0_RX, n1_RX. cbn [nabs neqb RX xabs xeqb]. unfold Reqb. destruct (Req_EM_T q 0) as [->|Hq].
    - rewrite Rabs_R0. destruct (Req_EM_T 0 0); [|congruence]. cbn. unfold xdiv. destruct (Req_EM_T 1 0); [lra|]. f_equal. field.
    - assert (Rabs q <> 0) by (apply Rabs_no_R0; exact Hq). destruct (Req_EM_T (Rabs q) 0); [contradiction|]. cbn. destruct (Req_EM_T (Rabs q) 0); [contradiction|]. reflexivity. }
  set (bs := map (fun q => map (fun x => if Req_EM_T q 0 then x else x / Rabs q) av) p).
  assert (Fb : Forall (fun s => length s = Ny) bs). { apply Forall_forall. intros s Hs. apply in_map_iff in Hs. destruct Hs as (q & <- & _). rewrite map_length. exact La. }
  exists (av ++ concat bs)%list. split.
  - assert (E : total_atol Ny a (fin p) = inl (fin av ++ concat (map (fun pi => map (fun x => ndiv RX x (p_factor pi)) (fin av)) (fin p)))%list).
    { destruct Ha as [(x & -> & Ex)| ->].
      - cbn [total_atol]. assert (E1 : repeat (Fin x) Ny = fin av) by (rewrite Ex; clear; induction Ny as [|k IH]; cbn; [reflexivity|f_equal; exact IH]).
        change (num RX) with xr in *. rewrite E1. f_equal. f_equal. f_equal. apply map_ext. intros q. rewrite <- E1. clear. induction Ny as [|k IH]; cbn [repeat map]; [reflexivity|]. f_equal. exact IH.
      - cbn [total_atol]. rewrite map_length, La, Nat.eqb_refl. reflexivity. }
    rewrite E. f_equal. rewrite map_app. f_equal. rewrite concat_map. f_equal. unfold bs. rewrite !map_map. apply map_ext. intros q. rewrite !map_map. apply map_ext. intros x. apply PF.
  - split; [|split].
    + apply len_app_blocks; [exact La|unfold bs; apply map_length|exact Fb].
    + intros i Hi. apply app_nth1. lia.
    + intros j i Hj Hi. rewrite app_nth2 by lia. rewrite La. replace (Ny + (j * Ny + i) - Ny)%nat with (j * Ny + i)%nat by lia. rewrite (nth_concat Ny _ 0 Fb) by exact Hi.
      unfold bs. rewrite (nth_mapd _ _ _ 0) by exact Hj. rewrite (nth_mapd _ _ _ 0) by lia. destruct (Req_EM_T (nth j p 0) 0); reflexivity.
Qed.

(** ** exact solves give derivatives *)
Section Exact.
Variables (Ny Np : nat) (M : Model RX) (f : R -> list R -> list R -> list R) (J P : R -> list R -> list R -> list (list R)).
Variables (p : list R) (t0 tf : R) (y0 : list R -> list R) (D : list (list R)) (Y : list R -> R -> list R).
(** f is the user's fun; J = df/dy, P = df/dp; y0(p) the initial value, D = dy0/dp; Y p' the solution for parameters p' *)
Hypothesis HM : models Ny Np M f J P.
Hypothesis Hp : length p = Np.
Hypothesis HD : length D = Ny /\ Forall (fun r => length r = Np) D.
Hypothesis HJP : derivatives_along Ny Np f J P p t0 tf (Y p).
Hypothesis Hy0 : derivative_at Ny Np y0 D p.
Hypothesis HY : solution_family Ny Np f y0 p t0 tf Y.
Notation F := (fun t y => u_fun M t y (fin p)).
Notation JF := (fun t y => u_jac M t y (fin p)).
Notation PF := (fun t y => u_dfdp M t y (fin p)).
(** the forward run: its settings, and the exact solution u of the problem it hands to solve_ivp *)
Variables (solve : Ivp RX -> option (list (num RX))) (atol : @atol_arg RX) (at_ : list (num RX)) (rtol : num RX) (t_eval : option (list (num RX))) (bdf uaj : bool) (u : R -> list R).
Notation fpb := (forward_pb Ny Np F JF PF (Fin t0) (Fin tf) (fin (y0 p)) (fin2 D) at_ rtol bdf uaj).
Hypothesis Hat : total_atol Ny atol (fin p) = inl at_.
Hypothesis Hte : forall te, t_eval = Some te -> nth (length te - 1) te (Fin 0) = Fin tf.
Hypothesis Hu : solves_pb fpb t0 tf u.
Hypothesis Hs : solve fpb = Some (fin (u tf)).
Notation run := (sens_forward solve M (Fin t0) (Fin tf) (fin (y0 p)) (fin p) (fin2 D) atol rtol t_eval bdf uaj).

Theorem c41_sensitivities_are_derivatives :
  exists sens, run = inl {| f_sens := fin2 sens; f_y := fin (Y p tf) |} /\ length sens = Ny /\ Forall (fun r => length r = Np) sens /\
    forall i j, (i < Ny)%nat -> (j < Np)%nat -> is_derive (fun eps => nth i (Y (bump j eps p) tf) 0) 0 (ent sens i j).
Proof.
  pose proof (proj2 (shaped_fin Ny Np D) HD) as SD. destruct (forward_traj Ny Np M f J P HM p t0 tf y0 D Y Hp SD HJP Hy0 HY at_ rtol bdf uaj u Hu) as (Lu & Q & _ & _).
  exists (tab Ny (fun i => tab Np (fun j => nth (Ny + (j * Ny + i)) (u tf) 0))). split; [|split; [apply tab_len|split]].
  - rewrite (sens_forward_value Ny Np M f J P HM p t0 tf y0 D Hp SD Hy0 solve atol at_ rtol t_eval bdf uaj (u tf) Hat Hte Hs (Lu tf)). rewrite (Q tf (between_r _ _)). reflexivity.
  - apply Forall_forall. intros r Hr. unfold tab at 1 in Hr. apply in_map_iff in Hr. destruct Hr as (i & <- & _). apply tab_len.
  - intros i j Hi Hj. unfold ent. rewrite !tab_nth by assumption. apply (forward_is_derivative Ny Np M f J P HM p t0 tf y0 D Y Hp SD HJP Hy0 HY at_ rtol bdf uaj u j i tf Hu Hj Hi (between_r _ _)).
Qed.

(** the objective g with dg/dp and dg/dy *)
Variables (O : Objective RX) (g : R -> list R -> list R -> R) (gp gy : R -> list R -> list R -> list R).
Hypothesis HO : objective Ny Np O g gp gy.
Notation Gf := (fun t y => u_g O t y (fin p)).
Notation GPf := (fun t y => u_dgdp O t y (fin p)).
Notation GYf := (fun t y => u_dgdy O t y (fin p)).
(** the adjoint run: the dense output yd of its forward solve (or the sol_y given) is exact, and w is
    the exact solution of the backward problem *)
Variables (dense : Ivp RX -> option (num RX -> list (num RX))) (bsolve : Ivp RX -> option (list (num RX))) (implicit : bool) (rtol2 : num RX) (atol2 aj aq : list (num RX)) (aG : num RX)
  (sol_y : option (num RX -> list (num RX))) (yd : num RX -> list (num RX)) (w : R -> list R).
Hypothesis Hyd : forward_dense dense sol_y implicit F JF (Fin t0) (Fin tf) (fin (y0 p)) atol2 rtol2 = inl yd.
Hypothesis Hex : forall t, between t0 tf t -> yd (Fin t) = fin (Y p t).

(** *** C42, end point: both methods return the derivative of g(tf, y(tf; p), p) *)
Theorem c42_end_point :
  let bpb := adj_end_pb Ny Np yd JF PF GYf (Fin t0) (Fin tf) rtol2 aj aq implicit in
  solves_pb bpb tf t0 w -> bsolve bpb = Some (fin (w t0)) ->
  exists sens s, run = inl {| f_sens := fin2 sens; f_y := fin (Y p tf) |} /\
    sens_adjoint_end dense bsolve M O (Fin t0) (Fin tf) (fin (y0 p)) (fin p) (fin2 D) implicit rtol2 atol2 aj aq sol_y = inl {| ae_sens := fin s; ae_g := [Fin (g tf (Y p tf) p)] |} /\
    length s = Np /\
    (forall j, (j < Np)%nat -> nth j s 0 = nth j (gp tf (Y p tf) p) 0 + rsum Ny (fun i => nth i (gy tf (Y p tf) p) 0 * ent sens i j)) /\
    (gradients_along Ny Np g gp gy p tf tf (Y p) -> forall j, (j < Np)%nat -> is_derive (fun eps => g tf (Y (bump j eps p) tf) (bump j eps p)) 0 (nth j s 0)).
Proof.
  intros bpb Hw Hbs. pose proof (proj2 (shaped_fin Ny Np D) HD) as SD. destruct (forward_traj Ny Np M f J P HM p t0 tf y0 D Y Hp SD HJP Hy0 HY at_ rtol bdf uaj u Hu) as (Lu & Q & _ & _).
  destruct (adj_end_traj Ny Np M f J P HM p t0 tf y0 Y Hp HY O g gp gy HO yd rtol2 aj aq implicit w Hex Hw) as (Lw & _).
  set (sens := tab Ny (fun i => tab Np (fun j => nth (Ny + (j * Ny + i)) (u tf) 0))).
  set (s := tab Np (fun j => nth j (gp tf (Y p tf) p) 0 + rsum Ny (fun i => nth i (w t0) 0 * ent D i j) - nth (Ny + j) (w t0) 0)).
  assert (Ej : forall j, (j < Np)%nat -> nth j s 0 = nth j (gp tf (Y p tf) p) 0 + rsum Ny (fun i => nth i (gy tf (Y p tf) p) 0 * nth (Ny + (j * Ny + i)) (u tf) 0)).
  { intros j Hj. unfold s. rewrite tab_nth by exact Hj. pose proof (end_identity Ny Np M f J P HM p t0 tf y0 D Y Hp SD HJP Hy0 HY O g gp gy HO at_ rtol bdf uaj u yd rtol2 aj aq implicit w j Hu Hex Hw Hj) as E. lra. }
  exists sens, s. split; [|split; [|split; [apply tab_len|split]]].
  - rewrite (sens_forward_value Ny Np M f J P HM p t0 tf y0 D Hp SD Hy0 solve atol at_ rtol t_eval bdf uaj (u tf) Hat Hte Hs (Lu tf)). rewrite (Q tf (between_r _ _)). reflexivity.
  - apply (adj_end_value Ny Np M f J P HM p t0 tf y0 D Y Hp SD Hy0 HY O g gp gy HO dense bsolve implicit rtol2 atol2 aj aq sol_y yd (w t0) Hyd (Hex tf (between_r _ _)) Hbs (Lw t0)).
  - intros j Hj. rewrite (Ej j Hj). f_equal. apply rsum_ext. intros i Hi. unfold sens, ent. rewrite !tab_nth by assumption. reflexivity.
  - intros HG j Hj. rewrite (Ej j Hj), Rplus_comm. apply (end_gradient Ny Np M f J P HM p t0 tf y0 D Y Hp SD HJP Hy0 HY g gp gy at_ rtol bdf uaj u j Hu Hj HG).
Qed.

(** *** C42, integral: G is the integral of g, and the sensitivity is the integral of dg/dy S + dg/dp
    with S the forward sensitivities along the way, which is the derivative of G *)
Theorem c42_integral :
  let bpb := adj_int_pb Ny Np yd JF PF Gf GPf GYf (Fin t0) (Fin tf) rtol2 aj aq aG implicit in
  solves_pb bpb tf t0 w -> bsolve bpb = Some (fin (w t0)) ->
  (forall t, between t0 tf t -> continuous (fun s => g s (Y p s) p) t) ->
  (forall t i, between t0 tf t -> (i < Ny)%nat -> continuous (fun s => nth i (gy s (Y p s) p) 0) t) -> (forall t j, between t0 tf t -> (j < Np)%nat -> continuous (fun s => nth j (gp s (Y p s) p) 0) t) ->
  exists s G, sens_adjoint_int dense bsolve M O (Fin t0) (Fin tf) (fin (y0 p)) (fin p) (fin2 D) implicit rtol2 atol2 aj aq aG sol_y = inl {| ai_sens := fin s; ai_G := Fin G |} /\
    length s = Np /\ is_RInt (fun t => g t (Y p t) p) t0 tf G /\
    (forall j, (j < Np)%nat -> exists S : R -> nat -> R,
       (forall t i, between t0 tf t -> (i < Ny)%nat -> is_derive (fun eps => nth i (Y (bump j eps p) t) 0) 0 (S t i)) /\
       is_RInt (fun t => rsum Ny (fun i => nth i (gy t (Y p t) p) 0 * S t i) + nth j (gp t (Y p t) p) 0) t0 tf (nth j s 0)) /\
    (gradients_along Ny Np g gp gy p t0 tf (Y p) -> forall j, (j < Np)%nat -> forall Gv : R -> R,
       (exists r, 0 < r /\ forall eps, Rabs eps <= r -> is_RInt (fun t => g t (Y (bump j eps p) t) (bump j eps p)) t0 tf (Gv eps)) -> is_derive Gv 0 (nth j s 0)).
Proof.
  intros bpb Hw Hbs C0 C1 C2. pose proof (proj2 (shaped_fin Ny Np D) HD) as SD. destruct (forward_traj Ny Np M f J P HM p t0 tf y0 D Y Hp SD HJP Hy0 HY at_ rtol bdf uaj u Hu) as (Lu & Q & _ & _).
  destruct (adj_int_traj Ny Np M f J P HM p t0 tf y0 Y Hp HY O g gp gy HO yd rtol2 aj aq aG implicit w Hex Hw) as (Lw & _).
  set (s := tab Np (fun j => rsum Ny (fun i => nth i (w t0) 0 * ent D i j) - nth (Ny + j) (w t0) 0)).
  assert (HI : forall j, (j < Np)%nat -> is_RInt (fun t => rsum Ny (fun i => nth i (gy t (Y p t) p) 0 * nth (Ny + (j * Ny + i)) (u t) 0) + nth j (gp t (Y p t) p) 0) t0 tf (nth j s 0)).
  { intros j Hj. unfold s. rewrite tab_nth by exact Hj. apply (int_identity Ny Np M f J P HM p t0 tf y0 D Y Hp SD HJP Hy0 HY O g gp gy HO at_ rtol bdf uaj u yd rtol2 aj aq aG implicit w j Hu Hex Hw Hj C1). intros t Ht. apply C2; assumption. }
  exists s, (- nth (Ny + Np) (w t0) 0). split; [|split; [apply tab_len|split; [|split]]].
  - apply (adj_int_value Ny Np M f J P HM p t0 tf y0 D Hp SD Hy0 O g gp gy HO dense bsolve implicit rtol2 atol2 aj aq aG sol_y yd (w t0) Hyd Hbs (Lw t0)).
  - apply (int_value Ny Np M f J P HM p t0 tf y0 Y Hp HY O g gp gy HO yd rtol2 aj aq aG implicit w Hex Hw C0).
  - intros j Hj. exists (fun t i => nth (Ny + (j * Ny + i)) (u t) 0). split; [|exact (HI j Hj)].
    intros t i Ht Hi. apply (forward_is_derivative Ny Np M f J P HM p t0 tf y0 D Y Hp SD HJP Hy0 HY at_ rtol bdf uaj u j i t Hu Hj Hi Ht).
  - intros HG j Hj Gv HGv. apply (int_gradient Ny Np M f J P HM p t0 tf y0 D Y Hp SD HJP Hy0 HY g gp gy at_ rtol bdf uaj u j (nth j s 0) Gv Hu Hj HG (HI j Hj) HGv).
Qed.
End Exact.

(** the Jacobians given to implicit methods are those of the backward systems *)
Theorem c42_backward_jacobian Ny Np M f J P p (O : Objective RX) g gp gy (yd : num RX -> list (num RX)) (y : R -> list R) t z z' : models Ny Np M f J P -> objective Ny Np O g gp gy -> length p = Np -> yd (Fin t) = fin (y t) -> length (y t) = Ny ->
  let JF := fun t y => u_jac M t y (fin p) in let PF := fun t y => u_dfdp M t y (fin p) in
  let end_fun := bw_end Ny Np yd JF PF in let int_fun := bw_int Ny Np yd JF PF (fun t y => u_g O t y (fin p)) (fun t y => u_dgdp O t y (fin p)) (fun t y => u_dgdy O t y (fin p)) in
  (length z = (Ny + Np)%nat -> length z' = (Ny + Np)%nat -> exists v v' JB, end_fun (Fin t) (fin z) = fin v /\ end_fun (Fin t) (fin z') = fin v' /\ jac_bw Ny 0 yd JF PF Np (Fin t) (fin z) = fin2 JB /\
     forall q, (q < Ny + Np)%nat -> nth q v' 0 - nth q v 0 = rsum (Ny + Np) (fun c => ent JB q c * (nth c z' 0 - nth c z 0))) /\
  (length z = (Ny + Np + 1)%nat -> length z' = (Ny + Np + 1)%nat -> exists v v' JB, int_fun (Fin t) (fin z) = fin v /\ int_fun (Fin t) (fin z') = fin v' /\ jac_bw Ny 1 yd JF PF Np (Fin t) (fin z) = fin2 JB /\
     forall q, (q < Ny + Np + 1)%nat -> nth q v' 0 - nth q v 0 = rsum (Ny + Np + 1) (fun c => ent JB q c * (nth c z' 0 - nth c z 0))).
Proof.
  intros HM HO Hp Ey Ly JF PF end_fun int_fun.
  assert (RS : forall k (JB : list (list R)) q, (forall c, (Ny <= c)%nat -> ent JB q c = 0) -> rsum (Ny + k) (fun c => ent JB q c * (nth c z' 0 - nth c z 0)) = rsum Ny (fun c => ent JB q c * (nth c z' 0 - nth c z 0))).
  { intros k JB q H. rewrite rsum_split. rewrite (rsum_zero k); [ring|]. intros c _. rewrite H by lia. ring. }
  split; intros Lz Lz'.
  - destruct (split_len Ny z Np Lz) as (E1 & L1 & _). destruct (split_len Ny z' Np Lz') as (E1' & L1' & _).
    destruct (bw_end_comp Ny Np M f J P HM p Hp yd y t (firstn Ny z) (skipn Ny z) Ey Ly L1) as (v & Ev & Lv & V1 & V2). rewrite <- E1 in Ev.
    destruct (bw_end_comp Ny Np M f J P HM p Hp yd y t (firstn Ny z') (skipn Ny z') Ey Ly L1') as (v' & Ev' & Lv' & V1' & V2'). rewrite <- E1' in Ev'.
    destruct (jac_bw_comp Ny Np M f J P HM p Hp yd y t 0 (fin z) Ey Ly) as (JB & EJ & LJ & FJ & J1 & J2 & J3 & J4).
    exists v, v', JB. repeat split; try assumption. intros q Hq. rewrite RS by (intros c Hc; apply J3; lia). destruct (lt_dec q Ny) as [L|L].
    + rewrite V1, V1' by exact L. rewrite (rsum_ext Ny (fun c => ent JB q c * _) (fun l => -1 * (ent (J t (y t) p) l q * nth l (firstn Ny z') 0 - ent (J t (y t) p) l q * nth l (firstn Ny z) 0))).
      * rewrite rsum_scal, rsum_sub. ring.
      * intros l Hl. rewrite J1 by assumption. rewrite !nth_firstn by exact Hl. ring.
    + replace q with (Ny + (q - Ny))%nat by lia. rewrite V2, V2' by lia. rewrite <- rsum_sub. apply rsum_ext. intros l Hl. rewrite J2 by lia. rewrite !nth_firstn by exact Hl. ring.
  - destruct (split_len Ny z (Np + 1) ltac:(lia)) as (E1 & L1 & _). destruct (split_len Ny z' (Np + 1) ltac:(lia)) as (E1' & L1' & _).
    destruct (o_y _ _ _ _ _ _ HO t _ p Ly Hp) as [Lgy Egy]. destruct (o_p _ _ _ _ _ _ HO t _ p Ly Hp) as [Lgp Egp]. pose proof (o_g _ _ _ _ _ _ HO t _ p Ly Hp) as Eg.
    destruct (bw_int_comp Ny Np M f J P HM p Hp yd y (fun t y => u_g O t y (fin p)) (fun t y => u_dgdp O t y (fin p)) (fun t y => u_dgdy O t y (fin p)) t (firstn Ny z) (skipn Ny z) _ _ _ Ey Ly L1 Eg Egp Lgp Egy Lgy) as (v & Ev & Lv & V1 & V2 & V3). rewrite <- E1 in Ev.
    destruct (bw_int_comp Ny Np M f J P HM p Hp yd y (fun t y => u_g O t y (fin p)) (fun t y => u_dgdp O t y (fin p)) (fun t y => u_dgdy O t y (fin p)) t (firstn Ny z') (skipn Ny z') _ _ _ Ey Ly L1' Eg Egp Lgp Egy Lgy) as (v' & Ev' & Lv' & V1' & V2' & V3'). rewrite <- E1' in Ev'.
    destruct (jac_bw_comp Ny Np M f J P HM p Hp yd y t 1 (fin z) Ey Ly) as (JB & EJ & LJ & FJ & J1 & J2 & J3 & J4).
    exists v, v', JB. repeat split; try assumption. intros q Hq. rewrite <- Nat.add_assoc. rewrite RS by (intros c Hc; apply J3; lia). destruct (lt_dec q Ny) as [L|L]; [|destruct (lt_dec q (Ny + Np)) as [L2|L2]].
    + rewrite V1, V1' by exact L. rewrite (rsum_ext Ny (fun c => ent JB q c * _) (fun l => -1 * (ent (J t (y t) p) l q * nth l (firstn Ny z') 0 - ent (J t (y t) p) l q * nth l (firstn Ny z) 0))).
      * rewrite rsum_scal, rsum_sub. ring.
      * intros l Hl. rewrite J1 by assumption. rewrite !nth_firstn by exact Hl. ring.
    + replace q with (Ny + (q - Ny))%nat by lia. rewrite V2, V2' by lia. rewrite (rsum_ext Ny (fun c => ent JB _ c * _) (fun l => ent (P t (y t) p) l (q - Ny) * nth l (firstn Ny z') 0 - ent (P t (y t) p) l (q - Ny) * nth l (firstn Ny z) 0)).
      * rewrite rsum_sub. ring.
      * intros l Hl. rewrite J2 by lia. rewrite !nth_firstn by exact Hl. ring.
    + replace q with (Ny + Np)%nat by lia. rewrite V3, V3'. rewrite rsum_zero; [ring|]. intros c _. rewrite J4 by lia. ring.
Qed.

(** ** a concrete case: y' = p y, y(0) = 1 on [0, 1] at p = 1, objective g = p y *)
Section Case.
Definition M : Model RX := {| u_fun := fun t y p => [nmul RX (nth 0 p (Fin 0)) (nth 0 y (Fin 0))]; u_jac := fun t y p => [[nth 0 p (Fin 0)]]; u_dfdp := fun t y p => [[nth 0 y (Fin 0)]] |}.
Definition O : Objective RX := {| u_g := fun t y p => [nmul RX (nth 0 p (Fin 0)) (nth 0 y (Fin 0))]; u_dgdp := fun t y p => [nth 0 y (Fin 0)]; u_dgdy := fun t y p => [nth 0 p (Fin 0)] |}.
Definition f (t : R) (y p : list R) := [nth 0 p 0 * nth 0 y 0].
Definition J (t : R) (y p : list R) := [[nth 0 p 0]].
Definition P (t : R) (y p : list R) := [[nth 0 y 0]].
Definition g (t : R) (y p : list R) := nth 0 p 0 * nth 0 y 0.
Definition gp (t : R) (y p : list R) := [nth 0 y 0].
Definition gy (t : R) (y p : list R) := [nth 0 p 0].
Definition y0 (p : list R) := [1].
Definition D : list (list R) := [[0]].
Definition Y (p : list R) (t : R) := [exp (nth 0 p 0 * t)].
Definition u (t : R) := [exp t; t * exp t].
Definition yd (t : num RX) : list (num RX) := match t with Fin t => [Fin (exp (1 * t))] | _ => [] end.
(** backward solutions: mu = e^(1-t), xi = e (t-1); lambda = e^(1-t) - 1, xi = e (t-1), zeta = e^t - e *)
Definition w (t : R) := [exp (1 - t); exp 1 * (t - 1)].
Definition w2 (t : R) := [exp (1 - t) - 1; exp 1 * (t - 1); exp t - exp 1].

Lemma len1 (l : list R) : length l = 1%nat -> l = [nth 0 l 0].
Proof. destruct l as [|a [|b l]]; cbn; intros H; try discriminate; reflexivity. Qed.
Lemma HM : models 1 1 M f J P.
Proof.
  split; intros t y p Hy Hp; rewrite (len1 y Hy), (len1 p Hp); cbn.
  - split; reflexivity.
  - split; [|reflexivity]. split; [reflexivity|]. repeat constructor.
  - split; [|reflexivity]. split; [reflexivity|]. repeat constructor.
Qed.
Lemma HO : objective 1 1 O g gp gy.
Proof. split; intros t y p Hy Hp; rewrite (len1 y Hy), (len1 p Hp); cbn; try split; reflexivity. Qed.
Lemma sq_bound a b : Rabs (a * b) <= 1 * (Rabs b ^ 2 + Rabs a ^ 2).
Proof. rewrite Rabs_mult. pose proof (Rabs_pos a). pose proof (Rabs_pos b). nra. Qed.
Lemma exp_bound t : between 0 1 t -> Rabs (exp (1 * t)) <= exp 1.
Proof.
  intros [_ H]. rewrite Rmax_right in H by lra. rewrite Rabs_right by (left; apply exp_pos). destruct (Req_dec t 1) as [->|N]; [rewrite Rmult_1_r; lra|]. left. apply exp_increasing. lra.
Qed.
Lemma one_lt_e : 1 <= exp 1. Proof. pose proof (exp_ineq1 1 ltac:(lra)). lra. Qed.
Lemma HJP : derivatives_along 1 1 f J P [1] 0 1 (Y [1]).
Proof.
  exists 1, 1, (exp 1). pose proof one_lt_e. repeat split; try lra; intros; destruct i; try lia; try (destruct l; try lia); try (destruct j; try lia); cbn.
  - rewrite Rabs_right by lra. assumption.
  - apply exp_bound. assumption.
  - unfold dist1. cbn. replace (nth 0 p' 0 * nth 0 u0 0 - 1 * exp (1 * t) - (0 + 1 * (nth 0 u0 0 - exp (1 * t))) - (0 + exp (1 * t) * (nth 0 p' 0 - 1))) with ((nth 0 p' 0 - 1) * (nth 0 u0 0 - exp (1 * t))) by ring.
    rewrite !Rplus_0_l. apply sq_bound.
Qed.
Lemma HD1 : length D = 1%nat /\ Forall (fun r => length r = 1%nat) D.
Proof. split; [reflexivity|]. repeat constructor. Qed.
Lemma Hy0 : derivative_at 1 1 y0 D [1].
Proof.
  exists 1, 0. repeat split; try lra. intros i Hi. destruct i; [|lia]. cbn. replace (1 - 1 - (0 + 0 * (nth 0 p' 0 - 1))) with 0 by ring. rewrite Rabs_R0. lra.
Qed.
Lemma HY : solution_family 1 1 f y0 [1] 0 1 Y.
Proof.
  exists 1. split; [lra|]. intros p' Hp _. split; [split; [reflexivity|]|unfold Y, y0; rewrite Rmult_0_r, exp_0; reflexivity].
  intros t Ht i Hi. destruct i; [|lia]. cbn. auto_derive; [exact I|]. ring.
Qed.
Notation F := (fun t y => u_fun M t y (fin [1])).
Notation JF := (fun t y => u_jac M t y (fin [1])).
Notation PF := (fun t y => u_dfdp M t y (fin [1])).
Lemma Hat : total_atol 1 (AFloat (Fin 1)) (fin [1]) = inl (fin [1; 1]).
Proof.
  destruct (c41_atol 1 (AFloat (Fin 1)) [1] [1] eq_refl) as (at_ & E & L & A1 & A2); [left; exists 1; split; reflexivity|]. rewrite E. do 2 f_equal.
  destruct at_ as [|a [|b [|c l]]]; try discriminate. specialize (A1 0%nat ltac:(lia)). specialize (A2 0%nat 0%nat ltac:(cbn; lia) ltac:(lia)). cbn in A1, A2. destruct (Req_EM_T 1 0); [lra|]. rewrite Rabs_R1 in A2. rewrite A1, A2. f_equal. f_equal. field.
Qed.
Lemma Hu bdf uaj : solves_pb (forward_pb 1 1 F JF PF (Fin 0) (Fin 1) (fin (y0 [1])) (fin2 D) (fin [1; 1]) (Fin 1) bdf uaj) 0 1 u.
Proof.
  split; [reflexivity|]. split; [reflexivity|]. split; [|split; [reflexivity|]].
  - cbn. unfold u. rewrite exp_0, Rmult_0_l. unfold total_y0, flattenF. reflexivity.
  - intros t Ht. destruct (total_fun_comp 1 1 M f J P HM [1] eq_refl t (u t) eq_refl) as (v & Ev & Lv & V1 & V2). exists v. split; [exact Ev|].
    intros q Hq. destruct q as [|[|q]]; [| |cbn in Hq; lia].
    + rewrite V1 by lia. cbn. auto_derive; [exact I|]. ring.
    + change (nth 1 v 0) with (nth (1 + (0 * 1 + 0)) v 0). rewrite (V2 0%nat 0%nat) by lia. cbn. auto_derive; [exact I|]. ring.
Qed.
Lemma Hex t : between 0 1 t -> yd (Fin t) = fin (Y [1] t). Proof. reflexivity. Qed.
Lemma Hw : solves_pb (adj_end_pb 1 1 yd JF PF (fun t y => u_dgdy O t y (fin [1])) (Fin 0) (Fin 1) (Fin 1) [Fin 1] [Fin 1] false) 1 0 w.
Proof.
  split; [reflexivity|]. split; [reflexivity|]. split; [|split; [reflexivity|]].
  - unfold adj_end_pb, w. cbn [i_y0 map repeat app]. rewrite (Rminus_diag_eq 1 1 eq_refl), exp_0, Rmult_0_r, n0_RX. reflexivity.
  - intros t Ht. destruct (bw_end_comp 1 1 M f J P HM [1] eq_refl yd (Y [1]) t [exp (1 - t)] [exp 1 * (t - 1)] eq_refl eq_refl eq_refl) as (v & Ev & Lv & V1 & V2). exists v. split; [exact Ev|].
    intros q Hq. destruct q as [|[|q]]; [| |cbn in Hq; lia].
    + rewrite V1 by lia. cbn. auto_derive; [exact I|]. unfold Rminus. ring.
    + change (nth 1 v 0) with (nth (1 + 0) v 0). rewrite (V2 0%nat) by lia. cbn. auto_derive; [exact I|]. rewrite Rplus_0_l, <- exp_plus. replace (1 * t + (1 - t)) with 1 by ring. ring.
Qed.
Lemma Hw2 : solves_pb (adj_int_pb 1 1 yd JF PF (fun t y => u_g O t y (fin [1])) (fun t y => u_dgdp O t y (fin [1])) (fun t y => u_dgdy O t y (fin [1])) (Fin 0) (Fin 1) (Fin 1) [Fin 1] [Fin 1] (Fin 1) false) 1 0 w2.
Proof.
  split; [reflexivity|]. split; [reflexivity|]. split; [|split; [reflexivity|]].
  - unfold adj_int_pb, w2. cbn [i_y0 map repeat Nat.add app]. rewrite !(Rminus_diag_eq 1 1 eq_refl), exp_0, Rmult_0_r, n0_RX, !(Rminus_diag_eq (exp 1) (exp 1) eq_refl), (Rminus_diag_eq 1 1 eq_refl). reflexivity.
  - intros t Ht. destruct (bw_int_comp 1 1 M f J P HM [1] eq_refl yd (Y [1]) (fun t y => u_g O t y (fin [1])) (fun t y => u_dgdp O t y (fin [1])) (fun t y => u_dgdy O t y (fin [1])) t [exp (1 - t) - 1] [exp 1 * (t - 1); exp t - exp 1] (g t (Y [1] t) [1]) (gp t (Y [1] t) [1]) (gy t (Y [1] t) [1])) as (v & Ev & Lv & V1 & V2 & V3); try reflexivity. exists v. split; [exact Ev|].
    intros q Hq. destruct q as [|[|[|q]]]; [| | |cbn in Hq; lia].
    + rewrite V1 by lia. cbn. auto_derive; [exact I|]. unfold Rminus. ring.
    + change (nth 1 v 0) with (nth (1 + 0) v 0). rewrite (V2 0%nat) by lia. cbn. auto_derive; [exact I|]. rewrite Rplus_0_l, Rmult_minus_distr_l, <- exp_plus. replace (1 * t + (1 - t)) with 1 by ring. ring.
    + replace (nth 2 v 0) with (g t (Y [1] t) [1]) by exact (eq_sym V3). cbn. unfold g, Y. cbn. auto_derive; [exact I|]. rewrite !Rmult_1_l. reflexivity.
Qed.

(** the hypotheses of c41_sensitivities_are_derivatives and c42_end_point hold; the numbers are dy/dp = e and dg/dp = 2 e *)
Example c42_case : exists sens s,
  sens_forward (fun _ => Some (fin (u 1))) M (Fin 0) (Fin 1) (fin (y0 [1])) (fin [1]) (fin2 D) (AFloat (Fin 1)) (Fin 1) None false false = inl {| f_sens := fin2 sens; f_y := fin (Y [1] 1) |} /\
  sens_adjoint_end (fun _ => Some yd) (fun _ => Some (fin (w 0))) M O (Fin 0) (Fin 1) (fin (y0 [1])) (fin [1]) (fin2 D) false (Fin 1) [Fin 1] [Fin 1] [Fin 1] None = inl {| ae_sens := fin s; ae_g := [Fin (g 1 (Y [1] 1) [1])] |} /\
  nth 0 s 0 = exp 1 + 1 * ent sens 0 0 /\ is_derive (fun eps => g 1 (Y (bump 0 eps [1]) 1) (bump 0 eps [1])) 0 (nth 0 s 0).
Proof.
  destruct (c42_end_point 1 1 M f J P [1] 0 1 y0 D Y HM eq_refl HD1 HJP Hy0 HY (fun _ => Some (fin (u 1))) (AFloat (Fin 1)) (fin [1; 1]) (Fin 1) None false false u Hat ltac:(discriminate) (Hu false false) eq_refl
    O g gp gy HO (fun _ => Some yd) (fun _ => Some (fin (w 0))) false (Fin 1) [Fin 1] [Fin 1] [Fin 1] None yd w eq_refl Hex Hw eq_refl) as (sens & s & E1 & E2 & L & V & HG).
  exists sens, s. split; [exact E1|]. split; [exact E2|]. split; [rewrite (V 0%nat) by lia; cbn; rewrite Rmult_1_r; ring|]. apply HG; [|lia].
  exists 1, 1, 1. repeat split; try lra. { intros i Hi. destruct i; [|lia]. cbn. rewrite Rabs_R1. lra. }
  intros v p' Hv Hp' _ _. unfold dist1. cbn. unfold g. cbn. replace (nth 0 p' 0 * nth 0 v 0 - 1 * exp (1 * t) - (0 + 1 * (nth 0 v 0 - exp (1 * t))) - (0 + exp (1 * t) * (nth 0 p' 0 - 1))) with ((nth 0 p' 0 - 1) * (nth 0 v 0 - exp (1 * t))) by ring.
  rewrite !Rplus_0_l. apply sq_bound.
Qed.
Example c42_case_integral : exists s G,
  sens_adjoint_int (fun _ => Some yd) (fun _ => Some (fin (w2 0))) M O (Fin 0) (Fin 1) (fin (y0 [1])) (fin [1]) (fin2 D) false (Fin 1) [Fin 1] [Fin 1] [Fin 1] (Fin 1) None = inl {| ai_sens := fin s; ai_G := Fin G |} /\
  is_RInt (fun t => g t (Y [1] t) [1]) 0 1 G.
Proof.
  assert (CE : forall t, continuous (fun s => exp (1 * s)) t). { intros t. apply (ex_derive_continuous (K := R_AbsRing) (V := R_NormedModule) (fun s => exp (1 * s))). auto_derive. exact I. }
  destruct (c42_integral 1 1 M f J P [1] 0 1 y0 D Y HM eq_refl HD1 HJP Hy0 HY (fin [1; 1]) (Fin 1) false false u (Hu false false)
    O g gp gy HO (fun _ => Some yd) (fun _ => Some (fin (w2 0))) false (Fin 1) [Fin 1] [Fin 1] [Fin 1] (Fin 1) None yd w2 eq_refl Hex Hw2 eq_refl) as (s & G & E & _ & I1 & _).
  - intros t _. unfold g, Y. cbn. apply (continuous_scal_r (K := R_AbsRing) (V := R_NormedModule) 1 (fun s => exp (1 * s))). apply CE.
  - intros t i _ Hi. destruct i; [|lia]. cbn. apply continuous_const.
  - intros t j _ Hj. destruct j; [|lia]. cbn. apply CE.
  - exists s, G. split; assumption.
Qed.
End Case.
