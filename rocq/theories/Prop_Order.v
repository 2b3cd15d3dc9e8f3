(** C18, C19, C21: order of the step, of the error estimate and of the dense output. *)
From Coq Require Import String Reals Lra QArith Qreals Lia List Arith Bool.
From Verif Require Import Arith Common RK RKGen RKHist RX SpecRK RKSpecProofs RKTop Classes Tableaux Series Trees OrderThm OrderCheck
  OrderRK OrderRKN OrderModel OrderPair OrderPairN Dense DenseReal DenseStep DenseAcc DenseAccN Smooth.
Import ListNotations.
Close Scope string_scope.
Open Scope nat_scope.
Open Scope R_scope.

(** ** C18 *)
(** the documented orders of the explicit pairs with exactly rational coefficients *)
Definition exact_pairs : list (Tab RX * nat * nat) :=
  [(BS5_tab, BS5_order, BS5_order_secondary); (CK5_tab, CK5_order, CK5_order_secondary); (Me4_tab, Me4_order, Me4_order_secondary);
   (Pr7_tab, Pr7_order, Pr7_order_secondary); (CFMR7osc_tab, CFMR7osc_order, CFMR7osc_order_secondary)].

Theorem C18_order T p pe d : In (T, p, pe) exact_pairs -> rk_accurate T d p pe.
Proof.
  intros H. repeat (destruct H as [E|H]; [injection E as <- <- <-; apply pair_accurate; vm_compute; reflexivity|]). destruct H.
Qed.

(** the same for the steps a solver object makes: whenever step() succeeds from (t0, y0),
    the new y is within C |h|^(p+1) of the exact solution through (t0, y0), and the
    vector whose scaled norm was compared with the tolerance is within C |h|^(pe+1) of 0 *)
Theorem C18_solver_step T p pe d F t0 y0 Y g : In (T, p, pe) exact_pairs -> lifts d F g -> length y0 = d ->
  smooth_at p F t0 y0 -> solves F t0 y0 Y ->
  exists C del, 0 < del /\ forall m c v v' t1, uses_tab m T d -> made_step m c v v' -> fn c = g ->
    t (st v) = Fin t0 -> y (st v) = map Fin y0 -> t (st v') = Fin t1 -> Rabs (t1 - t0) < del ->
    exists yr er ks, textbook_rk T d g (Fin t0) (map Fin y0) (Fin (t1 - t0)) ks (t (st v')) (y (st v')) /\
      y (st v') = map Fin yr /\ tab_error T d g (Fin (t1 - t0)) ks (t (st v')) (y (st v')) = map Fin er /\
      forall q, (q < d)%nat -> Rabs (nth q yr 0 - nth q (Y t1) 0) <= C * Rabs (t1 - t0) ^ S p /\
                               Rabs (nth q er 0) <= C * Rabs (t1 - t0) ^ S pe.
Proof.
  intros HT HL Hy HF HY. destruct (C18_order T p pe d HT F t0 y0 Y g HL Hy HF HY) as (C & del & Hd & H).
  exists C, del. split; auto. intros m c v v' t1 HU HM Hg E0 Ey E1 Hh.
  destruct (made_step_facts m T d c v v' HU HM) as (h & ks & HT2 & SF).
  pose proof (sf_t _ _ _ _ _ SF) as Et. rewrite E0, E1 in Et. symmetry in Et. apply Fin_add_inv in Et. subst h.
  rewrite E0, Ey, Hg in HT2. destruct (H _ ks _ _ Hh HT2) as (yr & er & _ & E2 & E3 & _ & _ & HB).
  exists yr, er, ks. split; [exact HT2|]. split; [exact E2|]. split; [exact E3|]. replace (t0 + (t1 - t0)) with t1 in HB by ring. exact HB.
Qed.

(** ** C19 *)
Definition exact_nystrom_pairs : list (TabN RX * bool * nat * nat) :=
  [(Fi4N_tab, true, Fi4N_order, Fi4N_order_secondary); (Fi5N_tab, true, Fi5N_order, Fi5N_order_secondary);
   (MR6NN_tab, false, MR6NN_order, MR6NN_order_secondary)].
Lemma nystrom_pairs_ok T vel p pe : In (T, vel, p, pe) exact_nystrom_pairs ->
  exists s A Ap b bp c e ep, T = mk_tabn s A Ap b bp c e ep /\ pairn_ok vel s A Ap b bp c e ep p pe = true.
Proof.
  intros H.
  destruct H as [E|H]; [injection E as <- <- <- <-; exists Fi4N_n_stages, Fi4N_A, Fi4N_Ap, Fi4N_B, Fi4N_Bp, Fi4N_C, Fi4N_E, Fi4N_Ep; split; [reflexivity|vm_compute; reflexivity]|].
  destruct H as [E|H]; [injection E as <- <- <- <-; exists Fi5N_n_stages, Fi5N_A, Fi5N_Ap, Fi5N_B, Fi5N_Bp, Fi5N_C, Fi5N_E, Fi5N_Ep; split; [reflexivity|vm_compute; reflexivity]|].
  destruct H as [E|H]; [injection E as <- <- <- <-; exists MR6NN_n_stages, MR6NN_A, MR6NN_Ap, MR6NN_B, MR6NN_Bp, MR6NN_C, MR6NN_E, MR6NN_Ep; split; [reflexivity|vm_compute; reflexivity]|].
  destruct H.
Qed.
(** the flag: may the acceleration depend on the velocity? *)
Theorem C19_order T vel p pe n : In (T, vel, p, pe) exact_nystrom_pairs -> rkn_accurate vel T n p pe.
Proof.
  intros H. destruct (nystrom_pairs_ok T vel p pe H) as (s & A & Ap & b & bp & c & e & ep & -> & HP). apply pairn_accurate; exact HP.
Qed.
Theorem C19_solver_step T vel p pe n G t0 y0 Y g : In (T, vel, p, pe) exact_nystrom_pairs -> lifts2 n G g -> length y0 = (n + n)%nat ->
  (vel = false -> velocity_free n G) -> smooth_at2 n p G t0 y0 -> solves2 n G t0 y0 Y ->
  exists C del, 0 < del /\ forall m c v v' t1, uses_tabn m T n -> made_step m c v v' -> fn c = g ->
    t (st v) = Fin t0 -> y (st v) = map Fin y0 -> t (st v') = Fin t1 -> Rabs (t1 - t0) < del ->
    exists yr er ks, textbook_rkn T n g (Fin t0) (map Fin y0) (Fin (t1 - t0)) ks (t (st v')) (y (st v')) /\
      y (st v') = map Fin yr /\ tabn_error T n g (Fin (t1 - t0)) ks (t (st v')) (y (st v')) = map Fin er /\
      forall q, (q < n + n)%nat -> Rabs (nth q yr 0 - nth q (Y t1) 0) <= C * Rabs (t1 - t0) ^ S p /\
                               Rabs (nth q er 0) <= C * Rabs (t1 - t0) ^ S pe.
Proof.
  intros HT HL Hy Hv HF HY. destruct (C19_order T vel p pe n HT G t0 y0 Y g HL Hy Hv HF HY) as (C & del & Hd & H).
  exists C, del. split; auto. intros m c v v' t1 HU HM Hg E0 Ey E1 Hh.
  destruct (made_step_facts_n m T n c v v' HU HM) as (h & ks & HT2 & SF).
  pose proof (sf_t _ _ _ _ _ SF) as Et. rewrite E0, E1 in Et. symmetry in Et. apply Fin_add_inv in Et. subst h.
  rewrite E0, Ey, Hg in HT2. destruct (H _ ks _ _ Hh HT2) as (yr & er & _ & E2 & E3 & _ & _ & HB).
  exists yr, er, ks. split; [exact HT2|]. split; [exact E2|]. split; [exact E3|]. replace (t0 + (t1 - t0)) with t1 in HB by ring. exact HB.
Qed.

(** ** C21: error of sol(t) at every t in the step *)
(** first order systems: tableau, _dense_output_impl, order *)
Definition exact_dense (d : nat) : list (Tab RX * dimpl RX * nat) :=
  [(BS5_tab, dense_bs5 Best d, 5%nat); (BS5_tab, dense_bs5 Low d, 5%nat); (BS5_tab, dense_bs5 Free d, 4%nat);
   (CK5_tab, dense_rk d (lm CK5_P), 4%nat); (Me4_tab, dense_rk d (lm Me4_P), 3%nat);
   (Pr7_tab, dense_rk d (lm Pr7_P), 6%nat); (CFMR7osc_tab, dense_rk d (lm CFMR7osc_P), 5%nat)].
(** their order conditions *)
Lemma interp_BS5_best : interp_best_ok 7 BS5_A BS5_B BS5_C BS5_A_extra BS5_C_extra BS5_Pbest 5 = true.
Proof. vm_compute. reflexivity. Qed.
Lemma interp_BS5_low : interp_ok 7 BS5_A BS5_B BS5_C (firstn 1 BS5_A_extra) (firstn 1 BS5_C_extra) BS5_Plow 5 = true.
Proof. vm_compute. reflexivity. Qed.
Lemma interp_BS5 : interp_ok BS5_n_stages BS5_A BS5_B BS5_C [] [] BS5_P 4 = true.
Proof. vm_compute. reflexivity. Qed.
Lemma interp_CK5 : interp_ok CK5_n_stages CK5_A CK5_B CK5_C [] [] CK5_P 4 = true.
Proof. vm_compute. reflexivity. Qed.
Lemma interp_Me4 : interp_ok Me4_n_stages Me4_A Me4_B Me4_C [] [] Me4_P 3 = true.
Proof. vm_compute. reflexivity. Qed.
Lemma interp_Pr7 : interp_ok Pr7_n_stages Pr7_A Pr7_B Pr7_C [] [] Pr7_P 6 = true.
Proof. vm_compute. reflexivity. Qed.
Lemma interp_CFMR7osc : interp_ok CFMR7osc_n_stages CFMR7osc_A CFMR7osc_B CFMR7osc_C [] [] CFMR7osc_P 5 = true.
Proof. vm_compute. reflexivity. Qed.
Theorem C21_dense_order T impl p d : In (T, impl, p) (exact_dense d) -> dense_accurate T impl d p.
Proof.
  intros H. 
  destruct H as [E|H]; [injection E as <- <- <-; exact (dense_bs5_best_accurate _ _ _ interp_BS5_best)|].
  destruct H as [E|H]; [injection E as <- <- <-; cbn [dense_bs5]; rewrite dense_bs5_low_xrk; exact (dense_xrk_accurate _ _ _ _ _ _ _ _ _ _ interp_BS5_low)|].
  destruct H as [E|H]; [injection E as <- <- <-; exact (dense_rk_accurate BS5_n_stages BS5_A BS5_B BS5_C BS5_E BS5_P _ _ interp_BS5)|].
  destruct H as [E|H]; [injection E as <- <- <-; exact (dense_rk_accurate CK5_n_stages CK5_A CK5_B CK5_C CK5_E CK5_P _ _ interp_CK5)|].
  destruct H as [E|H]; [injection E as <- <- <-; exact (dense_rk_accurate Me4_n_stages Me4_A Me4_B Me4_C Me4_E Me4_P _ _ interp_Me4)|].
  destruct H as [E|H]; [injection E as <- <- <-; exact (dense_rk_accurate Pr7_n_stages Pr7_A Pr7_B Pr7_C Pr7_E Pr7_P _ _ interp_Pr7)|].
  destruct H as [E|H]; [injection E as <- <- <-; exact (dense_rk_accurate CFMR7osc_n_stages CFMR7osc_A CFMR7osc_B CFMR7osc_C CFMR7osc_E CFMR7osc_P _ _ interp_CFMR7osc)|].
  destruct H.
Qed.
Definition exact_dense_nystrom (n : nat) : list (TabN RX * bool * dimpl RX * nat) :=
  [(Fi5N_tab, true, dense_fi5n 1 n, 5%nat); (Fi5N_tab, true, dense_fi5n 2 n, 5%nat); (MR6NN_tab, false, dense_rkn n (lm MR6NN_P) (lm MR6NN_Pp), 5%nat)].
Lemma interpn_Fi5N_1 : interpn_ok true Fi5N_n_stages Fi5N_A Fi5N_Ap Fi5N_B Fi5N_Bp Fi5N_C Fi5N_A_extra1 Fi5N_Ap_extra1 Fi5N_C_extra1 Fi5N_P1 Fi5N_Pp1 5 = true.
Proof. vm_compute; reflexivity. Qed.
Lemma interpn_Fi5N_2 : interpn_ok true Fi5N_n_stages Fi5N_A Fi5N_Ap Fi5N_B Fi5N_Bp Fi5N_C Fi5N_A_extra2 Fi5N_Ap_extra2 Fi5N_C_extra2 Fi5N_P2 Fi5N_Pp2 5 = true.
Proof. vm_compute; reflexivity. Qed.
Lemma interpn_MR6NN : interpn_ok false MR6NN_n_stages MR6NN_A MR6NN_Ap MR6NN_B MR6NN_Bp MR6NN_C [] [] [] MR6NN_P MR6NN_Pp 5 = true.
Proof. vm_compute; reflexivity. Qed.
Theorem C21_dense_order_nystrom T vel impl p n : In (T, vel, impl, p) (exact_dense_nystrom n) -> dense_accurate_n vel T impl n p.
Proof.
  intros H.
  destruct H as [E|H]; [injection E as <- <- <- <-; apply (dense_n_accurate true _ _ _ _ _ _ _ _ Fi5N_A_extra1 Fi5N_Ap_extra1 Fi5N_C_extra1 Fi5N_P1 Fi5N_Pp1); [exact interpn_Fi5N_1|exact (nystrom_impl_fi5n 1 n ltac:(lia))]|].
  destruct H as [E|H]; [injection E as <- <- <- <-; apply (dense_n_accurate true _ _ _ _ _ _ _ _ Fi5N_A_extra2 Fi5N_Ap_extra2 Fi5N_C_extra2 Fi5N_P2 Fi5N_Pp2); [exact interpn_Fi5N_2|exact (nystrom_impl_fi5n 2 n ltac:(lia))]|].
  destruct H as [E|H]; [injection E as <- <- <- <-; apply (dense_n_accurate false _ _ _ _ _ _ _ _ [] [] [] MR6NN_P MR6NN_Pp); [exact interpn_MR6NN|exact (nystrom_impl_free n MR6NN_P MR6NN_Pp)]|].
  destruct H.
Qed.

(** ** the hypotheses hold for every polynomial problem and every textbook step exists *)
Theorem C18_polynomial d F t0 y0 p : polynomial d F -> length y0 = d -> smooth_at p F t0 y0.
Proof. exact (polynomial_smooth d F t0 y0 p). Qed.
Theorem C19_polynomial n G t0 y0 p : polynomial2 n G -> length y0 = (n + n)%nat -> smooth_at2 n p G t0 y0.
Proof. exact (polynomial_smooth2 n G t0 y0 p). Qed.

(** y' = y^2, y(0) = 1, solution 1/(1 - t) *)
Definition riccati : R -> list R -> list R := fun _ y => [nth 0 y 0 * nth 0 y 0].
Definition riccati_x : num RX -> list (num RX) -> list (num RX) := fun _ y => match y with [Fin a] => [Fin (a * a)] | _ => [NaN] end.
Example C18_case : lifts 1 riccati riccati_x /\ (forall p, smooth_at p riccati 0 [1]) /\ solves riccati 0 [1] (fun t => [/ (1 - t)]).
Proof.
  split; [intros t [|a [|? ?]] H; try discriminate H; split; reflexivity|]. split.
  - intros p. apply (polynomial_smooth 1); [|reflexivity]. exists (fun _ => [(1, [1%nat; 1%nat])]). split.
    + intros q _. repeat constructor.
    + intros t y Hy. split; [reflexivity|]. intros [|q] Hq; [|lia]. destruct y as [|a [|? ?]]; try discriminate Hy. simpl. ring.
  - split; [f_equal; field|]. exists 1. split; [lra|]. intros t Ht. split; [reflexivity|]. intros [|q] Hq; [|simpl in Hq; lia]. cbn [nth riccati].
    apply Rabs_def2 in Ht. assert (t < 1) by lra.
    replace (/ (1 - t) * / (1 - t)) with ((0 * (1 - t) - -1 * 1) / Rsqr (1 - t)) by (unfold Rsqr; field; lra).
    assert (D : derivable_pt_lim (fun x => 1 - x) t (-1)).
    { replace (-1) with (0 - 1) by ring. apply (derivable_pt_lim_minus (fct_cte 1) id); [apply derivable_pt_lim_const|apply derivable_pt_lim_id]. }
    eapply (derivable_pt_lim_ext (fun x => fct_cte 1 x / (1 - x))).
    + intros x. unfold fct_cte. unfold Rdiv. ring.
    + apply (derivable_pt_lim_div (fct_cte 1) (fun x => 1 - x)); [apply derivable_pt_lim_const|exact D|lra].
Qed.

(** x'' = -x, x(0) = 0, x'(0) = 1, solution sin t *)
Definition spring : R -> list R -> list R := fun _ y => [- nth 0 y 0].
Definition spring_x : num RX -> list (num RX) -> list (num RX) := fun _ y => match y with [Fin a; Fin _] => [Fin (- a)] | _ => [NaN] end.
Example C19_case : lifts2 1 spring spring_x /\ velocity_free 1 spring /\ (forall p, smooth_at2 1 p spring 0 [0; 1]) /\
  solves2 1 spring 0 [0; 1] (fun t => [sin t; cos t]).
Proof.
  split; [intros t [|a [|b [|? ?]]] H; try discriminate H; split; reflexivity|]. split.
  { intros t [|a [|b [|? ?]]] [|a' [|b' [|? ?]]] H H'; try discriminate H; try discriminate H'. simpl. intros E. injection E as ->. reflexivity. }
  split.
  - intros p. apply (polynomial_smooth2 1); [|reflexivity]. exists (fun _ => [(-1, [1%nat])]). split.
    + intros q _. repeat constructor.
    + intros t y Hy. split; [reflexivity|]. intros [|q] Hq; [|lia]. destruct y as [|a [|b [|? ?]]]; try discriminate Hy. simpl. ring.
  - split; [rewrite sin_0, cos_0; reflexivity|]. exists 1. split; [lra|]. intros t _. split; [reflexivity|]. intros [|q] Hq; [|lia]. cbn [nth Nat.add spring].
    split; [apply derivable_pt_lim_sin|apply derivable_pt_lim_cos].
Qed.

(** textbook steps exist for every right-hand side, step size and tableau, so
    [C18_order] and [C19_order] are about every h *)
Lemma textbook_exists (A : Arith) (T : Tab A) d g tt y h : (1 <= r_stages T)%nat ->
  exists ks, textbook_rk T d g tt y h ks (nadd A tt h) (vadd y (vscale h (wsum (repeat n0 d) (r_B T) ks))).
Proof.
  intros Hs. assert (G : forall m, (1 <= m <= r_stages T)%nat -> exists ks, length ks = m /\ nth 0 ks [] = g tt y /\
    forall s, (1 <= s < m)%nat -> nth s ks [] = g (nadd A tt (nmul A (nth s (r_C T) n0) h))
      (vadd y (vscale h (wsum (repeat n0 d) (firstn s (nth s (r_A T) [])) (firstn s ks))))).
  { induction m as [|m IH]; intros Hm; [lia|]. destruct m as [|m].
    - exists [g tt y]. split; [reflexivity|]. split; [reflexivity|]. intros; lia.
    - destruct IH as (ks & L & H0 & H1); [lia|].
      exists (ks ++ [g (nadd A tt (nmul A (nth (S m) (r_C T) n0) h)) (vadd y (vscale h (wsum (repeat n0 d) (firstn (S m) (nth (S m) (r_A T) [])) ks)))]).
      split; [rewrite app_length; simpl; lia|]. split; [rewrite app_nth1 by lia; exact H0|]. intros s Hs'.
      destruct (Nat.eq_dec s (S m)) as [->|].
      + rewrite app_nth2 by lia. replace (S m - length ks)%nat with 0%nat by lia. cbn [nth]. replace (firstn (S m) (ks ++ _)) with ks; [reflexivity|].
        rewrite <- L, firstn_app, firstn_all, Nat.sub_diag. cbn [firstn]. rewrite app_nil_r. reflexivity.
      + rewrite app_nth1 by lia. rewrite H1 by lia. rewrite firstn_app. replace (s - length ks)%nat with 0%nat by lia. cbn [firstn]. rewrite app_nil_r. reflexivity. }
  destruct (G (r_stages T) ltac:(lia)) as (ks & L & H0 & H1). exists ks. unfold textbook_rk. auto.
Qed.
