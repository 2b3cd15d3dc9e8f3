(** Property C60, implicit part: where the ESDIRK solvers evaluate fun.
    [esd_built] (ESDTop.v): the constructor of one of the six classes returned c and s;
    [ohist ... n v]: n returned step() calls lead to v; [w_calls] lists the calls of fun. *)
From Coq Require Import String ZArith Reals Lra Psatz QArith Qreals Bool Lia List.
From Verif Require Import Arith Common Stiff RK HStart RKInit RKHist SpecRK Tableaux Classes Dense Ode QX RX RKReal RKStep HStartReal RKInitReal NormReal ESDIRK ESDCls ESDGen ESDReal ESDStep ESDTop ESDInv ESDLin3 Prop_ESD EvalTimes.
Import ListNotations.
Close Scope string_scope. Open Scope nat_scope. Open Scope R_scope.

(** [lam_x], [lam_opts]: the linear problem y' = lam y of Prop_ESDLin.v *)
From Verif Require Prop_ESDLin.

(** x is not before t0 and at most b intervals [t0,tb] beyond it, seen in the direction of integration *)
Definition within_times (b t0 tb x : R) : Prop :=
  (t0 <= x <= t0 + b * (tb - t0))%R \/ (t0 + b * (tb - t0) <= x <= t0)%R.
Lemma within_times_1 t0 tb x : within_times 1 t0 tb x <-> within t0 tb x.
Proof. unfold within_times, within. split; intros [H|H]; [left|right|left|right]; lra. Qed.

(** nodes in [0,b]: the calls stay in the interval stretched by b *)
Theorem C60_esdirk_stretch m o f t0 tb y0 c s n v b : esd_args m o t0 tb y0 -> esd_built m o f t0 tb y0 c s ->
  ohist eview (x_tb c) (x_dir c) (esd_impl m c) (onew s) n v -> nodes_to (em_C m) b -> 1 <= b ->
  exists l, w_calls (e_w (ost v)) = (w_calls (e_w s) ++ l)%list /\
    Forall (fun p => exists x, fst p = Fin x /\ within_times b t0 tb x) l.
Proof.
  intros H1 H2 H3 H4 H5. destruct (esd_times _ _ _ _ _ _ _ _ _ _ _ H1 H2 H3 H4 H5) as (l & d & Hd & Hp & E & Q).
  exists l. split; [exact E|]. eapply Forall_impl; [|exact Q]. intros p (x & Ex & Hx). exists x. split; [exact Ex|].
  unfold within_times. destruct Hd as [->| ->]; [left|right]; lra.
Qed.

Lemma sqrt2_bounds : 1.4 < sqrt 2 < 1.5.
Proof. split; [rewrite <- (sqrt_square 1.4) by lra|rewrite <- (sqrt_square 1.5) at 1 by lra]; apply sqrt_lt_1_alt; lra. Qed.

(** the nodes of every class are in [0,1], except those of KC4I *)
Definition node_max (m : EMeth RX) (b : R) : Prop :=
  In (m, b) [(TRBDF2_m, 1); (TRX2_m, 1); (KC3I_m, 1); (KC4I_m, 26/25); (KC4Ia_m, 1); (Kv3I_m, 1)].
Theorem C60_all_classes m : In m esd_all -> exists b, node_max m b.
Proof.
  unfold node_max. intros [<-|[<-|[<-|[<-|[<-|[<-|[]]]]]]]; eexists; cbn; tauto.
Qed.
Theorem C60_node_max m b : node_max m b -> nodes_to (em_C m) b /\ 1 <= b.
Proof.
  assert (L1 : forall l b, Forall (fun p => 0 <= q2v p <= b) l -> nodes_to (@lv2 RX l) b).
  { intros l b' H. unfold nodes_to. rewrite lv2_RX. rewrite map_map. apply Forall_map. eapply Forall_impl; [|exact H]. intros p Hp. exists (q2v p). auto. }
  assert (L2 : forall l b, Forall (fun p => 0 <= q2v (up p) <= b) l -> nodes_to (@lv RX l) b).
  { intros l b' H. unfold nodes_to. rewrite lv_up, !map_map. apply Forall_map. eapply Forall_impl; [|exact H]. intros p Hp. exists (q2v (up p)). auto. }
  pose proof sqrt2_bounds as S2. intros H.
  repeat (destruct H as [E|H]; [injection E as <- <-; split; [first [apply L1|apply L2]|lra]; repeat constructor;
    unfold q2v, up, Q2R; cbn [fst snd Qnum Qden]; lra|]).
  destruct H.
Qed.

(** all classes but KC4I: fun is only evaluated between t0 and t_bound *)
Theorem C60_esdirk m o f t0 tb y0 c s n v : esd_args m o t0 tb y0 -> node_max m 1 -> esd_built m o f t0 tb y0 c s ->
  ohist eview (x_tb c) (x_dir c) (esd_impl m c) (onew s) n v ->
  exists l, w_calls (e_w (ost v)) = (w_calls (e_w s) ++ l)%list /\
    Forall (fun p => exists x, fst p = Fin x /\ within t0 tb x) l.
Proof.
  intros H1 H2 H3 H4. destruct (C60_node_max _ _ H2) as (HC & _).
  destruct (C60_esdirk_stretch _ _ _ _ _ _ _ _ _ _ 1 H1 H3 H4 HC ltac:(lra)) as (l & E & Q).
  exists l. split; [exact E|]. eapply Forall_impl; [|exact Q]. intros p (x & Ex & Hx). exists x. split; [exact Ex|]. apply within_times_1, Hx.
Qed.
(** KC4I: at most 4% beyond t_bound ... *)
Theorem C60_kc4i o f t0 tb y0 c s n v : esd_args KC4I_m o t0 tb y0 -> esd_built KC4I_m o f t0 tb y0 c s ->
  ohist eview (x_tb c) (x_dir c) (esd_impl KC4I_m c) (onew s) n v ->
  exists l, w_calls (e_w (ost v)) = (w_calls (e_w s) ++ l)%list /\
    Forall (fun p => exists x, fst p = Fin x /\ within_times (26/25) t0 tb x) l.
Proof.
  intros H1 H2 H3. assert (HN : node_max KC4I_m (26/25)) by (unfold node_max; cbn; tauto). destruct (C60_node_max _ _ HN) as (HC & Hb).
  exact (C60_esdirk_stretch _ _ _ _ _ _ _ _ _ _ _ H1 H2 H3 HC Hb).
Qed.
(** ... and it does evaluate fun beyond t_bound *)
Definition kc4i_run : option (OSolver QX (ES QX)) :=
  returned (erun KC4I_m (eo QPInf (QF (1#10)) (QF (1#10)) (Some (QF 1))) decay (@JacConst QX [[QF (-1)]]) (QF 0) [QF 1] (QF 1) 1).
Theorem C60_kc4i_refuted :
  match kc4i_run with Some v => existsb (fun p : num QX * list (num QX) => q_ltb (QF 1) (fst p)) (w_calls (e_w (ost v))) | None => false end = true.
Proof. vm_compute. reflexivity. Qed.

(** the hypotheses are met: every class starts on y' = lam y *)
Example C60_esdirk_case m (lam : R) : In m esd_all -> exists o f c s, esd_args m o 0 1 [Fin 1] /\ esd_built m o f 0 1 [Fin 1] c s /\ ohist eview (x_tb c) (x_dir c) (esd_impl m c) (onew s) 0 (onew s).
Proof.
  intros Hm. destruct (Prop_ESDLin.C29_case m lam Hm) as (c & s & Args & HP).
  exists Prop_ESDLin.lam_opts. eexists. exists c, s. split; [exact Args|]. split; [|constructor].
  exact (Prop_ESDLin.linear_built _ _ _ _ _ _ _ _ _ _ _ _ HP).
Qed.
