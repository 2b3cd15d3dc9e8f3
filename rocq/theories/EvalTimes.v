(** Where the solvers outside the explicit Runge-Kutta family evaluate fun: proofs for
    Prop_EvalTimes.v.  Part 1: the implicit (ESDIRK) classes. *)
From Coq Require Import String ZArith Reals Lra Psatz QArith Qreals Bool Lia List.
From Verif Require Import Arith Common Stiff RK RX RKReal HStart RKInit RKInitReal RKStep NormReal Dense Ode
  ESDIRK ESDCls ESDGen ESDReal ESDStep ESDTop ESDInv.
Import ListNotations.
Close Scope string_scope.
Open Scope nat_scope.

Section G.
Context {A : Arith}.
Notation num := (num A).
Notation vec := (list num).

(** the times of the calls of one trial of size h from t: the stage times *)
Definition at_stages (m : EMeth A) (t h : num) (l : list (num * vec)) : Prop :=
  Forall (fun p => exists i, 1 <= i < em_stages m /\ fst p = nadd A t (nmul A (nth i (em_C m) n0) h)) l.

Lemma estages_times m (c : ECfg A) t h y L : forall left s w K psi z r w',
  estages m c t h y L left s w K psi z = (r, w') -> 1 <= s -> s + left <= em_stages m ->
  exists l, w_calls w' = (w_calls w ++ l)%list /\ at_stages m t h l.
Proof.
  induction left as [|left IH]; intros s w K psi z r w' H H1 H2; cbn [estages] in H.
  { injection H as <- <-. exists []. rewrite app_nil_r. split; [reflexivity|constructor]. }
  destruct (newton m c _ h _ y L NEWTON_MAXITER 0 w _ n0 n_ninf) as [nr w1] eqn:EN.
  destruct (newton_core _ _ _ _ _ _ _ _ _ _ _ _ _ _ _ EN) as (_ & _ & _ & l & E1 & _ & E2).
  assert (AS : at_stages m t h l).
  { eapply Forall_impl; [|exact E2]. intros p Hp. exists s. split; [lia|exact Hp]. }
  destruct nr as [z' q ni|q ni|e].
  - apply IH in H; [|lia|lia]. destruct H as (l2 & E3 & E4). exists (l ++ l2)%list. cbn [w_rates w_calls] in E3.
    split; [rewrite E3, E1, app_assoc; reflexivity|apply Forall_app; split; assumption].
  - injection H as <- <-. exists l. split; [exact E1|exact AS].
  - injection H as <- <-. exists l. split; [exact E1|exact AS].
Qed.

Lemma factorise_calls m (c : ECfg A) w h L w1 : factorise m c w h = inl (L, w1) -> w_calls w1 = w_calls w.
Proof.
  unfold factorise. intros H. destruct (need_lu c w h), (w_LU w); try (injection H as _ <-; reflexivity);
    (match type of H with (let '(_, _) := ?x in _) = _ => destruct x as [Sc X] end);
    (destruct (x_luok c X); [injection H as _ <-; reflexivity|discriminate]).
Qed.
Lemma eassess_calls (c : ECfg A) s w en ha rej acc hn w' : eassess c s w en ha rej = inl (acc, hn, w') -> w_calls w' = w_calls w.
Proof.
  unfold eassess. cbv zeta. intros H.
  repeat match type of H with
  | (if ?b then _ else _) = _ => destruct b
  | match ?x with Some _ => _ | None => _ end = _ => destruct x
  end; try discriminate; try (injection H as _ _ <-; reflexivity).
Qed.

Lemma etrial_times m (c : ECfg A) s w ha ms rej : 2 <= em_stages m ->
  match etrial m c s w ha ms rej with
  | EtFail w' => w_calls w' = w_calls w
  | EtRaise _ => True
  | EtAgain w' _ _ | EtAccept w' _ _ _ _ _ _ =>
      exists l, w_calls w' = (w_calls w ++ l)%list /\ at_stages m (e_t s) (nmul A ha (x_dir c)) l
  end.
Proof.
  intros H2. unfold etrial. destruct (nltb A ha ms); [reflexivity|]. cbv zeta.
  destruct (factorise m c w _) as [[L w1]|e] eqn:EF; [|exact I]. apply factorise_calls in EF.
  destruct (estages m c (e_t s) _ (e_y s) L (em_stages m - 1) 1 (w_rates w1 n_ninf 0) [e_yp s] [] []) as [sr w2] eqn:ES.
  apply estages_times in ES; [|lia|lia]. destruct ES as (l & E1 & E2). cbn [w_rates w_calls] in E1. rewrite EF in E1.
  destruct sr as [K psi z| |e]; [| |exact I].
  - destruct (if em_filter m then _ else _) as [[err w3]|e] eqn:EFi; [|exact I].
    assert (W3 : w_calls w3 = w_calls w2).
    { destruct (em_filter m); [|injection EFi as _ <-; reflexivity]. destruct (x_solve c L _); [injection EFi as _ <-; reflexivity|discriminate]. }
    destruct (eassess c s w3 _ ha rej) as [[[acc hn] w4]|e] eqn:EA; [|exact I]. apply eassess_calls in EA.
    destruct acc; exists l; (split; [rewrite EA, W3; exact E1|exact E2]).
  - destruct (negb _).
    + destruct (x_jac c); [|exact I]. exists l. split; [exact E1|exact E2].
    + exists l. split; [exact E1|exact E2].
Qed.
End G.

Open Scope R_scope.

(** the nodes are between 0 and b *)
Definition nodes_to (C : list xr) (b : R) : Prop := Forall (fun x => exists q, x = Fin q /\ 0 <= q <= b) C.
(** the calls are made between t and t + b D in the direction d *)
Definition calls_in (t d D b : R) (l : list (xr * list xr)) : Prop :=
  Forall (fun p => exists x, fst p = Fin x /\ 0 <= d * (x - t) <= b * D) l.

Lemma calls_in_app t d D b l l2 : calls_in t d D b l -> calls_in t d D b l2 -> calls_in t d D b (l ++ l2).
Proof. intros H1 H2. apply Forall_app. split; assumption. Qed.

Lemma node_at (C : list (num RX)) b i : nodes_to C b -> 0 <= b -> exists q, nth i C (@n0 RX) = Fin q /\ 0 <= q <= b.
Proof.
  intros H Hb. destruct (Nat.lt_ge_cases i (length C)) as [L|L].
  - unfold nodes_to in H. rewrite Forall_forall in H. apply H. apply nth_In. exact L.
  - rewrite nth_overflow by exact L. exists 0. rewrite n0_RX. split; [reflexivity|lra].
Qed.

Lemma at_stages_in (m : EMeth RX) t d h D b l : (d = 1 \/ d = -1) -> nodes_to (em_C m) b -> 0 <= b -> 0 <= h <= D ->
  at_stages m (Fin t) (Fin (h * d)) l -> calls_in t d D b l.
Proof.
  intros Hd HC Hb Hh H. eapply Forall_impl; [|exact H]. intros p (i & _ & Ep).
  destruct (node_at (em_C m) b i HC Hb) as (q & Eq & Hq). rewrite Eq in Ep. cbn [nmul nadd RX xmul xadd] in Ep.
  exists (t + q * (h * d)). split; [exact Ep|].
  replace (d * (t + q * (h * d) - t)) with (d * d * (q * h)) by ring.
  assert (Hc2 : d * d = 1) by (destruct Hd as [-> | ->]; lra). rewrite Hc2, Rmult_1_l. split; [nra|]. apply Rmult_le_compat; lra.
Qed.

Definition out_calls (o : impl_res (ES RX)) (P : list (xr * list xr) -> Prop) : Prop :=
  match o with IDone s' | IFail s' _ => P (w_calls (e_w s')) | _ => True end.

Lemma eloop_times (m : EMeth RX) c r s ms t b : la_ok m c -> egood c r -> length (e_y s) = x_n c -> length (e_yp s) = x_n c ->
  e_t s = Fin t -> nodes_to (em_C m) b -> 0 <= b ->
  forall fuel w h D rej, winv m c s w -> 0 < h <= D ->
  out_calls (eloop fuel m c s w (Fin h) (Fin ms) rej) (fun cl => exists l, cl = (w_calls w ++ l)%list /\ calls_in t (cd r) D b l).
Proof.
  intros HA HG Hy Hp Et HC Hb.
  assert (Hcd : cd r = 1 \/ cd r = -1) by (destruct HG as (_ & _ & Hcd & _); exact Hcd).
  assert (Gd : x_dir c = Fin (cd r)) by (destruct HG as (_ & Gd & _); exact Gd).
  assert (H2 : (2 <= em_stages m)%nat) by (destruct HA; assumption).
  assert (Hsh : eshrink r <= 1).
  { unfold eshrink. apply Rmax_lub; [lra|]. destruct HG as (_ & _ & _ & _ & _ & _ & _ & _ & _ & _ & Hg & _). lra. }
  induction fuel as [|fuel IH]; intros w h D rej HW Hh; [exact I|]. cbn [eloop].
  pose proof (fin_trial m c r s w h ms rej HA HG HW Hy Hp ltac:(lra)) as HT.
  pose proof (etrial_times m c s w (Fin h) (Fin ms) rej H2) as HK. rewrite Gd, Et in HK. change (nmul RX (Fin h) (Fin (cd r))) with (Fin (h * cd r)) in HK.
  destruct (etrial m c s w (Fin h) (Fin ms) rej) as [w'|e|w' ha' rej'|w' hh hn tn yn en K] eqn:ET.
  - cbn [out_calls e_w]. exists []. rewrite app_nil_r. split; [exact HK|constructor].
  - exact I.
  - destruct HK as (l & El & Hl). apply (at_stages_in m t (cd r) h D b l Hcd HC Hb) in Hl; [|lra].
    destruct HT as (T0 & W' & [(T1 & T2 & T3 & [(q & -> & Hq)| ->])|(T1 & T2 & -> & T3 & T4)]).
    + pose proof (IH w' (h * q) D rej' W' ltac:(nra)) as HI. unfold out_calls in *.
      destruct (eloop fuel m c s w' (Fin (h * q)) (Fin ms) rej') as [s'|s' msg|e|]; try exact I;
        destruct HI as (l2 & E2 & I2); (exists (l ++ l2)%list; split; [rewrite E2, El, app_assoc; reflexivity|apply calls_in_app; assumption]).
    + destruct fuel as [|[|fuel]]; [exact I| |].
      * cbn [eloop]. pose proof (nan_trial m c r s w' ms rej' HA HG W' Hy Hp) as HN. destruct (etrial m c s w' NaN (Fin ms) rej'); try contradiction; exact I.
      * change (S (S fuel)) with (2 + fuel)%nat. rewrite (nan_loop m c r s ms HA HG Hy Hp fuel w' rej' W'). exact I.
    + pose proof (IH w' h D rej' W' Hh) as HI. unfold out_calls in *.
      destruct (eloop fuel m c s w' (Fin h) (Fin ms) rej') as [s'|s' msg|e|]; try exact I;
        destruct HI as (l2 & E2 & I2); (exists (l ++ l2)%list; split; [rewrite E2, El, app_assoc; reflexivity|apply calls_in_app; assumption]).
  - destruct HK as (l & El & Hl). apply (at_stages_in m t (cd r) h D b l Hcd HC Hb) in Hl; [|lra].
    cbn [out_calls efinish e_w w_cur w_calls]. exists l. split; [exact El|exact Hl].
Qed.

Lemma estep_times (m : EMeth RX) c r k s b : la_ok m c -> egood c r -> einv m c s -> tval s <> ctb r -> nodes_to (em_C m) b -> 0 <= b ->
  out_calls (estep_impl m c k s) (fun cl => exists l, cl = (w_calls (e_w s) ++ l)%list /\ calls_in (tval s) (cd r) (Rabs (ctb r - tval s)) b l).
Proof.
  intros HA HG HI Ht HC Hb. pose proof HI as (I1 & I2 & I3 & I4 & _).
  destruct I1 as (t & Et). destruct I2 as (h0 & Eh & Hh0). assert (Tv : tval s = t) by (unfold tval; rewrite Et; reflexivity). rewrite Tv in *.
  unfold estep_impl. rewrite Et, Eh.
  destruct (ereassess_real c r t h0 (w_std (e_w s)) HG Hh0 Ht) as (ha & std' & ER & Hstd & Hha & HM & HL). rewrite ER.
  destruct (preemptive_ok m c r s ha std' HA HG HI Hstd) as (w & EP & HW & P1 & _). rewrite EP.
  pose proof (eloop_times m c r s (emin r t h0) t b HA HG I3 I4 Et HC Hb k w ha (Rabs (ctb r - t)) false HW Hha) as H.
  rewrite P1 in H. exact H.
Qed.

(** whole histories: every call after the construction is between t0 and t_bound, or at most
    (b - 1) times the length of the interval past t_bound *)
Theorem esd_times m o f t0 tb y0 c s n v b : esd_args m o t0 tb y0 -> esd_built m o f t0 tb y0 c s ->
  ohist eview (x_tb c) (x_dir c) (esd_impl m c) (onew s) n v -> nodes_to (em_C m) b -> 1 <= b ->
  exists l d, (d = 1 \/ d = -1) /\ 0 < d * (tb - t0) /\ w_calls (e_w (ost v)) = (w_calls (e_w s) ++ l)%list /\
    Forall (fun p => exists x, fst p = Fin x /\ 0 <= d * (x - t0) <= b * (d * (tb - t0))) l.
Proof.
  intros HArgs HB HH HC Hb.
  destruct (esd_built_good _ _ _ _ _ _ _ _ HArgs HB) as (r & G & E1 & E2 & E3 & _ & _ & _ & LA & I0 & Et & _).
  assert (Hcd : cd r = 1 \/ cd r = -1) by (destruct G as (_ & _ & Hcd & _); exact Hcd).
  remember (onew s) as v0 eqn:Ev.
  enough (Q : exists l, w_calls (e_w (ost v)) = (w_calls (e_w s) ++ l)%list /\ calls_in t0 (cd r) (cd r * (tb - t0)) b l /\ 0 <= cd r * (tval (ost v) - t0)).
  { destruct Q as (l & Q1 & Q2 & _). exists l, (cd r). auto. }
  induction HH as [v0|v0 n v1 v2 k H IH HS].
  - subst v0. exists []. rewrite app_nil_r. split; [reflexivity|]. split; [constructor|]. cbn [onew ost]. unfold tval. rewrite Et. lra.
  - specialize (IH Ev). destruct IH as (l & Q1 & Q2 & Q3). subst v0.
    assert (HA : esd_after m o f t0 tb y0 c n v1) by (split; [exact HArgs|exists s; split; [exact HB|exact H]]).
    destruct (esd_step_cases _ _ _ _ _ _ _ _ _ _ _ HA HS) as (r' & G' & F1 & F2 & _ & _ & _ & _ & _ & _ & I1 & Ah & HCs).
    assert (Er : cd r' = cd r).
    { destruct G as (_ & D1 & _). destruct G' as (_ & D2 & _). congruence. }
    rewrite Er in *.
    assert (Hne : tval (ost v1) <> ctb r) by (rewrite E1; intros E; rewrite E in Ah; lra).
    pose proof (estep_times m c r k (ost v1) b LA G I1 Hne HC ltac:(lra)) as HT.
    rewrite E1, (cd_abs r _ Hcd Ah) in HT.
    assert (TT : forall l2, calls_in (tval (ost v1)) (cd r) (cd r * (tb - tval (ost v1))) b l2 -> calls_in t0 (cd r) (cd r * (tb - t0)) b l2).
    { intros l2 H2. eapply Forall_impl; [|exact H2]. intros p (x & Ex & Hx). exists x. split; [exact Ex|]. clear - Hx Q3 Ah Hb. set (u := cd r) in *. split; nra. }
    destruct HCs as [(HD & _ & _ & HCs)|(HF & _ & Ett & _)].
    + rewrite HD in HT. destruct HT as (l2 & T1 & T2). exists (l ++ l2)%list. split; [rewrite T1, Q1, app_assoc; reflexivity|].
      split; [apply calls_in_app; [exact Q2|apply TT; exact T2]|].
      assert (AV : ahead eview (ctb r) (cd r) (ost v1)) by (unfold ahead; rewrite tv_eview, E1; exact Ah).
      destruct (estep_adv m c r k _ _ LA G I1 AV HD) as (_ & [A1 _] & _).
      assert (0 < cmb r) by (rewrite E3; apply sqrt_tiny_pos). nra.
    + rewrite HF in HT. destruct HT as (l2 & T1 & T2). exists (l ++ l2)%list. split; [rewrite T1, Q1, app_assoc; reflexivity|].
      split; [apply calls_in_app; [exact Q2|apply TT; exact T2]|]. unfold tval in *. rewrite Ett. exact Q3.
Qed.
