(** From runs of the Nystrom solvers to sequences of textbook steps. *)
From Coq Require Import String Reals Lra Psatz QArith Qreals Lia List Arith Bool.
From Verif Require Import Arith Common RK RKGen RKHist RX SpecRK RKSpecProofs RKReal RKInit RKInitReal RKStep RKBuilt RKMore RKTop Classes Tableaux Series Trees OrderThm OrderCheck
  OrderRK OrderRKN OrderModel OrderPair OrderPairN Dense DenseReal DenseStep GOrder NearPair UOrder UOrder2 GlobalRK GlobalRun GlobalN.
Import ListNotations.
Close Scope string_scope.
Open Scope nat_scope.
Open Scope R_scope.

(** ** runs of an explicit solver whose steps are given by [Phi] *)
Section Run.
Variables (d : nat) (lo hi : R) (Y : R -> list R) (Phi : R -> list R -> R -> list R).
Hypothesis Hd : (0 < d)%nat.
Hypothesis HPl : forall t y h, length (Phi t y h) = d.

Lemma run_opath m o g t0 tb c s0 H v : explicit m -> built o g t0 tb (map Fin (Y t0)) c s0 -> t s0 = Fin t0 -> y s0 = map Fin (Y t0) ->
  (forall v1 v2 x yr x', made_step m c v1 v2 -> length yr = d -> t (st v1) = Fin x -> y (st v1) = map Fin yr -> t (st v2) = Fin x' ->
     y (st v2) = map Fin (Phi x yr (x' - x))) ->
  lo <= t0 <= hi -> lo <= tb <= hi -> length (Y t0) = d ->
  steps_below m c H (new_solver s0) v ->
  exists x yr, t (st v) = Fin x /\ y (st v) = map Fin yr /\ length yr = d /\ opath lo hi Y Phi H t0 x yr /\
    ((t0 < tb /\ t0 <= x <= tb) \/ (tb < t0 /\ tb <= x <= t0)) /\ (stat v = Finished -> x = tb).
Proof.
  intros HE HB Et Ey HPhi Hlo Hhi HY0 HS.
  pose proof (explicit_min m HE) as Hmin.
  assert (HA : forall w, steps_below m c H (new_solver s0) w -> exists n, after m o g t0 tb (map Fin (Y t0)) c n w).
  { intros w Hw. destruct (steps_below_history _ _ _ _ _ Hw) as (n & Hn). exists n, s0. auto. }
  induction HS as [|v1 v2 kk HS IH HL Hst Hsm].
  - destruct (HA _ (sb_start _ _ _ _)) as (n & Hn). destruct (after_inv _ _ _ _ _ _ _ _ _ Hmin Hn) as (r & _ & _ & _ & _ & Hdir & _).
    exists t0, (Y t0). cbn [st new_solver]. split; [exact Et|]. split; [exact Ey|]. split; [exact HY0|]. split; [constructor|].
    split; [|discriminate]. assert (tb <> t0) by (intros E; rewrite E in Hdir; replace (t0 - t0) with 0 in Hdir by ring; lra).
    destruct (Rlt_le_dec t0 tb); lra.
  - destruct IH as (x & yr & Ex & Ey1 & Ly & HP & Hx & _).
    destruct (HA _ HS) as (n & Hn). destruct (after_inv _ _ _ _ _ _ _ _ _ Hmin Hn) as (r & s' & HG & (_ & Hrun) & Etb & Hdir & _ & _ & _ & _ & HH & _).
    assert (Htb : t_bound c = Fin tb) by (destruct HG as ((HH1 & _) & _); rewrite HH1, Etb; reflexivity).
    assert (Hr : stat v1 = Running) by (destruct (ode_step_ok m c kk v1 v2 Hmin Hst); auto).
    rewrite Hr in Hrun. unfold tval in Hrun. rewrite Ex, Etb in Hrun.
    destruct (failed_or v2) as [(msg & Hf)|Hnf].
    + destruct (failure_clean m c kk v1 v2 msg HE Hst Hf) as (E1 & E2 & _).
      exists x, yr. rewrite E1, E2. split; [exact Ex|]. split; [exact Ey1|]. split; [exact Ly|]. split; [exact HP|]. split; [exact Hx|]. intros Hfin. congruence.
    + destruct (monotone m o g t0 tb _ c n v1 kk v2 HE Hn HL Hst Hnf) as (x1 & x' & E1 & E2 & Hadv & _).
      rewrite Ex in E1. injection E1 as <-.
      assert (HPr : proper c v1).
      { split; [rewrite Ey1; destruct yr; [simpl in Ly; lia|discriminate]|]. rewrite Ex, Htb. cbn [neqb RX xeqb].
        destruct (Reqb_spec x tb) as [->|]; [|reflexivity]. replace (tb - tb) with 0 in Hrun by ring. lra. }
      destruct (steps_below_history _ _ _ _ _ HS) as (n2 & Hn2).
      assert (HMS : made_step m c v1 v2).
      { exists (new_solver s0), n2, kk. split; [|auto].
        destruct (built_good _ _ _ _ _ _ _ HB) as (r2 & HX). apply HX. }
      pose proof (HPhi v1 v2 x yr x' HMS Ly Ex Ey1 E2) as Ey2.
      exists x', (Phi x yr (x' - x)). split; [exact E2|]. split; [exact Ey2|].
      split; [apply HPl|].
      split. { refine (opathS _ _ _ _ _ _ x yr x' HP _ _ (Hsm _ _ Ex E2)); destruct Hadv; nra. }
      split; [destruct Hadv; lra|].
      intros Hfin. assert (Hb2 : 0 <= dir r * (x' - tb)).
      { unfold ode_step in Hst. rewrite Hr in Hst.
        destruct HPr as (P1 & P2). change (neqb RX (t (st v1)) (t_bound c)) with (xeqb (t (st v1)) (t_bound c)) in *.
        destruct (_ || _) eqn:Eor.
        { exfalso. apply orb_true_iff in Eor. destruct Eor as [Eor|Eor]; [|congruence]. apply Nat.eqb_eq in Eor. destruct (y (st v1)); [auto|discriminate]. }
        destruct (step_impl kk m c (st v1)) as [s2|s2 ms2| |]; try discriminate; [|inversion Hst; subst v2; discriminate Hfin].
        inversion Hst as [[HE1]]. subst v2. cbn [stat st] in *.
        destruct HG as ((_ & HD & _) & _). rewrite HD, E2, Htb in Hfin.
        change (nsub RX) with xsub in Hfin. change (nmul RX) with xmul in Hfin. unfold xsub in Hfin. cbn [xopp xadd xmul] in Hfin.
        match type of Hfin with context [Rleb ?a ?b] => destruct (Rleb_spec a b) as [HX|HX]; [|discriminate Hfin] end.
        assert (E0 : Q2R 0 = 0) by (unfold Q2R; simpl; lra). rewrite E0 in HX. replace (x' - tb) with (x' + - tb) by ring. exact HX. }
      destruct Hadv; nra.
Qed.
End Run.

(** ** the Nystrom classes *)
(** the user's right-hand side, for the first order system, and the accelerations the class keeps of it *)
Lemma accel_lifts n G g : lifts (n + n) (sys2 n G) g -> lifts2 n G (fun t y => skipn n (g t y)).
Proof.
  intros H t y Hy. destruct (H t y Hy) as (L & E).
  assert (LS : length (skipn n y) = n) by (rewrite skipn_length; lia).
  unfold sys2 in *. rewrite app_length, LS in L. split; [lia|]. 
  refine (eq_trans (f_equal (skipn n) E) _). rewrite map_app, skipn_app, map_length, LS, Nat.sub_diag. rewrite skipn_all2 by (rewrite map_length; lia). reflexivity.
Qed.
Lemma rkn_init_start k vi o g t0 y0 tb (c : Cfg RX) s : rkn_init k vi o g t0 y0 tb = inl (c, s) ->
  fn c = (fun t y => skipn (Nat.div (length y0) 2) (g t y)) /\ t s = t0 /\ y s = y0.
Proof.
  intros H. unfold rkn_init in H.
  match type of H with context [rk_init k ?o' _ _ _ _] => set (o1 := o') in * end.
  destruct (rk_init k o1 g t0 y0 tb) as [[c1 s1]|] eqn:HI; [|discriminate].
  destruct (init_stiff (k_stab k) (o_stiff o)); [|discriminate].
  match type of H with (if ?b then _ else _) = _ => destruct b; [discriminate|] end.
  match type of H with (if ?b then _ else _) = _ => destruct b; [discriminate|] end.
  destruct (rk_init_start _ _ _ _ _ _ _ _ HI) as (E1 & E2 & E3).
  apply inl_pair_inj in H. destruct H as [<- <-]. cbn [fn t y]. auto.
Qed.

Section Nystrom.
Variables (n s : nat) (G : R -> list R -> list R) (g : num RX -> list (num RX) -> list (num RX)).
Variables (A Ap : list (list Q)) (b bp c e ep : list Q).
Hypothesis HG : lifts2 n G g.
Hypothesis LA : length A = s.
Hypothesis LAp : length Ap = s.
Hypothesis LB : length b = s.
Hypothesis LBp : length bp = s.
Hypothesis LC : length c = s.
Hypothesis C0 : nth 0 c 0%Q = 0%Q.
(** the textbook step, with the stage at the new point added (of weight 0) *)
Definition the_step : R -> list R -> R -> list R :=
  rkn_step n G (S s) (mq (extA A b [])) (mq (extA Ap bp [])) (vq (extC c [])) (vq b) (vq bp).
Lemma the_step_eq t y h : length y = (n + n)%nat ->
  the_step t y h = npoint n y h 1 (lcomb s (vq b) (nstages n G (mq A) (mq Ap) (vq c) t y h s)) (lcomb s (vq bp) (nstages n G (mq A) (mq Ap) (vq c) t y h s)).
Proof.
  intros Hy. unfold the_step, rkn_step.
  assert (EX : forall w q, (forall l, (s <= l)%nat -> w l = 0) ->
     lcomb (S s) w (nstages n G (mq (extA A b [])) (mq (extA Ap bp [])) (vq (extC c [])) t y h (S s)) q = lcomb s w (nstages n G (mq A) (mq Ap) (vq c) t y h s) q).
  { intros w q Hw. rewrite (ext_all_n n G g A Ap b bp c t y h s HG LA LAp LC Hy). unfold lcomb. cbn [rsum].
    rewrite (Hw s) by lia. rewrite Rmult_0_l, Rplus_0_r. apply rsum_ext. intros l Hl. rewrite app_nth1; auto. rewrite nstages_length. auto. }
  apply npoint_ext; intros q Hq; apply EX; intros l Hl; apply vq_overflow; lia.
Qed.
Lemma made_step_n m cc v v' x yr x' : uses_tabn m (mk_tabn s A Ap b bp c e ep) n -> made_step m cc v v' -> fn cc = g -> length yr = (n + n)%nat ->
  t (st v) = Fin x -> y (st v) = map Fin yr -> t (st v') = Fin x' -> y (st v') = map Fin (the_step x yr (x' - x)).
Proof.
  intros HU HM Eg Ly Ex Ey Ex'. destruct (made_step_facts_n m _ n cc v v' HU HM) as (h & ks & HT & HF).
  assert (Eh : h = Fin (x' - x)). { pose proof (sf_t _ _ _ _ _ HF) as E. rewrite Ex, Ex' in E. symmetry in E. apply Fin_add_inv in E. exact E. }
  rewrite Eg, Ex, Ey, Eh in HT.
  destruct (textbook_real_n n G g s A Ap b bp c e ep x yr (x' - x) ks _ _ HG Ly C0 HT) as (_ & _ & ->).
  rewrite the_step_eq by auto. reflexivity.
Qed.
End Nystrom.

Lemma order_near_V uV s A Ap c b m : order_V true uV s A Ap c b 1 m -> near_V true uV s A Ap c 0 b m.
Proof.
  intros H n fs Hn Hf. rewrite (H n fs Hn Hf), pow1. replace (1 / INR (S n) * exact_weight fs - exact_weight fs / INR (S n)) with 0.
  - rewrite Rabs_R0. lra.
  - field. apply not_0_INR. lia.
Qed.
Lemma order_near_U uV s A Ap c b m : order_U true uV s A Ap c b 1 m -> near_U true uV s A Ap c 0 b m.
Proof.
  intros H n fs Hn Hf. rewrite (H n fs Hn Hf), pow1.
  replace (1 / (INR (S (S n)) * INR (S n)) * exact_weight fs - exact_weight fs / (INR (S (S n)) * INR (S n))) with 0.
  - rewrite Rabs_R0. lra.
  - field. split; apply not_0_INR; lia.
Qed.
Lemma coef_bound s A Ap c b bp : exists W, (forall i l, (i < s)%nat -> (l < s)%nat -> Rabs (A i l) <= W) /\ (forall i l, (i < s)%nat -> (l < s)%nat -> Rabs (Ap i l) <= W) /\
  (forall i, (i < s)%nat -> Rabs (c i) <= W) /\ (forall i, (i < s)%nat -> Rabs (b i) <= W) /\ (forall i, (i < s)%nat -> Rabs (bp i) <= W).
Proof.
  destruct (matrix_bound s A) as (B1 & P1 & H1). destruct (matrix_bound s Ap) as (B2 & P2 & H2).
  destruct (weights_bound s c) as (B3 & P3 & H3). destruct (weights_bound s b) as (B4 & P4 & H4). destruct (weights_bound s bp) as (B5 & P5 & H5).
  exists (B1 + B2 + B3 + B4 + B5). split; [intros i l Hi Hl; specialize (H1 i l Hi Hl); lra|]. split; [intros i l Hi Hl; specialize (H2 i l Hi Hl); lra|].
  split; [intros i Hi; specialize (H3 i Hi); lra|]. split; [intros i Hi; specialize (H4 i Hi); lra|intros i Hi; specialize (H5 i Hi); lra].
Qed.
