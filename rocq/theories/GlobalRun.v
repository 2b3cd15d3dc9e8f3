(** From solver runs to sequences of textbook steps. *)
From Coq Require Import String Reals Lra QArith Qreals Lia List Arith Bool.
From Verif Require Import Arith Common RK RKGen RKHist RX SpecRK RKSpecProofs RKReal RKInit RKInitReal RKStep RKBuilt RKMore RKTop Classes Tableaux Series Trees OrderThm OrderCheck
  OrderRK OrderModel OrderPair Dense DenseReal DenseStep DenseAcc GOrder NearPair UOrder UOrder2 GlobalRK.
Import ListNotations.
Close Scope string_scope.
Open Scope nat_scope.
Open Scope R_scope.

(** ** coefficients of a class as a [method] *)
Lemma matrix_bound s (A : nat -> nat -> R) : exists B, 0 <= B /\ forall i l, (i < s)%nat -> (l < s)%nat -> Rabs (A i l) <= B.
Proof.
  assert (G : forall n, exists B, 0 <= B /\ forall i l, (i < n)%nat -> (l < s)%nat -> Rabs (A i l) <= B).
  { induction n as [|n (B & HB & H)]; [exists 0; split; [lra|intros; lia]|].
    destruct (weights_bound s (A n)) as (B2 & HB2 & H2). exists (B + B2). split; [lra|]. intros i l Hi Hl.
    destruct (Nat.eq_dec i n) as [->|Hne]; [specialize (H2 l Hl); lra|]. specialize (H i l ltac:(lia) Hl). lra. }
  apply G.
Qed.
Lemma order_near s A c b m : order_V false true s (fun _ _ => 0) A c b 1 m -> near_V false true s (fun _ _ => 0) A c 0 b m.
Proof.
  intros H n fs Hn Hf. rewrite (H n fs Hn Hf), pow1. replace (1 / INR (S n) * exact_weight fs - exact_weight fs / INR (S n)) with 0.
  - rewrite Rabs_R0. lra.
  - field. apply not_0_INR. lia.
Qed.
Lemma the_method_full s A b c p eps : length A = s -> length b = s -> length c = s ->
  (forall i l, (i <= l)%nat -> mq (extA A b []) i l = 0) -> 0 <= eps ->
  near_V false true (S s) (fun _ _ => 0) (mq (extA A b [])) (vq (extC c [])) eps (vq b) p ->
  exists W (M : method (S s) p W), meps M = eps /\ mA M = mq (extA A b []) /\ mc M = vq (extC c []) /\ forall F d t y h, length y = d ->
    rk_step F d M t y h = rpoint d y h (lcomb s (vq b) (rstages F (mq A) (vq c) t y h s)).
Proof.
  intros LA LB LC Hl He Ho.
  destruct (matrix_bound (S s) (mq (extA A b []))) as (B1 & HB1 & H1). destruct (weights_bound (S s) (vq b)) as (B2 & HB2 & H2).
  destruct (weights_bound (S s) (vq (extC c []))) as (B3 & HB3 & H3).
  unshelve eexists (B1 + B2 + B3), {| mA := mq (extA A b []); mb := vq b; mc := vq (extC c []); meps := eps |}; auto.
  - intros i l Hi Hl'. specialize (H1 i l Hi Hl'). lra.
  - intros i Hi. specialize (H2 i Hi). lra.
  - intros i Hi. specialize (H3 i Hi). lra.
  - split; [reflexivity|]. split; [reflexivity|]. split; [reflexivity|]. intros F d t y h Hy. unfold rk_step. cbn [mA mb mc]. unfold rpoint. apply map_ext. intros q.
    f_equal. f_equal. rewrite <- (lcomb_ext_zero F (mq (extA A b [])) (vq (extC c [])) t y h s (S s) (vq b) q); [|lia|intros l Hl'; apply vq_overflow; lia].
    rewrite ext_stages by auto. reflexivity.
Qed.
Lemma the_method s A b c p eps : length A = s -> length b = s -> length c = s ->
  (forall i l, (i <= l)%nat -> mq (extA A b []) i l = 0) -> 0 <= eps ->
  near_V false true (S s) (fun _ _ => 0) (mq (extA A b [])) (vq (extC c [])) eps (vq b) p ->
  exists W (M : method (S s) p W), meps M = eps /\ forall F d t y h, length y = d ->
    rk_step F d M t y h = rpoint d y h (lcomb s (vq b) (rstages F (mq A) (vq c) t y h s)).
Proof.
  intros LA LB LC Hl He Ho. destruct (the_method_full s A b c p eps LA LB LC Hl He Ho) as (W & M & E & _ & _ & H). exists W, M. auto.
Qed.

(** ** runs *)
(** successive calls of step() that change t by at most H, max_step not being below the minimum step *)
Inductive steps_below (m : Meth RX) (c : Cfg RX) (H : R) (v0 : Solver RX) : Solver RX -> Prop :=
| sb_start : steps_below m c H v0 v0
| sb_step v1 v2 k : steps_below m c H v0 v1 -> limits_consistent c v1 -> ode_step k m c v1 = StepOk v2 ->
    (forall x1 x2, t (st v1) = Fin x1 -> t (st v2) = Fin x2 -> Rabs (x2 - x1) <= H) -> steps_below m c H v0 v2.

Lemma steps_below_history m c H v0 v : steps_below m c H v0 v -> exists n, history m c v0 n v.
Proof. induction 1 as [|v1 v2 k _ (n & IH) _ HS _]; [exists 0%nat; constructor|]. exists (S n). econstructor; eauto. Qed.

Lemma rk_init_start k o g t0 y0 tb (c : Cfg RX) s : rk_init k o g t0 y0 tb = inl (c, s) -> fn c = g /\ t s = t0 /\ y s = y0.
Proof.
  unfold rk_init. intros H.
  destruct (nleb RX (o_max_step o) n0); [discriminate|].
  destruct (validate_tol (o_rtol_is_float o) (o_rtol o) (o_atol o) y0) as [[rt at_]|]; [|discriminate].
  destruct (init_stiff (k_stab k) (o_stiff o)) as [nsd|]; [|discriminate].
  destruct (sc_coefs (sc_or (o_sc o) (k_sc k))) as [[[[kb1 kb2] al] gg]|]; [|discriminate].
  cbv zeta in H.
  match type of H with match ?x with inl _ => _ | inr _ => _ end = _ => destruct x as [[? ?]|]; [|discriminate] end.
  apply inl_pair_inj in H. destruct H as [<- <-]. auto.
Qed.

Lemma failed_or (v : Solver RX) : is_failed v \/ ~ is_failed v.
Proof. unfold is_failed. destruct (stat v) eqn:E; [right; intros (m & X); discriminate|right; intros (m & X); discriminate|left; eauto]. Qed.

Section Run.
Variables (d p s : nat) (F : R -> list R -> list R) (lo hi : R) (Y : R -> list R).
Variables (A : list (list Q)) (b cc e : list Q) (W : R) (M : method (S s) p W).
Variable g : num RX -> list (num RX) -> list (num RX).
Hypothesis HF : lifts d F g.
Hypothesis Hd : (0 < d)%nat.
Hypothesis LA : length A = s.
Hypothesis LB : length b = s.
Hypothesis LC : length cc = s.
Hypothesis C0 : nth 0 cc 0%Q = 0%Q.
Hypothesis HM : forall F d t y h, length y = d ->
    rk_step F d M t y h = rpoint d y h (lcomb s (vq b) (rstages F (mq A) (vq cc) t y h s)).

Lemma run_path m k o t0 tb c s0 H v : uses_tab m (mk_tab s A b cc e) d -> ordinary k o t0 tb (map Fin (Y t0)) ->
  rk_init k o g (Fin t0) (map Fin (Y t0)) (Fin tb) = inl (c, s0) -> lo <= t0 <= hi -> lo <= tb <= hi -> length (Y t0) = d ->
  steps_below m c H (new_solver s0) v ->
  exists x yr, t (st v) = Fin x /\ y (st v) = map Fin yr /\ length yr = d /\ path d p F lo hi Y (S s) W M H t0 x yr /\
    ((t0 < tb /\ t0 <= x <= tb) \/ (tb < t0 /\ tb <= x <= t0)) /\ (stat v = Finished -> x = tb).
Proof.
  intros HU HO HI Hlo Hhi HY0 HS.
  assert (HE : explicit m) by (eapply ex_tab; eauto). pose proof (explicit_min m HE) as Hmin.
  destruct (rk_init_start _ _ _ _ _ _ _ _ HI) as (Eg & Et & Ey).
  assert (HB : built o g t0 tb (map Fin (Y t0)) c s0) by (left; eauto).
  assert (HA : forall w, steps_below m c H (new_solver s0) w -> exists n, after m o g t0 tb (map Fin (Y t0)) c n w).
  { intros w Hw. destruct (steps_below_history _ _ _ _ _ Hw) as (n & Hn). exists n, s0. auto. }
  induction HS as [|v1 v2 kk HS IH HL Hst Hsm].
  - destruct (HA _ (sb_start _ _ _ _)) as (n & Hn). destruct (after_inv _ _ _ _ _ _ _ _ _ Hmin Hn) as (r & _ & _ & _ & _ & Hdir & _).
    exists t0, (Y t0). cbn [st new_solver]. split; [exact Et|]. split; [exact Ey|]. split; [exact HY0|]. split; [constructor|].
    split; [|discriminate]. assert (tb <> t0) by (intros E; rewrite E in Hdir; replace (t0 - t0) with 0 in Hdir by ring; lra).
    destruct (Rlt_le_dec t0 tb); lra.
  - destruct IH as (x & yr & Ex & Ey1 & Ly & HP & Hx & _).
    destruct (HA _ HS) as (n & Hn). destruct (after_inv _ _ _ _ _ _ _ _ _ Hmin Hn) as (r & s' & HG & (_ & Hrun) & Etb & Hdir & _ & _ & _ & _ & HH & _).
    assert (Htb : t_bound c = Fin tb) by (destruct HG as ((HH1 & _) & _); rewrite HH1, Etb; reflexivity).
    assert (Hr : stat v1 = Running) by (destruct (ode_step_ok m c kk v1 v2 Hmin Hst); auto).
    rewrite Hr in Hrun. unfold tval in Hrun. rewrite Ex, Etb in Hrun.
    destruct (failed_or v2) as [(msg & Hf)|Hnf].
    + destruct (failure_clean m c kk v1 v2 msg HE Hst Hf) as (E1 & E2 & _).
      exists x, yr. rewrite E1, E2. split; [exact Ex|]. split; [exact Ey1|]. split; [exact Ly|]. split; [exact HP|]. split; [exact Hx|]. intros Hfin. congruence.
    + destruct (monotone m o g t0 tb _ c n v1 kk v2 HE Hn HL Hst Hnf) as (x1 & x' & E1 & E2 & Hadv & _).
      rewrite Ex in E1. injection E1 as <-.
      assert (HPr : proper c v1).
      { split; [rewrite Ey1; destruct yr; [simpl in Ly; lia|discriminate]|]. rewrite Ex, Htb. cbn [neqb RX xeqb].
        destruct (Reqb_spec x tb) as [->|]; [|reflexivity]. replace (tb - tb) with 0 in Hrun by ring. lra. }
      destruct (steps_below_history _ _ _ _ _ HS) as (n2 & Hn2).
      assert (HMS : made_step m c v1 v2).
      { exists (new_solver s0), n2, kk. split; [|auto].
        destruct (built_good _ _ _ _ _ _ _ HB) as (r2 & HX). apply HX. }
      destruct (made_step_real d F g s A b cc e m c v1 v2 x yr x' HF Ly Hd LA LB LC C0 HU HMS Eg Ex Ey1 E2) as (ks & _ & Ey2 & _).
      exists x', (rk_step F d M x yr (x' - x)). split; [exact E2|]. split; [rewrite Ey2, HM by auto; reflexivity|].
      split; [apply rpoint_length|].
      split. { refine (pathS _ _ _ _ _ _ _ _ _ _ _ x yr x' HP _ _ (Hsm _ _ Ex E2)); destruct Hadv; nra. }
      split; [destruct Hadv; lra|].
      intros Hfin. assert (Hb2 : 0 <= dir r * (x' - tb)).
      { unfold ode_step in Hst. rewrite Hr in Hst.
        destruct HPr as (P1 & P2). change (neqb RX (t (st v1)) (t_bound c)) with (xeqb (t (st v1)) (t_bound c)) in *.
        destruct (_ || _) eqn:Eor.
        { exfalso. apply orb_true_iff in Eor. destruct Eor as [Eor|Eor]; [|congruence]. apply Nat.eqb_eq in Eor. destruct (y (st v1)); [auto|discriminate]. }
        destruct (step_impl kk m c (st v1)) as [s2|s2 ms2| |]; try discriminate; [|inversion Hst; subst v2; discriminate Hfin].
        inversion Hst as [[HE1]]. subst v2. cbn [stat st] in *.
        destruct HG as ((_ & HD & _) & _). rewrite HD, E2, Htb in Hfin.
        change (nsub RX) with xsub in Hfin. change (nmul RX) with xmul in Hfin. unfold xsub in Hfin. cbn [xopp xadd xmul] in Hfin.
        match type of Hfin with context [Rleb ?a ?b] => destruct (Rleb_spec a b) as [HX|HX]; [|discriminate Hfin] end.
        assert (E0 : Q2R 0 = 0) by (unfold Q2R; simpl; lra). rewrite E0 in HX. replace (x' - tb) with (x' + - tb) by ring. exact HX. }
      destruct Hadv; nra.
Qed.
End Run.
