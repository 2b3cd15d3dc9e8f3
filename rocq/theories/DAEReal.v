(** Singular value decompositions over the reals, and the start of a DAE over RX. *)
From Coq Require Import String Reals Lra QArith Qreals Bool Lia List Arith.
From Verif Require Import Arith Common Stiff RK HStart RKInit RX Tableaux Classes Dense Ode RKReal HStartReal RKInitReal Series OrderRK OrderModel RKSpecProofs
  ESDIRK ESDCls ESDGen ESDReal ESDTop ESDInv ESDLin ESDLin2 DAE.
Import ListNotations.
Close Scope string_scope. Open Scope nat_scope. Open Scope R_scope.

(** X = U diag(s) V with orthogonal U, V and decreasing s >= 0 *)
Definition svd_of (d : nat) (X U : list (list R)) (s : list R) (V : list (list R)) : Prop :=
  rshape d X /\ orthogonal d U /\ orthogonal d V /\ length s = d /\
  (forall i j, (i < d)%nat -> (j < d)%nat ->
     nth j (nth i X []) 0 = rsum d (fun l => nth l (nth i U []) 0 * nth l s 0 * nth j (nth l V []) 0)) /\
  (forall i j, (i <= j < d)%nat -> nth j s 0 <= nth i s 0) /\ (forall i, (i < d)%nat -> 0 <= nth i s 0).

(** w^T X = 0: the equation w^T (X y' = f) is algebraic, w^T f = 0 *)
Definition algebraic (d : nat) (X : list (list R)) (w : list R) : Prop :=
  length w = d /\ forall j, (j < d)%nat -> rsum d (fun i => nth i w 0 * nth j (nth i X []) 0) = 0.
Definition dot (d : nat) (u v : list R) : R := rsum d (fun i => nth i u 0 * nth i v 0).

Lemma rsum_app a b f : rsum (a + b) f = rsum a f + rsum b (fun k => f (a + k)%nat).
Proof. induction b as [|b IH]; [rewrite Nat.add_0_r; cbn [rsum]; ring|]. rewrite Nat.add_succ_r. cbn [rsum]. rewrite IH. ring. Qed.
Lemma rsum_scal_r n c f : rsum n (fun k => f k * c) = rsum n f * c.
Proof. induction n as [|n IH]; cbn [rsum]; [ring|]. rewrite IH. ring. Qed.
Lemma rsum_abs' n f : Rabs (rsum n f) <= rsum n (fun i => Rabs (f i)).
Proof. induction n as [|n IH]; cbn [rsum]; [rewrite Rabs_R0; lra|]. eapply Rle_trans; [apply Rabs_triang|]. lra. Qed.
Lemma rsum_mono n f g : (forall i, (i < n)%nat -> f i <= g i) -> rsum n f <= rsum n g.
Proof. induction n as [|n IH]; intros H; cbn [rsum]; [lra|]. pose proof (H n ltac:(lia)). assert (rsum n f <= rsum n g) by (apply IH; intros; apply H; lia). lra. Qed.

Lemma tr_mv d V z j : rshape d V -> (j < d)%nat -> rmv d (rtr d V) z j = rsum d (fun k => nth j (nth k V []) 0 * nth k z 0).
Proof. intros HV Hj. unfold rmv. apply rsum_ext. intros k Hk. rewrite rtr_entry by assumption. reflexivity. Qed.

(** V V^T z = z *)
Lemma orth_out d V z l : orthogonal d V -> (l < d)%nat -> rmv d V (rvec d (rmv d (rtr d V) z)) l = nth l z 0.
Proof.
  intros (HV & O1 & O2) Hl. unfold rmv at 1.
  rewrite (rsum_ext d _ (fun j => rsum d (fun k => nth j (nth l V []) 0 * nth j (nth k V []) 0 * nth k z 0))).
  2:{ intros j Hj. rewrite rvec_nth by exact Hj. rewrite tr_mv by assumption. rewrite <- rsum_scal. apply rsum_ext. intros k Hk. ring. }
  rewrite rsum_swap. rewrite (rsum_ext d _ (fun k => (if Nat.eqb l k then 1 else 0) * nth k z 0)).
  2:{ intros k Hk. rewrite rsum_scal_r. rewrite O2 by assumption. reflexivity. }
  apply (ESDLin.rsum_delta d l (fun k => nth k z 0)). exact Hl.
Qed.
(** V^T V y = y *)
Lemma orth_in d V y l : orthogonal d V -> (l < d)%nat -> rmv d (rtr d V) (rvec d (rmv d V y)) l = nth l y 0.
Proof.
  intros (HV & O1 & O2) Hl. rewrite tr_mv by assumption.
  rewrite (rsum_ext d _ (fun k => rsum d (fun j => nth l (nth k V []) 0 * nth j (nth k V []) 0 * nth j y 0))).
  2:{ intros k Hk. rewrite rvec_nth by exact Hk. unfold rmv. rewrite <- rsum_scal. apply rsum_ext. intros j Hj. ring. }
  rewrite rsum_swap. rewrite (rsum_ext d _ (fun j => (if Nat.eqb l j then 1 else 0) * nth j y 0)).
  2:{ intros j Hj. rewrite rsum_scal_r. rewrite O1 by assumption. reflexivity. }
  apply (ESDLin.rsum_delta d l (fun k => nth k y 0)). exact Hl.
Qed.
(** u.v = (U^T u).(U^T v) *)
Lemma orth_dot d U u v : orthogonal d U -> dot d u v = rsum d (fun l => rmv d (rtr d U) u l * rmv d (rtr d U) v l).
Proof.
  intros HO. unfold dot. rewrite (rsum_ext d _ (fun i => rsum d (fun l => nth i u 0 * nth l (nth i U []) 0 * rmv d (rtr d U) v l))).
  2:{ intros i Hi. rewrite <- (orth_out d U v i HO Hi) at 1. unfold rmv at 1. rewrite <- rsum_scal. apply rsum_ext. intros l Hl. rewrite rvec_nth by exact Hl. ring. }
  rewrite rsum_swap. apply rsum_ext. intros l Hl. rewrite rsum_scal_r. f_equal. rewrite tr_mv by (first [apply HO|exact Hl]).
  apply rsum_ext. intros i Hi. ring.
Qed.

Section Svd.
Variables (d : nat) (X U : list (list R)) (s : list R) (V : list (list R)).
Hypothesis HS : svd_of d X U s V.
Notation ut := (rmv d (rtr d U)).

Lemma svd_mv y q : (q < d)%nat -> rmv d X y q = rsum d (fun l => nth l (nth q U []) 0 * (nth l s 0 * rmv d V y l)).
Proof.
  destruct HS as (_ & _ & _ & _ & HX & _). intros Hq. unfold rmv at 1.
  rewrite (rsum_ext d _ (fun j => rsum d (fun l => nth l (nth q U []) 0 * (nth l s 0 * (nth j (nth l V []) 0 * nth j y 0))))).
  2:{ intros j Hj. rewrite HX by assumption. rewrite <- rsum_scal_r. apply rsum_ext. intros l Hl. ring. }
  rewrite rsum_swap. apply rsum_ext. intros l Hl. unfold rmv. rewrite <- !rsum_scal. apply rsum_ext. intros j Hj. ring.
Qed.
Lemma svd_ut_mv y l : (l < d)%nat -> ut (rvec d (rmv d X y)) l = nth l s 0 * rmv d V y l.
Proof.
  intros Hl. destruct HS as (_ & HU & _).
  rewrite <- (rvec_nth d (fun l => nth l s 0 * rmv d V y l) l Hl).
  rewrite <- (orth_in d U (rvec d (fun l => nth l s 0 * rmv d V y l)) l HU Hl).
  apply rmv_ext. intros k Hk. rewrite !rvec_nth by exact Hk. rewrite svd_mv by exact Hk. unfold rmv at 2. apply rsum_ext. intros m Hm. rewrite rvec_nth by exact Hm. reflexivity.
Qed.
Lemma svd_algebraic w : algebraic d X w -> forall l, (l < d)%nat -> nth l s 0 * ut w l = 0.
Proof.
  intros [Lw Hw] l Hl. destruct HS as (_ & (HU & _) & (HV & O1 & O2) & _ & HX & _).
  assert (E : forall j, (j < d)%nat -> rsum d (fun k => nth k s 0 * ut w k * nth j (nth k V []) 0) = 0).
  { intros j Hj. refine (eq_trans _ (Hw j Hj)). symmetry. rewrite (rsum_ext d (fun i => nth i w 0 * _) (fun i => rsum d (fun k => nth k s 0 * nth j (nth k V []) 0 * (nth k (nth i U []) 0 * nth i w 0)))).
    2:{ intros i Hi. rewrite HX by assumption. rewrite <- rsum_scal. apply rsum_ext. intros k Hk. ring. }
    rewrite rsum_swap. apply rsum_ext. intros k Hk. rewrite rsum_scal, (tr_mv d U w k HU Hk). ring. }
  assert (E2 : rsum d (fun j => nth j (nth l V []) 0 * rsum d (fun k => nth k s 0 * ut w k * nth j (nth k V []) 0)) = 0).
  { apply rsum_zero. intros j Hj. rewrite E by exact Hj. ring. }
  refine (eq_trans _ E2). rewrite (rsum_ext d (fun j => nth j (nth l V []) 0 * _) (fun j => rsum d (fun k => nth j (nth l V []) 0 * nth j (nth k V []) 0 * (nth k s 0 * ut w k)))).
  2:{ intros j Hj. rewrite <- rsum_scal. apply rsum_ext. intros k Hk. ring. }
  rewrite rsum_swap. rewrite (rsum_ext d _ (fun k => (if Nat.eqb l k then 1 else 0) * (nth k s 0 * ut w k))).
  2:{ intros k Hk. rewrite rsum_scal_r, O2 by assumption. reflexivity. }
  symmetry. apply (ESDLin.rsum_delta d l (fun k => nth k s 0 * ut w k)). exact Hl.
Qed.
(** column l of U, for a zero singular value *)
Definition ucol (l : nat) : list R := rvec d (fun i => nth l (nth i U []) 0).
Lemma ut_ucol l k : (l < d)%nat -> (k < d)%nat -> ut (ucol l) k = if Nat.eqb k l then 1 else 0.
Proof.
  destruct HS as (_ & (HU & O1 & _) & _). intros Hl Hk. rewrite tr_mv by assumption. rewrite <- O1 by assumption. apply rsum_ext. intros i Hi.
  unfold ucol. rewrite rvec_nth by exact Hi. reflexivity.
Qed.
Lemma ucol_algebraic l : (l < d)%nat -> nth l s 0 = 0 -> algebraic d X (ucol l).
Proof.
  intros Hl Hs. split; [unfold ucol, rvec; rewrite map_length, seq_length; reflexivity|]. intros j Hj.
  destruct HS as (_ & (HU & O1 & _) & _ & _ & HX & _).
  rewrite (rsum_ext d _ (fun i => rsum d (fun k => nth l (nth i U []) 0 * nth k (nth i U []) 0 * (nth k s 0 * nth j (nth k V []) 0)))).
  2:{ intros i Hi. unfold ucol. rewrite rvec_nth by exact Hi. rewrite HX by assumption. rewrite <- rsum_scal. apply rsum_ext. intros k Hk. ring. }
  rewrite rsum_swap. apply rsum_zero. intros k Hk. rewrite rsum_scal_r, O1 by assumption. destruct (Nat.eqb_spec l k) as [->|]; [rewrite Hs|]; ring.
Qed.
Lemma ucol_dot l f : (l < d)%nat -> dot d (ucol l) f = ut f l.
Proof.
  intros Hl. destruct HS as (_ & HU & _). rewrite (orth_dot d U) by exact HU.
  rewrite (rsum_ext d _ (fun k => (if Nat.eqb l k then 1 else 0) * ut f k)).
  2:{ intros k Hk. rewrite ut_ucol by assumption. rewrite Nat.eqb_sym. reflexivity. }
  apply (ESDLin.rsum_delta d l (fun k => ut f k)). exact Hl.
Qed.

(** the last k singular values vanish, the others do not *)
Variable nu : nat.
Hypothesis Hnu : (nu <= d)%nat.
Hypothesis Hpos : forall l, (l < nu)%nat -> nth l s 0 <> 0.
Hypothesis Hzero : forall l, (nu <= l < d)%nat -> nth l s 0 = 0.

Lemma alg_dot w a : algebraic d X w -> (forall l, (nu <= l < d)%nat -> ut a l = 0) -> dot d w a = 0.
Proof.
  intros Hw Ha. rewrite (orth_dot d U) by apply HS. apply rsum_zero. intros l Hl.
  destruct (Nat.lt_ge_cases l nu) as [H|H].
  - pose proof (svd_algebraic w Hw l Hl) as E. apply Rmult_integral in E. destruct E as [E|E]; [exfalso; exact (Hpos l H E)|rewrite E; ring].
  - rewrite (Ha l (conj H Hl)). ring.
Qed.

(** y' from (udot, vdot): the residual of X y' = f *)
Lemma residual_at z f yp q : (q < d)%nat -> (forall l, (l < d)%nat -> nth l yp 0 = rmv d (rtr d V) z l) -> (forall l, (l < nu)%nat -> nth l z 0 = ut f l / nth l s 0) ->
  rmv d X yp q - nth q f 0 = - rsum (d - nu) (fun k => nth (nu + k) (nth q U []) 0 * ut f (nu + k)).
Proof.
  intros Hq Hyp Hz. destruct HS as (_ & HU & HV & _).
  rewrite <- (orth_out d U f q HU Hq), svd_mv by exact Hq. unfold rmv at 2.
  assert (SP : forall g, rsum d g = rsum nu g + rsum (d - nu) (fun k => g (nu + k)%nat)).
  { intros g. rewrite <- rsum_app. f_equal. lia. }
  rewrite (SP (fun l => nth l (nth q U []) 0 * (nth l s 0 * rmv d V yp l))), (SP (fun l => nth l (nth q U []) 0 * nth l (rvec d (ut f)) 0)).
  rewrite (rsum_ext nu (fun l => nth l (nth q U []) 0 * (nth l s 0 * rmv d V yp l)) (fun l => nth l (nth q U []) 0 * nth l (rvec d (ut f)) 0)).
  2:{ intros l Hl. rewrite rvec_nth by lia. rewrite (rmv_ext d V yp (rvec d (rmv d (rtr d V) z))) by (intros k Hk; rewrite rvec_nth by exact Hk; apply Hyp; exact Hk).
      rewrite orth_out by (first [exact HV|lia]). rewrite Hz by exact Hl. field. apply Hpos, Hl. }
  rewrite (rsum_zero (d - nu) (fun k => nth (nu + k) (nth q U []) 0 * (nth (nu + k) s 0 * _))) by (intros k Hk; rewrite Hzero by lia; ring).
  rewrite (rsum_ext (d - nu) (fun k => nth (nu + k) (nth q U []) 0 * nth (nu + k) (rvec d (ut f)) 0) (fun k => nth (nu + k) (nth q U []) 0 * ut f (nu + k)%nat)) by (intros k Hk; rewrite rvec_nth by lia; reflexivity).
  ring.
Qed.
Lemma orth_entry q l : (q < d)%nat -> (l < d)%nat -> Rabs (nth l (nth q U []) 0) <= 1.
Proof.
  intros Hq Hl. destruct HS as (_ & (_ & _ & O2) & _). pose proof (O2 q q Hq Hq) as E. rewrite Nat.eqb_refl in E.
  assert (H : nth l (nth q U []) 0 * nth l (nth q U []) 0 <= 1).
  { rewrite <- E. rewrite <- (ESDLin.rsum_delta d l (fun l => nth l (nth q U []) 0 * nth l (nth q U []) 0) Hl) at 1. apply rsum_mono. intros i Hi.
    pose proof (Rle_0_sqr (nth i (nth q U []) 0)) as H. unfold Rsqr in H. destruct (Nat.eqb l i); lra. }
  apply Rabs_le. split; nra.
Qed.
Lemma residual_bound z f yp e q : (q < d)%nat -> (forall l, (l < d)%nat -> nth l yp 0 = rmv d (rtr d V) z l) -> (forall l, (l < nu)%nat -> nth l z 0 = ut f l / nth l s 0) ->
  (forall l, (nu <= l < d)%nat -> Rabs (ut f l) <= e) -> Rabs (rmv d X yp q - nth q f 0) <= INR (d - nu) * e.
Proof.
  intros Hq Hyp Hz He. rewrite (residual_at z f yp q Hq Hyp Hz), Rabs_Ropp. eapply Rle_trans; [apply rsum_abs'|].
  assert (G : forall n, (n <= d - nu)%nat -> rsum n (fun i => Rabs (nth (nu + i) (nth q U []) 0 * ut f (nu + i)%nat)) <= INR n * e).
  { induction n as [|n IH]; intros Hn; [cbn; lra|]. cbn [rsum]. rewrite S_INR, Rabs_mult.
    pose proof (orth_entry q (nu + n) Hq ltac:(lia)) as B1. pose proof (He (nu + n)%nat ltac:(lia)) as B2. pose proof (IH ltac:(lia)) as B3.
    assert (Rabs (nth (nu + n) (nth q U []) 0) * Rabs (ut f (nu + n)) <= 1 * e) by (apply Rmult_le_compat; auto using Rabs_pos). lra. }
  apply G. lia.
Qed.
(** X y depends only on the first components of V y *)
Lemma same_mass y y' q : (q < d)%nat -> (forall l, (l < nu)%nat -> rmv d V y l = rmv d V y' l) -> rmv d X y q = rmv d X y' q.
Proof.
  intros Hq H. rewrite !svd_mv by exact Hq. apply rsum_ext. intros l Hl. destruct (Nat.lt_ge_cases l nu) as [L|L]; [rewrite (H l L); reflexivity|rewrite (Hzero l) by lia; ring].
Qed.
(** the kernel of X *)
Lemma kernel_V z : (forall q, (q < d)%nat -> rmv d X z q = 0) -> forall l, (l < nu)%nat -> rmv d V z l = 0.
Proof.
  intros H l Hl. assert (E : nth l s 0 * rmv d V z l = 0).
  { rewrite <- svd_ut_mv by lia. unfold rmv at 1. apply rsum_zero. intros k Hk. rewrite rvec_nth by exact Hk. rewrite (H k Hk). ring. }
  apply Rmult_integral in E. destruct E as [E|E]; [exfalso; exact (Hpos l Hl E)|exact E].
Qed.
End Svd.
