(** Dense output of SWAG in exact arithmetic: the interpolating polynomial. *)
From Coquelicot Require Import Coquelicot.
From Coq Require Import String ZArith Reals Lra Psatz QArith Qreals Bool Lia List Arith.
From Verif Require Import Arith Common Stiff RK HStart RKInit Ode RX RKReal RKInitReal Series OrderModel DenseReal Swag SwagArr SwagCo SwagGen SwagTop SwagReal Adams SwagHist SwagDense SwagDenseGen.
Import ListNotations.
Close Scope string_scope. Open Scope nat_scope. Open Scope R_scope.

(** *** the integrals as functions of the end point *)
Fixpoint rWx (al : nat -> R) (s : R) (l i : nat) : R :=
  match l with
  | O => s ^ (i + 2) / (INR (i + 1) * (INR (i + 1) + 1))
  | S m => (1 + (s - 1) * al (S m)) * rWx al s m i - al (S m) * rWx al s m (i + 1)
  end.
Definition cx (al : nat -> R) (l : nat) (s : R) : R := cpoly al l (1 - s).
Definition gxr (al : nat -> R) (s : R) (i : nat) : R := match i with O => s | S O => 1/2 * s * s | S l => rWx al s l 0 end.
Lemma INR_S_nz i : INR (i + 1) <> 0. Proof. apply not_0_INR. lia. Qed.

Lemma rWx_deriv al l i s : al 0%nat = 1 -> is_derive (fun s => rWx al s l i) s (match i with O => cx al (S l) s | S j => INR (S j) * rWx al s l j end).
Proof.
  intros H0. revert i. induction l as [|l IH]; intros i.
  - cbn [rWx]. assert (N := INR_S_nz i). pose proof (pos_INR i). rewrite plus_INR in N. change (INR 1) with 1 in N. rewrite plus_INR. change (INR 1) with 1.
    auto_derive; [exact I|]. replace (Init.Nat.pred (i + 2)) with (i + 1)%nat by lia. rewrite plus_INR. change (INR 2) with 2.
    destruct i as [|j].
    + unfold cx, cpoly. rewrite H0. cbn [INR Nat.add pow]. field.
    + change (rWx al s 0 j) with (s ^ (j + 2) / (INR (j + 1) * (INR (j + 1) + 1))). rewrite !S_INR in *. rewrite !plus_INR. change (INR 1) with 1. replace (S j + 1)%nat with (j + 2)%nat by lia. pose proof (pos_INR j). unfold Rdiv. set (X := s ^ (j + 2)). match goal with |- ?a = ?b => change (@eq R a b) end. field. lra.
  - cbn [rWx]. set (a := al (S l)).
    assert (D1 : is_derive (fun s => (1 + (s - 1) * a) * rWx al s l i) s (plus (mult a (rWx al s l i)) (mult (1 + (s - 1) * a) (match i with O => cx al (S l) s | S j => INR (S j) * rWx al s l j end)))).
    { apply (is_derive_mult (fun s => 1 + (s - 1) * a) (fun s => rWx al s l i)); [auto_derive; [exact I|ring]|apply IH|intros; apply Rmult_comm]. }
    assert (D2 : is_derive (fun s => a * rWx al s l (i + 1)) s (a * (INR (i + 1) * rWx al s l i))).
    { apply (is_derive_scal (fun s => rWx al s l (i + 1))). pose proof (IH (i + 1)%nat) as Q. replace (i + 1)%nat with (S i) in * by lia. exact Q. }
    pose proof (is_derive_minus _ _ _ _ _ D1 D2) as D. eapply is_derive_ext; [|match goal with |- is_derive _ _ ?v => match type of D with is_derive _ _ ?u => replace v with u; [exact D|] end end]; [reflexivity|].
    destruct i as [|j].
    + unfold minus, plus, mult, opp; cbn. unfold cx. cbn [cpoly Nat.add INR]. fold a. ring.
    + change ((a * rWx al s l (S j) + (1 + (s - 1) * a) * (INR (S j) * rWx al s l j)) + - (a * (INR (S j + 1) * rWx al s l (S j))) = INR (S j) * ((1 + (s - 1) * a) * rWx al s l j - a * rWx al s l (j + 1))). replace (j + 1)%nat with (S j) by lia. rewrite plus_INR. change (INR 1) with 1. rewrite ?S_INR. ring.
Qed.
Lemma rWx_0 al l i : rWx al 0 l i = 0.
Proof. revert i. induction l as [|l IH]; intros i; cbn [rWx]; [rewrite pow_i by lia; unfold Rdiv; ring|rewrite !IH; ring]. Qed.
Lemma rWx_1 al l i : rWx al 1 l i = Wr al l i.
Proof. revert i. induction l as [|l IH]; intros i; cbn [rWx Wr]; [rewrite pow1; reflexivity|rewrite !IH; ring]. Qed.
Lemma gxr_deriv al s i : al 0%nat = 1 -> is_derive (fun s => gxr al s i) s (cx al i s).
Proof.
  intros H0. destruct i as [|[|l]]; cbn [gxr].
  - unfold cx, cpoly. auto_derive; [exact I|ring].
  - unfold cx, cpoly. rewrite H0. auto_derive; [exact I|field].
  - apply (rWx_deriv al (S l) 0 s H0).
Qed.
Lemma gxr_0 al i : gxr al 0 i = 0. Proof. destruct i as [|[|l]]; cbn [gxr]; [reflexivity|ring|apply rWx_0]. Qed.
Lemma gxr_1 al i : gxr al 1 i = gr al i. Proof. destruct i as [|[|l]]; cbn [gxr gr]; [reflexivity|field|apply rWx_1]. Qed.
(** the numerator of sigma *)
Definition Sg (al : nat -> R) (k : nat) (s : R) : R := rWx al s (k - 1) 1 - (s - 1) * rWx al s (k - 1) 0.
Lemma Sg_deriv al k s : al 0%nat = 1 -> (1 <= k)%nat -> is_derive (Sg al k) s ((1 - s) * cx al k s).
Proof.
  intros H0 Hk. unfold Sg. pose proof (rWx_deriv al (k - 1) 1 s H0) as D1. pose proof (rWx_deriv al (k - 1) 0 s H0) as D0. cbv iota in D0, D1. replace (S (k - 1)) with k in D0 by lia.
  assert (D2 : is_derive (fun s => (s - 1) * rWx al s (k - 1) 0) s (plus (mult 1 (rWx al s (k - 1) 0)) (mult (s - 1) (cx al k s)))).
  { apply (is_derive_mult (fun s => s - 1) (fun s => rWx al s (k - 1) 0)); [auto_derive; [exact I|ring]|exact D0|intros; apply Rmult_comm]. }
  pose proof (is_derive_minus _ _ _ _ _ D1 D2) as D. match goal with |- is_derive _ _ ?v => match type of D with is_derive _ _ ?u => replace v with u; [exact D|] end end.
  unfold minus, plus, mult, opp; cbn. ring.
Qed.
Lemma Sg_0 al k : Sg al k 0 = 0. Proof. unfold Sg. rewrite !rWx_0. ring. Qed.
Lemma Sg_1 al k : Sg al k 1 = Wr al (k - 1) 1. Proof. unfold Sg. rewrite !rWx_1. ring. Qed.
Lemma cpoly_pos al l u : (forall j, (j < l)%nat -> 0 <= al j <= 1) -> 0 <= u < 1 -> 0 < cpoly al l u.
Proof. intros H Hu. induction l as [|l IH]; cbn [cpoly]; [lra|]. specialize (IH ltac:(intros; apply H; lia)). pose proof (H l ltac:(lia)). apply Rmult_lt_0_compat; [exact IH|nra]. Qed.
Lemma cpoly_cont al l u : continuous (cpoly al l) u.
Proof.
  induction l as [|l IH]; cbn [cpoly]; [apply continuous_const|]. apply (continuous_mult (cpoly al l) (fun u => 1 - al l * u)); [exact IH|]. apply (ex_derive_continuous (fun u => 1 - al l * u)). auto_derive. exact I.
Qed.
Lemma Wr1_pos al k : al 0%nat = 1 -> (1 <= k)%nat -> (forall j, (j < k)%nat -> 0 <= al j <= 1) -> 0 < Wr al (k - 1) 1.
Proof.
  intros H0 Hk H. pose proof (Wr_int al (k - 1) 1 H0) as HI. replace (S (k - 1)) with k in HI by lia. rewrite <- (is_RInt_unique _ _ _ _ HI).
  apply RInt_gt_0; [lra| |].
  - intros x Hx. cbn [pow]. apply Rmult_lt_0_compat; [lra|]. apply cpoly_pos; [exact H|lra].
  - intros x Hx. apply (continuous_mult (fun u => u ^ 1) (cpoly al k)); [|apply cpoly_cont]. apply (ex_derive_continuous (fun u : R => u ^ 1)). auto_derive. exact I.
Qed.

(** *** Newton's formula at the nodes *)
Lemma newton_node t f k j : distinct t k -> (j < k)%nat -> rsum k (fun l => dd t f l 0 * nprod t l (t j)) = f j.
Proof.
  intros HD Hj.
  assert (T : forall m, (j < m <= k)%nat -> rsum m (fun l => dd t f l 0 * nprod t l (t j)) = rsum (S j) (fun l => dd t f l 0 * nprod t l (t j))).
  { induction m as [|m IH]; intros Hm; [lia|]. destruct (Nat.eq_dec m j) as [->|N]; [reflexivity|]. cbn [rsum]. rewrite IH by lia. rewrite (nprod_root t m j) by lia. cbn [rsum]. ring. }
  rewrite T by lia. cbn [rsum].
  destruct (interp_exists t f (S j)) as (p & Lp & Ep); [intros a b Ha Hb; apply HD; lia|].
  assert (N : forall i, (i < j)%nat -> t j <> t i) by (intros i Hi E; apply (HD i j Hi Hj); auto).
  pose proof (newton_rem t f (t j) (f j) j N) as R.
  assert (E : dd (cons (t j) t) (cons (f j) f) j 0 = dd t f j 0).
  { transitivity (nth j p 0).
    - rewrite (dd_ext _ (cons (t j) t) _ (fun i => peval p (cons (t j) t i))).
      + apply dd_poly; [|lia]. intros a b Hab Hb. destruct b as [|b]; [lia|]. destruct a as [|a]; cbn [cons]; [apply N; lia|apply HD; lia].
      + intros i Hi. split; [reflexivity|]. destruct i as [|i]; cbn [cons]; symmetry; apply Ep; lia.
    - symmetry. rewrite (dd_ext _ t _ (fun i => peval p (t i))); [apply dd_poly; [|lia]; intros a b Hab Hb; apply HD; lia|]. intros i Hi. split; [reflexivity|]. symmetry. apply Ep. lia. }
  rewrite E in R. lra.
Qed.
(** a polynomial of degree <= m with m given roots *)
Lemma roots_poly t p m : distinct t m -> (length p <= m + 1)%nat -> (forall j, (j < m)%nat -> peval p (t j) = 0) -> forall x, peval p x = nth m p 0 * nprod t m x.
Proof.
  intros HD L Z x.
  assert (DEC : (exists j, (j < m)%nat /\ x = t j) \/ (forall j, (j < m)%nat -> x <> t j)).
  { clear. induction m as [|m IH]; [right; intros; lia|]. destruct IH as [(j & Hj & E)|N]; [left; exists j; split; [lia|exact E]|]. destruct (Req_EM_T x (t m)) as [E|E]; [left; exists m; auto|right]. intros j Hj. destruct (Nat.eq_dec j m) as [->|]; [exact E|apply N; lia]. }
  destruct DEC as [(j & Hj & ->)|N]; [rewrite Z, nprod_root by exact Hj; ring|].
  pose proof (newton_rem t (fun j => peval p (t j)) x (peval p x) m N) as R.
  rewrite (dd_ext _ (cons x t) _ (fun j => peval p (cons x t j))) in R.
  - rewrite dd_poly in R; [|intros a b Hab Hb; destruct b as [|b]; [lia|]; destruct a as [|a]; cbn [cons]; [apply N; lia|apply HD; lia]|lia].
    rewrite (rsum_ext m _ (fun _ => 0)) in R; [rewrite rsum_zero in R by reflexivity; lra|].
    intros l Hl. rewrite (dd_ext _ t _ (fun j => peval [] (t j))); [|intros j Hj; split; [reflexivity|apply Z; lia]]. rewrite dd_poly; [destruct l; cbn; ring|intros a b Hab Hb; apply HD; lia|cbn; lia].
  - intros j Hj. split; [reflexivity|]. destruct j; reflexivity.
Qed.
Lemma rsum_subl m f g : rsum m (fun i => f i - g i) = rsum m f - rsum m g.
Proof. induction m as [|m IH]; cbn [rsum]; [ring|rewrite IH; ring]. Qed.
Lemma rsum_scall m c f : rsum m (fun i => c * f i) = c * rsum m f.
Proof. induction m as [|m IH]; cbn [rsum]; [ring|rewrite IH; ring]. Qed.
Definition pred0 (g : nat -> R) (i : nat) : R := match i with O => 0 | S j => g j end.
Lemma abel (c f : nat -> R) k : rsum (k + 1) (fun i => (c i - pred0 c i) * f i) = rsum k (fun i => c i * (f i - f (S i))) + c k * f k.
Proof.
  replace (k + 1)%nat with (S k) by lia. induction k as [|k IH]; [cbn; ring|]. cbn [rsum] in *. rewrite IH. cbn [pred0]. ring.
Qed.

(** two functions with the same derivative and a common value *)
Lemma same_deriv (f g : R -> R) (dfg : R -> R) a : (forall x, is_derive f x (dfg x)) -> (forall x, is_derive g x (dfg x)) -> f a = g a -> forall x, f x = g x.
Proof.
  intros Hf Hg E x.
  assert (Z : forall t, is_derive (fun x => f x - g x) t 0). { intros t. replace 0 with (minus (dfg t) (dfg t)) by (unfold minus, plus, opp; cbn; ring). apply (is_derive_minus f g); auto. }
  assert (C : forall u v, u < v -> f u - g u = f v - g v). { intros u v H. apply (eq_is_derive (fun x => f x - g x) u v); [intros; apply Z|exact H]. }
  destruct (Rtotal_order a x) as [H|[->|H]]; [specialize (C _ _ H); lra|exact E|specialize (C _ _ H); lra].
Qed.

(** *** the interpolant *)
Section Poly.
Variables (d : R) (n : nat) (F : R -> list R -> list R) (ps : pts_t) (h : R) (k q : nat) (yr : list R).
Hypothesis (Hd : d = 1 \/ d = -1) (HD : decr d ps) (Hh : 0 < d * h) (Hk : (1 <= k <= length ps)%nat).
Let t1 := pt ps 0 + h.
Let ar (j : nat) : R := h / (t1 - pt ps j).
Let ph (i : nat) : R := mdd F ((t1, yr) :: ps) i q.
Let oy := nth q (py ps 0) 0.
Let y := nth q yr 0.
Definition sig_at (s : R) : R := Sg ar k s / Wr ar (k - 1) 1.
Definition U_at (s : R) : R :=
  h * rsum (k + 1) (fun i => (gxr ar s i - pred0 (gxr ar s) i - sig_at s * (gr ar i - pred0 (gr ar) i)) * ph i) + (sig_at s * y + (1 - sig_at s) * oy).

Lemma h_nz : h <> 0. Proof. intros ->. lra. Qed.
Lemma ar0 : ar 0 = 1. Proof. unfold ar, t1. replace (pt ps 0 + h - pt ps 0) with h by ring. field. apply h_nz. Qed.
Lemma ar_range j : (j < k)%nat -> 0 <= ar j <= 1.
Proof.
  intros Hj. pose proof (decr_new d ps h j HD Hh ltac:(lia)) as X. fold t1 in X.
  assert (Y : d * h <= d * (t1 - pt ps j)). { unfold t1. destruct j as [|j]; [right; f_equal; ring|]. pose proof (decr_lt d ps 0 (S j) HD ltac:(lia) ltac:(lia)). lra. }
  unfold ar. destruct Hd as [-> | ->].
  - split; [apply Rmult_le_pos; [lra|left; apply Rinv_0_lt_compat; lra]|]. apply (Rmult_le_reg_r (t1 - pt ps j)); [lra|]. unfold Rdiv. rewrite Rmult_assoc, Rinv_l by lra. lra.
  - replace (h / (t1 - pt ps j)) with ((- h) / (pt ps j - t1)) by (field; lra). split; [apply Rmult_le_pos; [lra|left; apply Rinv_0_lt_compat; lra]|]. apply (Rmult_le_reg_r (pt ps j - t1)); [lra|]. unfold Rdiv. rewrite Rmult_assoc, Rinv_l by lra. lra.
Qed.
Lemma gdi_pos : 0 < Wr ar (k - 1) 1.
Proof. apply Wr1_pos; [exact ar0|lia|exact ar_range]. Qed.
Lemma t1_new j : (j < k)%nat -> t1 <> pt ps j.
Proof. intros Hj E. pose proof (decr_new d ps h j HD Hh ltac:(lia)) as X. fold t1 in X. rewrite E in X. replace (pt ps j - pt ps j) with 0 in X by lra. lra. Qed.
Lemma cx_nprod l x : (l <= k)%nat -> cx ar l ((x - pt ps 0) / h) = nprod (pt ps) l x / nprod (pt ps) l t1.
Proof.
  intros Hl. unfold cx. replace (1 - (x - pt ps 0) / h) with ((t1 - x) / h) by (unfold t1; field; apply h_nz). apply cpoly_nprod; [apply h_nz|intros; apply t1_new; lia|reflexivity].
Qed.
Lemma np_nz l : (l <= k)%nat -> nprod (pt ps) l t1 <> 0. Proof. intros. apply nprod_nz. intros; apply t1_new; lia. Qed.
Lemma ph_newton i : (i <= k)%nat -> ph i = nth q (F t1 yr) 0 - rsum i (fun l => sdd F ps t1 l q).
Proof.
  intros Hi. unfold ph, mdd. rewrite dd_cons, pback_cons. cbn [fst snd]. apply newton_rem. intros j Hj. apply t1_new. lia.
Qed.

(** slope of the interpolant *)
Definition kap : R := - (y - oy - h * rsum (k + 1) (fun i => (gr ar i - pred0 (gr ar) i) * ph i)) / (h * h * nprod (pt ps) k t1 * Wr ar (k - 1) 1).
Fixpoint psum (m : nat) (f : nat -> list R) : list R := match m with O => [] | S j => padd (psum j f) (f j) end.
Definition Dp : list R := padd (psum k (fun l => pscal (dd (pt ps) (pf F ps q) l 0) (npoly (pt ps) l)))
   (padd (pscal (ph k / nprod (pt ps) k t1) (npoly (pt ps) k)) (pscal kap (pxm t1 (npoly (pt ps) k)))).
Definition Pp : list R := padd [oy - peval (pint Dp) (pt ps 0)] (pint Dp).
Lemma psum_eval m f x : peval (psum m f) x = rsum m (fun l => peval (f l) x).
Proof. induction m as [|m IH]; cbn [psum rsum]; [reflexivity|]. rewrite padd_eval, IH. reflexivity. Qed.
Lemma psum_len m f N : (forall l, (l < m)%nat -> (length (f l) <= N)%nat) -> (length (psum m f) <= N)%nat.
Proof. induction m as [|m IH]; intros H; cbn [psum]; [cbn; lia|]. apply padd_len; [apply IH; intros; apply H; lia|apply H; lia]. Qed.
Lemma Dp_eval x : peval Dp x = rsum k (fun l => dd (pt ps) (pf F ps q) l 0 * nprod (pt ps) l x) + ph k / nprod (pt ps) k t1 * nprod (pt ps) k x + kap * ((x - t1) * nprod (pt ps) k x).
Proof.
  unfold Dp. rewrite !padd_eval, psum_eval, !pscal_eval, pxm_eval, npoly_eval. rewrite <- Rplus_assoc. do 2 f_equal. apply rsum_ext. intros l Hl. rewrite pscal_eval, npoly_eval. reflexivity.
Qed.
Lemma pscal_len c p : length (pscal c p) = length p. Proof. apply map_length. Qed.
Lemma Dp_len : (length Dp <= k + 2)%nat.
Proof.
  unfold Dp. apply padd_len; [|apply padd_len].
  - apply psum_len. intros l Hl. rewrite pscal_len. pose proof (npoly_len (pt ps) l). lia.
  - rewrite pscal_len. pose proof (npoly_len (pt ps) k). lia.
  - rewrite pscal_len. change (pxm t1 (npoly (pt ps) k)) with (npoly (fun j => if (j =? k)%nat then t1 else pt ps j) (S k)) || idtac. unfold pxm. apply padd_len; [cbn [length]; pose proof (npoly_len (pt ps) k); lia|]. rewrite pscal_len. pose proof (npoly_len (pt ps) k). lia.
Qed.
Lemma Pp_len : (length Pp <= k + 3)%nat.
Proof. unfold Pp. apply padd_len; [cbn; lia|]. rewrite pint_len. pose proof Dp_len. lia. Qed.
Lemma Pp_deriv : pderiv Pp = Dp.
Proof. unfold Pp, pint. cbn [padd pderiv]. rewrite pint_aux by lia. reflexivity. Qed.
Lemma Pp_old : peval Pp (pt ps 0) = oy. Proof. unfold Pp. rewrite padd_eval. cbn [peval]. ring. Qed.
Lemma Pp_nodes j : (j < k)%nat -> peval (pderiv Pp) (pt ps j) = pf F ps q j.
Proof.
  intros Hj. rewrite Pp_deriv, Dp_eval. rewrite (newton_node (pt ps) (pf F ps q) k j) by (try (apply (decr_distinct d); [exact HD|lia]); exact Hj). rewrite (nprod_root (pt ps) k j Hj). ring.
Qed.
Lemma Pp_new : peval (pderiv Pp) t1 = nth q (F t1 yr) 0.
Proof.
  rewrite Pp_deriv, Dp_eval. rewrite ph_newton by lia. unfold sdd. pose proof (np_nz k ltac:(lia)). field. assumption.
Qed.
Lemma rsum_deriv m (f : nat -> R -> R) (f' : nat -> R) s : (forall i, (i < m)%nat -> is_derive (f i) s (f' i)) -> is_derive (fun s => rsum m (fun i => f i s)) s (rsum m f').
Proof.
  induction m as [|m IH]; intros H; cbn [rsum]; [apply (is_derive_const 0)|]. apply (is_derive_plus (fun s => rsum m (fun i => f i s)) (f m)); [apply IH; intros; apply H; lia|apply H; lia].
Qed.
Lemma gxr_pred_deriv s i : is_derive (fun s => pred0 (gxr ar s) i) s (pred0 (fun i => cx ar i s) i).
Proof. destruct i as [|i]; cbn [pred0]; [apply (is_derive_const 0)|apply gxr_deriv, ar0]. Qed.
Lemma U_deriv s : is_derive U_at s (h * rsum (k + 1) (fun i => (cx ar i s - pred0 (fun i => cx ar i s) i) * ph i)
   + (1 - s) * cx ar k s / Wr ar (k - 1) 1 * (y - oy - h * rsum (k + 1) (fun i => (gr ar i - pred0 (gr ar) i) * ph i))).
Proof.
  pose proof gdi_pos as GP. set (G := Wr ar (k - 1) 1) in *. set (X := rsum (k + 1) (fun i => (gr ar i - pred0 (gr ar) i) * ph i)).
  assert (D1 : is_derive (fun s => rsum (k + 1) (fun i => (gxr ar s i - pred0 (gxr ar s) i) * ph i)) s (rsum (k + 1) (fun i => (cx ar i s - pred0 (fun i => cx ar i s) i) * ph i))).
  { apply (rsum_deriv (k + 1) (fun i s => (gxr ar s i - pred0 (gxr ar s) i) * ph i)). intros i Hi.
    apply (is_derive_ext (fun s => ph i * (gxr ar s i - pred0 (gxr ar s) i))); [intros; apply Rmult_comm|]. rewrite (Rmult_comm _ (ph i)). apply (is_derive_scal (fun s => gxr ar s i - pred0 (gxr ar s) i)).
    apply (is_derive_minus (fun s => gxr ar s i) (fun s => pred0 (gxr ar s) i)); [apply gxr_deriv, ar0|apply gxr_pred_deriv]. }
  assert (D2 : is_derive (fun s => (y - oy - h * X) / G * Sg ar k s) s ((y - oy - h * X) / G * ((1 - s) * cx ar k s))).
  { apply (is_derive_scal (Sg ar k)). apply Sg_deriv; [exact ar0|lia]. }
  apply (is_derive_ext (fun s => h * rsum (k + 1) (fun i => (gxr ar s i - pred0 (gxr ar s) i) * ph i) + ((y - oy - h * X) / G * Sg ar k s + oy))).
  - intros u. unfold U_at, sig_at. fold G. 
    assert (E : rsum (k + 1) (fun i => (gxr ar u i - pred0 (gxr ar u) i - Sg ar k u / G * (gr ar i - pred0 (gr ar) i)) * ph i) = rsum (k + 1) (fun i => (gxr ar u i - pred0 (gxr ar u) i) * ph i) - Sg ar k u / G * X).
    { unfold X. rewrite <- rsum_scall. rewrite <- rsum_subl. apply rsum_ext. intros i Hi. ring. }
    rewrite E. eqR. field. lra.
  - match goal with |- is_derive _ _ ?v => replace v with (plus (h * rsum (k + 1) (fun i => (cx ar i s - pred0 (fun i => cx ar i s) i) * ph i)) (plus ((y - oy - h * X) / G * ((1 - s) * cx ar k s)) 0)) end.
    + apply (is_derive_plus (fun s => h * rsum (k + 1) (fun i => (gxr ar s i - pred0 (gxr ar s) i) * ph i))); [apply (is_derive_scal (fun s => rsum (k + 1) (fun i => (gxr ar s i - pred0 (gxr ar s) i) * ph i))); exact D1|].
      apply (is_derive_plus (fun s => (y - oy - h * X) / G * Sg ar k s)); [exact D2|apply (is_derive_const oy)].
    + unfold plus; cbn. field. lra.
Qed.
Lemma U_poly x : U_at ((x - pt ps 0) / h) = peval Pp x.
Proof.
  revert x. apply (same_deriv _ _ (peval Dp) (pt ps 0)).
  - intros x. set (s := (x - pt ps 0) / h).
    assert (DL : is_derive (fun x => (x - pt ps 0) / h) x (/ h)) by (auto_derive; [exact I|field; apply h_nz]).
    pose proof (is_derive_comp U_at (fun x => (x - pt ps 0) / h) x _ _ (U_deriv s) DL) as D. match goal with |- is_derive _ _ ?v => match type of D with is_derive _ _ ?u => replace v with u; [exact D|] end end.
    unfold scal; cbn; unfold mult; cbn. rewrite abel. rewrite Dp_eval.
    assert (E : rsum k (fun i => cx ar i s * (ph i - ph (S i))) = rsum k (fun l => dd (pt ps) (pf F ps q) l 0 * nprod (pt ps) l x)).
    { apply rsum_ext. intros i Hi. unfold s. rewrite cx_nprod by lia. rewrite !ph_newton by lia. cbn [rsum]. unfold sdd. pose proof (np_nz i ltac:(lia)). field. assumption. }
    rewrite E. pose proof (cx_nprod k x ltac:(lia)) as CE. fold s in CE. rewrite !CE. unfold kap. pose proof gdi_pos. pose proof (np_nz k ltac:(lia)). pose proof h_nz.
    set (X := rsum (k + 1) (fun i => (gr ar i - pred0 (gr ar) i) * ph i)). set (Q := rsum k _). set (N := nprod (pt ps) k t1) in *. set (Nx := nprod (pt ps) k x). set (G := Wr ar (k - 1) 1) in *.
    unfold s, t1. eqR. field. repeat split; try assumption; lra.
  - intros x. rewrite <- Pp_deriv. apply peval_deriv.
  - rewrite Pp_old. unfold U_at. replace ((pt ps 0 - pt ps 0) / h) with 0 by (unfold Rdiv; ring). unfold sig_at. rewrite Sg_0.
    rewrite (rsum_ext _ _ (fun _ => 0)); [rewrite rsum_zero; [unfold Rdiv; ring|reflexivity]|]. intros i Hi. rewrite gxr_0. destruct i as [|i]; cbn [pred0]; [|rewrite gxr_0]; unfold Rdiv; ring.
Qed.
Lemma Pp_end : peval Pp t1 = y.
Proof.
  rewrite <- U_poly. unfold t1. replace ((pt ps 0 + h - pt ps 0) / h) with 1 by (field; apply h_nz). unfold U_at, sig_at. rewrite Sg_1. pose proof gdi_pos.
  replace (Wr ar (k - 1) 1 / Wr ar (k - 1) 1) with 1 by (field; lra).
  rewrite (rsum_ext _ _ (fun _ => 0)); [rewrite rsum_zero; [ring|reflexivity]|]. intros i Hi. rewrite gxr_1. destruct i as [|i]; cbn [pred0]; [|rewrite gxr_1]; ring.
Qed.
(** the k + 3 conditions determine the polynomial *)
Lemma Pp_unique Q : (length Q <= k + 3)%nat -> peval Q (pt ps 0) = oy -> peval Q t1 = y -> peval (pderiv Q) t1 = nth q (F t1 yr) 0 ->
  (forall j, (j < k)%nat -> peval (pderiv Q) (pt ps j) = pf F ps q j) -> forall x, peval Q x = peval Pp x.
Proof.
  intros L E0 E1 D1 DN. set (Z := padd Q (pscal (-1) Pp)).
  assert (EZ : forall x, peval Z x = peval Q x - peval Pp x) by (intros x; unfold Z; rewrite padd_eval, pscal_eval; ring).
  assert (DZ : forall x, peval (pderiv Z) x = peval (pderiv Q) x - peval (pderiv Pp) x).
  { intros x. pose proof (peval_deriv Z x) as A1. pose proof (is_derive_minus _ _ _ _ _ (peval_deriv Q x) (peval_deriv Pp x)) as A2.
    apply is_derive_unique in A1. rewrite <- A1. apply is_derive_unique. eapply is_derive_ext; [|exact A2]. intros u. cbn beta. rewrite EZ. reflexivity. }
  set (T := fun j => if (j <? k)%nat then pt ps j else t1).
  assert (DT : distinct T (k + 1)).
  { intros i j Hij Hj. unfold T. destruct (Nat.ltb_spec i k); [|lia]. destruct (Nat.ltb_spec j k); [apply (decr_distinct d ps k); [exact HD|lia|lia|lia]|]. intros E. apply (t1_new i); [lia|auto]. }
  assert (LZ : (length (pderiv Z) <= k + 1 + 1)%nat). { rewrite pderiv_length. assert (length Z <= k + 3)%nat by (apply padd_len; [exact L|rewrite pscal_len; apply Pp_len]). lia. }
  assert (RZ : forall x, peval (pderiv Z) x = nth (k + 1) (pderiv Z) 0 * nprod T (k + 1) x).
  { apply roots_poly; [exact DT|exact LZ|]. intros j Hj. rewrite DZ. unfold T. destruct (Nat.ltb_spec j k); [rewrite DN, Pp_nodes by assumption; ring|rewrite D1, Pp_new; ring]. }
  set (kz := nth (k + 1) (pderiv Z) 0) in *.
  assert (NT : forall x, nprod T (k + 1) x = nprod (pt ps) k x * (x - t1)).
  { intros x. replace (k + 1)%nat with (S k) by lia. cbn [nprod]. f_equal; [|unfold T; destruct (Nat.ltb_spec k k); [lia|reflexivity]]. apply nprod_ext. intros j Hj. unfold T. destruct (Nat.ltb_spec j k); [reflexivity|lia]. }
  pose proof (np_nz k ltac:(lia)) as NN. set (N := nprod (pt ps) k t1) in *. pose proof h_nz as Nh. pose proof gdi_pos as GP.
  assert (ZS : forall x, peval Z x = peval Z (pt ps 0) - kz * h * h * N * Sg ar k ((x - pt ps 0) / h)).
  { apply (same_deriv _ _ (peval (pderiv Z)) (pt ps 0)).
    - intros x. apply peval_deriv.
    - intros x. set (s := (x - pt ps 0) / h).
      assert (DL : is_derive (fun x => (x - pt ps 0) / h) x (/ h)) by (auto_derive; [exact I|field; exact Nh]).
      pose proof (is_derive_comp (Sg ar k) (fun x => (x - pt ps 0) / h) x _ _ (Sg_deriv ar k s ar0 ltac:(lia)) DL) as D.
      pose proof (is_derive_scal _ _ (kz * h * h * N) _ D) as D'. pose proof (is_derive_minus _ _ _ _ _ (is_derive_const (peval Z (pt ps 0)) x) D') as D''.
      match goal with |- is_derive _ _ ?v => match type of D'' with is_derive _ _ ?u => replace v with u; [exact D''|] end end.
      unfold minus, plus, opp, zero, scal; cbn; unfold mult; cbn. rewrite RZ, NT. pose proof (cx_nprod k x ltac:(lia)) as CE. fold s in CE. rewrite CE. fold N. set (Nx := nprod (pt ps) k x). unfold s, t1. eqR. field. split; assumption.
    - replace ((pt ps 0 - pt ps 0) / h) with 0 by (unfold Rdiv; ring). rewrite Sg_0. ring. }
  assert (Z0 : peval Z (pt ps 0) = 0) by (rewrite EZ, E0, Pp_old; ring).
  assert (Z1 : peval Z t1 = 0) by (rewrite EZ, E1, Pp_end; ring).
  rewrite (ZS t1), Z0 in Z1. replace ((t1 - pt ps 0) / h) with 1 in Z1 by (unfold t1; field; exact Nh). rewrite Sg_1 in Z1.
  assert (kz = 0).
  { assert (P : kz * (h * h * N * Wr ar (k - 1) 1) = 0) by lra. apply Rmult_integral in P. destruct P as [P|P]; [exact P|exfalso]. apply Rmult_integral in P. destruct P as [P|P]; [|lra]. apply Rmult_integral in P. destruct P as [P|P]; [|contradiction]. apply Rmult_integral in P. tauto. }
  intros x. pose proof (ZS x) as X. rewrite Z0, EZ, H in X. lra.
Qed.
End Poly.
