(** The stiffness diagnosis (Stiff.v) over the reals: exact quadratic roots, exact
    Jacobian products for affine right-hand sides, and what a converged power
    iteration certifies. *)
From Coq Require Import String ZArith Reals Lra Psatz QArith Qreals Bool Lia List.
From Verif Require Import Arith Common Stiff RX RKReal NormReal.
Import ListNotations.
Close Scope string_scope.
Open Scope nat_scope.
Open Scope R_scope.

Notation rvec := (list R).
Notation FV := (map Fin).
Definition rscale (c : R) (v : rvec) : rvec := map (Rmult c) v.
Definition rsub (v w : rvec) : rvec := map2 Rminus v w.
(** weighted inner product and squared norm *)
Definition rw (wt v w : rvec) : R := rdot (map2 Rdiv v wt) (map2 Rdiv w wt).
Definition rwn (wt v : rvec) : R := rw wt v v.
Definition matvec (J : list rvec) (v : rvec) : rvec := map (fun r => rdot r v) J.

(** ** vectors *)
Lemma map2_len {X Y Z} (g : X -> Y -> Z) : forall l m, length l = length m -> length (map2 g l m) = length l.
Proof. induction l; destruct m; simpl; intros; try discriminate; auto. Qed.
Lemma rscale_len c v : length (rscale c v) = length v. Proof. apply map_length. Qed.
Lemma radd_len v w : length v = length w -> length (radd v w) = length v. Proof. apply map2_len. Qed.
Lemma matvec_len J v : length (matvec J v) = length J. Proof. apply map_length. Qed.

Lemma vadd_fin (v w : rvec) : @vadd RX (FV v) (FV w) = FV (radd v w).
Proof. unfold vadd, radd. cbn [nadd RX]. revert w. induction v; destruct w; simpl; auto. rewrite IHv. reflexivity. Qed.
Lemma vsub_fin (v w : rvec) : @vsub RX (FV v) (FV w) = FV (rsub v w).
Proof.
  unfold vsub, rsub. cbn [nsub RX]. revert w. induction v; destruct w; simpl; auto. rewrite IHv. reflexivity.
Qed.
Lemma vscale_fin c (v : rvec) : @vscale RX (Fin c) (FV v) = FV (rscale c v).
Proof. unfold vscale, rscale. cbn [nmul RX]. rewrite !map_map. reflexivity. Qed.
Lemma vdiv_fin (v w : rvec) : Forall (fun x => x <> 0) w -> @vdiv RX (FV v) (FV w) = FV (map2 Rdiv v w).
Proof.
  unfold vdiv. cbn [ndiv RX]. revert v. induction w as [|b w IH]; intros [|a v] H; simpl; auto.
  inversion H; subst. rewrite IH by auto. destruct (Req_EM_T b 0); [contradiction|reflexivity].
Qed.
Lemma wdot_fin wt v w : Forall (fun x => x <> 0) wt -> @wdot RX (FV wt) (FV v) (FV w) = Fin (rw wt v w).
Proof. intros H. unfold wdot. rewrite !vdiv_fin by auto. apply ndot_fin. Qed.
Lemma mapdiv_fin c (v : rvec) : c <> 0 -> map (fun u : num RX => ndiv RX u (Fin c)) (FV v) = FV (rscale (/ c) v).
Proof.
  intros H. unfold rscale. rewrite !map_map. apply map_ext. intros a. cbn [ndiv RX xdiv].
  destruct (Req_EM_T c 0); [contradiction|]. f_equal. unfold Rdiv. ring.
Qed.

Lemma rdot_add_r : forall x y z, length y = length z -> rdot x (radd y z) = rdot x y + rdot x z.
Proof.
  induction x; destruct y, z; simpl; intros; try discriminate; try lra.
  injection H as H. unfold radd in *. simpl. rewrite IHx by auto. lra.
Qed.
Lemma rdot_scale_r c : forall x y, rdot x (rscale c y) = c * rdot x y.
Proof. unfold rscale. induction x; destruct y; simpl; try lra. rewrite IHx. lra. Qed.
Lemma rdot_comm : forall x y, rdot x y = rdot y x.
Proof. induction x; destruct y; simpl; auto. rewrite IHx. lra. Qed.
Lemma matvec_scale J c v : matvec J (rscale c v) = rscale c (matvec J v).
Proof. unfold matvec, rscale at 2. rewrite map_map. apply map_ext. intros. apply rdot_scale_r. Qed.
Lemma matvec_add J v w : length v = length w -> matvec J (radd v w) = radd (matvec J v) (matvec J w).
Proof.
  intros H. unfold matvec, radd. induction J; simpl; auto. rewrite IHJ. f_equal. apply rdot_add_r; auto.
Qed.
Lemma rscale_rscale a b v : rscale a (rscale b v) = rscale (a * b) v.
Proof. unfold rscale. rewrite map_map. apply map_ext. intros; ring. Qed.
Lemma rscale_1 v : rscale 1 v = v.
Proof. unfold rscale. rewrite <- (map_id v) at 2. apply map_ext. intros; ring. Qed.

Lemma div_scale c : forall v wt, map2 Rdiv (rscale c v) wt = rscale c (map2 Rdiv v wt).
Proof. unfold rscale. induction v; destruct wt; simpl; auto. rewrite IHv. f_equal. unfold Rdiv. ring. Qed.
Lemma div_add : forall v w wt, map2 Rdiv (radd v w) wt = radd (map2 Rdiv v wt) (map2 Rdiv w wt).
Proof. unfold radd. induction v; destruct w, wt; simpl; auto. rewrite IHv. f_equal. unfold Rdiv. ring. Qed.
Lemma rw_comm wt v w : rw wt v w = rw wt w v. Proof. apply rdot_comm. Qed.
Lemma rw_scale_r wt c v w : rw wt v (rscale c w) = c * rw wt v w.
Proof. unfold rw. rewrite div_scale. apply rdot_scale_r. Qed.
Lemma rw_scale_l wt c v w : rw wt (rscale c v) w = c * rw wt v w.
Proof. rewrite rw_comm, rw_scale_r, rw_comm. reflexivity. Qed.
Lemma rw_add_r wt u v w : length v = length wt -> length w = length wt -> rw wt u (radd v w) = rw wt u v + rw wt u w.
Proof. intros. unfold rw. rewrite div_add. apply rdot_add_r. rewrite !map2_len; congruence. Qed.
Lemma rw_add_l wt u v w : length v = length wt -> length w = length wt -> rw wt (radd v w) u = rw wt v u + rw wt w u.
Proof. intros. rewrite rw_comm, rw_add_r by auto. rewrite (rw_comm wt u v), (rw_comm wt u w). reflexivity. Qed.
Lemma rwn_nonneg wt v : 0 <= rwn wt v. Proof. apply sumsq_nonneg. Qed.
Lemma rwn_scale wt c v : rwn wt (rscale c v) = c * c * rwn wt v.
Proof. unfold rwn. rewrite rw_scale_l, rw_scale_r. ring. Qed.

(** a vector with zero norm is the zero vector *)
Lemma rwn_zero wt v : Forall (fun x => 0 < x) wt -> length v = length wt -> rwn wt v = 0 -> v = rscale 0 v.
Proof.
  intros Hw HL H. unfold rwn, rw in H. apply (proj1 (sumsq_zero _)) in H.
  revert v HL H. induction Hw as [|w wt Hw _ IH]; intros [|a v] HL H; simpl in *; try discriminate; auto.
  inversion H; subst. unfold rscale. simpl. f_equal.
  - assert (a = a / w * w) by (field; lra). rewrite H2 in H0. nra.
  - apply IH; auto.
Qed.
Lemma rscale0_eq u v : length u = length v -> rscale 0 u = rscale 0 v.
Proof. unfold rscale. revert v. induction u; destruct v; simpl; intros; try discriminate; auto. f_equal; [ring|apply IHu; auto]. Qed.

(** the residual of the Rayleigh quotient: |w - r v|^2 = |w|^2 - <v,w>^2/|v|^2 *)
Lemma rayleigh_residual wt v w : length v = length wt -> length w = length wt -> 0 < rwn wt v ->
  let r := rw wt v w / rwn wt v in
  rwn wt (radd w (rscale (- r) v)) = (rwn wt v * rwn wt w - rw wt v w * rw wt v w) / rwn wt v.
Proof.
  intros Hv Hw Hp r. unfold rwn at 1. assert (length (rscale (- r) v) = length wt) by (rewrite rscale_len; auto).
  rewrite rw_add_l, !rw_add_r by auto. rewrite !rw_scale_l, !rw_scale_r.
  fold (rwn wt w) (rwn wt v). rewrite (rw_comm wt w v). unfold r. field. lra.
Qed.

(** Cauchy-Schwarz with equality: zero Gram determinant means collinear *)
Lemma gram_nonneg wt v w : length v = length wt -> length w = length wt -> 0 < rwn wt v ->
  0 <= rwn wt v * rwn wt w - rw wt v w * rw wt v w.
Proof.
  intros Hv Hw Hp. pose proof (rayleigh_residual wt v w Hv Hw Hp) as H. cbv zeta in H.
  pose proof (rwn_nonneg wt (radd w (rscale (- (rw wt v w / rwn wt v)) v))) as Hn. rewrite H in Hn.
  apply Rmult_le_reg_r with (/ rwn wt v); [apply Rinv_0_lt_compat; auto|]. unfold Rdiv in Hn. lra.
Qed.
Lemma radd_cancel : forall w v c, length v = length w -> radd w (rscale (- c) v) = rscale 0 (radd w (rscale (- c) v)) -> w = rscale c v.
Proof.
  unfold radd, rscale. induction w; destruct v; simpl; intros; try discriminate; auto.
  inversion H0. f_equal; [lra|]. apply IHw; auto.
Qed.
Lemma gram_zero wt v w : Forall (fun x => 0 < x) wt -> length v = length wt -> length w = length wt -> 0 < rwn wt v ->
  rwn wt v * rwn wt w - rw wt v w * rw wt v w = 0 -> w = rscale (rw wt v w / rwn wt v) v.
Proof.
  intros Hw Lv Lw Hp H. pose proof (rayleigh_residual wt v w Lv Lw Hp) as HR. cbv zeta in HR. rewrite H in HR.
  unfold Rdiv in HR at 2. rewrite Rmult_0_l in HR. apply radd_cancel; [congruence|].
  apply rwn_zero with (wt := wt); auto. rewrite radd_len; auto. rewrite rscale_len. congruence.
Qed.

(** ** stiff_c *)
(** complex numbers as pairs of reals *)
Definition cadd (a b : R * R) := (fst a + fst b, snd a + snd b).
Definition cmul (a b : R * R) := (fst a * fst b - snd a * snd b, fst a * snd b + snd a * fst b).
Definition cabs2 (a : R * R) := fst a * fst a + snd a * snd a.
Definition crt (p : R * R) : num RX * num RX := (Fin (fst p), Fin (snd p)).
(** x^2 + alpha x + beta = (x - r1) (x - r2) for every complex x *)
Definition factors (alpha beta : R) (r1 r2 : R * R) : Prop :=
  forall x : R * R, cadd (cadd (cmul x x) (cmul (alpha, 0) x)) (beta, 0)
    = cmul (cadd x (- fst r1, - snd r1)) (cadd x (- fst r2, - snd r2)).

Lemma factors_intro alpha beta r1 r2 :
  fst r1 + fst r2 = - alpha -> snd r1 + snd r2 = 0 ->
  fst r1 * fst r2 - snd r1 * snd r2 = beta -> fst r1 * snd r2 + snd r1 * fst r2 = 0 -> factors alpha beta r1 r2.
Proof. intros H1 H2 H3 H4 [a b]. unfold cadd, cmul. simpl. f_equal; nra. Qed.

Lemma stiff_c_real alpha beta : exists r1 r2,
  @stiff_c RX (Fin alpha) (Fin beta) = (crt r1, crt r2) /\ factors alpha beta r1 r2 /\ cabs2 r2 <= cabs2 r1.
Proof.
  unfold stiff_c, sq. rewrite n0_RX, n2_RX. cbn [ndiv RX xdiv].
  destruct (Req_EM_T 2 0); [lra|]. cbn [nmul RX xmul nsub xsub xadd xopp neqb xeqb nopp nabs xabs nsqrt xsqrt nltb xltb nadd].
  set (t := alpha / 2). set (d := t * t + - beta).
  assert (Ea : alpha = 2 * t) by (unfold t; lra). assert (Eb : beta = t * t - d) by (unfold d; lra).
  clearbody t d. subst alpha beta.
  destruct (Reqb_spec d 0) as [->|Hd].
  { exists (- t, 0), (- t, 0). split; [reflexivity|]. split; [apply factors_intro; simpl; lra|lra]. }
  destruct (Rlt_dec (Rabs d) 0) as [HA|_]; [pose proof (Rabs_pos d); lra|].
  destruct (Rltb_spec d 0) as [Hn|Hn].
  - exists (- t, sqrt (Rabs d)), (- t, - sqrt (Rabs d)). split; [reflexivity|].
    assert (HS : sqrt (Rabs d) * sqrt (Rabs d) = - d) by (rewrite sqrt_sqrt by apply Rabs_pos; rewrite Rabs_left; lra).
    set (s := sqrt (Rabs d)) in *. clearbody s. split.
    + apply factors_intro; simpl; nra.
    + unfold cabs2; simpl. lra.
  - assert (HS : sqrt (Rabs d) * sqrt (Rabs d) = d) by (rewrite sqrt_sqrt by apply Rabs_pos; rewrite Rabs_right; lra).
    assert (HP : 0 < sqrt (Rabs d)) by (apply sqrt_lt_R0; rewrite Rabs_right; lra).
    set (s := sqrt (Rabs d)) in *. clearbody s.
    destruct (Rltb_spec 0 t) as [Ht|Ht]; cbn [xdiv xadd xopp].
    + destruct (Req_EM_T (- t + - s) 0); [lra|]. exists (- t + - s, 0), ((t * t - d) / (- t + - s), 0).
      assert (E : (t * t - d) / (- t + - s) = - t + s) by (rewrite <- HS; field; lra).
      rewrite E. split; [reflexivity|]. split; [apply factors_intro; simpl; nra|unfold cabs2; simpl; nra].
    + destruct (Req_EM_T (- t + s) 0); [lra|]. exists (- t + s, 0), ((t * t - d) / (- t + s), 0).
      assert (E : (t * t - d) / (- t + s) = - t - s) by (rewrite <- HS; field; lra).
      rewrite E. split; [reflexivity|]. split; [apply factors_intro; simpl; nra|unfold cabs2; simpl; nra].
Qed.

(** ** stiff_b *)
Definition flag (v1v1 v0v1 v0v0 rold : R) : Prop :=
  let det := v0v0 * v1v1 - v0v1 * v0v1 in let r := v0v1 / v0v0 in
  det = 0 \/ (Rabs (det / v0v0) <= 1/1000000 * v1v1 /\ Rabs (r - rold) <= 1/1000 * Rabs r).
Lemma stiff_b_real a b c rold : c <> 0 -> exists re : bool,
  let r := b / c in
  @stiff_b RX (Fin a) (Fin b) (Fin c) (Fin rold) =
    (Fin r, Fin (Rabs r), (if re then Fin r else Fin 0, Fin 0), (Fin 0, Fin 0), re) /\ (re = true <-> flag a b c rold).
Proof.
  intros Hc. unfold stiff_b, sq, flag. rewrite n0_RX.
  replace (@lit RX (1#1000000)) with (Fin (1/1000000)) by (symmetry; litR).
  replace (@lit RX (1#1000)) with (Fin (1/1000)) by (symmetry; litR).
  cbn [ndiv RX xdiv nmul xmul nsub xsub xadd xopp neqb xeqb nabs xabs nleb xleb].
  destruct (Req_EM_T c 0); [contradiction|]. cbn [xabs xleb xmul xsub xadd xopp].
  eexists. split; [reflexivity|]. rewrite orb_true_iff, andb_true_iff, Reqb_true, !Rleb_true. unfold Rminus. tauto.
Qed.

(** ** stiff_d *)
Definition affine (n : nat) (fun_ : num RX -> list (num RX) -> list (num RX)) (x : R) (J : list rvec) (c : rvec) : Prop :=
  length J = n /\ length c = n /\ forall p, length p = n -> fun_ (Fin x) (FV p) = FV (radd (matvec J p) c).

Lemma radd_sub_cancel : forall u v w, length u = length v -> length v = length w -> rsub (radd (radd u v) w) (radd u w) = v.
Proof.
  unfold rsub, radd. induction u; destruct v, w; simpl; intros; try discriminate; auto. f_equal; [lra|]. apply IHu; auto.
Qed.

Section Aff.
Variables (n : nat) (fun_ : num RX -> list (num RX) -> list (num RX)) (x havg : R) (J : list rvec) (c0 y fxy wt : rvec).
Hypothesis HA : affine n fun_ x J c0.
Hypothesis Ly : length y = n.
Hypothesis Ef : fun_ (Fin x) (FV y) = FV fxy.
Hypothesis Lw : length wt = n.
Hypothesis Hw : Forall (fun w => 0 < w) wt.

(** havg * J *)
Definition hJ (v : rvec) : rvec := rscale havg (matvec J v).
Lemma hJ_len v : length (hJ v) = n.
Proof. unfold hJ. rewrite rscale_len, matvec_len. apply HA. Qed.
Lemma hJ_scale c v : hJ (rscale c v) = rscale c (hJ v).
Proof. unfold hJ. rewrite matvec_scale, !rscale_rscale. f_equal. ring. Qed.

Lemma FV_inj : forall u v : rvec, FV u = FV v -> u = v.
Proof. induction u; destruct v; simpl; intros H; try discriminate; auto. inversion H. f_equal; auto. Qed.

Lemma wt_ne : Forall (fun w => w <> 0) wt.
Proof. eapply Forall_impl; [|exact Hw]. intros; simpl in *; lra. Qed.

Lemma stiff_d_real v scale vv : length v = n -> scale <> 0 -> 0 < vv ->
  @stiff_d RX fun_ (FV v) (Fin havg) (Fin x) (FV y) (FV fxy) (FV wt) (Fin scale) (Fin vv)
  = (FV (hJ v), Fin (rwn wt (hJ v)), (Fin x, FV (radd y (rscale (scale / sqrt vv) v)))).
Proof.
  intros Lv Hs Hv. unfold stiff_d. cbn [nsqrt RX xsqrt]. destruct (Rlt_dec vv 0); [lra|].
  pose proof (sqrt_lt_R0 vv Hv) as Hq. cbn [ndiv RX xdiv]. destruct (Req_EM_T (sqrt vv) 0); [lra|].
  set (t1 := scale / sqrt vv).
  assert (Ht : t1 <> 0). { unfold t1, Rdiv. apply Rmult_integral_contrapositive_currified; auto. apply Rinv_neq_0_compat. lra. }
  cbn [xdiv]. destruct (Req_EM_T t1 0); [contradiction|].
  rewrite vscale_fin, vadd_fin. destruct HA as (LJ & Lc & HF).
  assert (Lp : length (radd y (rscale t1 v)) = n) by (rewrite radd_len; rewrite ?rscale_len; congruence).
  rewrite HF by exact Lp. pose proof (HF y Ly) as E. rewrite Ef in E. apply FV_inj in E.
  rewrite vsub_fin, E, matvec_add by (rewrite rscale_len; congruence).
  rewrite radd_sub_cancel by (rewrite !matvec_len; congruence).
  rewrite vscale_fin.
  assert (EZ : rscale (havg / t1) (matvec J (rscale t1 v)) = hJ v).
  { unfold hJ. rewrite matvec_scale, rscale_rscale. f_equal. field. auto. }
  rewrite EZ, wdot_fin by apply wt_ne. reflexivity.
Qed.

(** what the iteration certifies about the matrix M = havg * J *)
Definition real_cert (r : R) : Prop :=
  exists w, length w = n /\ 0 < rwn wt w /\ rwn wt (radd (hJ w) (rscale (- r) w)) <= 1/1000000 * rwn wt (hJ w).
Definition pair_cert (alpha beta : R) : Prop :=
  exists w, length w = n /\ 0 < rwn wt w /\
    rwn wt (radd (hJ (hJ w)) (radd (rscale alpha (hJ w)) (rscale beta w))) <= 1/1000000 * rwn wt (hJ (hJ w)).

Lemma flag_cert w rold : length w = n -> 0 < rwn wt w -> flag (rwn wt (hJ w)) (rw wt w (hJ w)) (rwn wt w) rold ->
  real_cert (rw wt w (hJ w) / rwn wt w).
Proof.
  intros L HP HF. exists w. split; [auto|]. split; [auto|].
  rewrite rayleigh_residual; [|congruence|rewrite hJ_len; congruence|auto].
  pose proof (rwn_nonneg wt (hJ w)). destruct HF as [HF|[HF _]].
  - rewrite HF. unfold Rdiv at 1. lra.
  - eapply Rle_trans; [|exact HF]. apply Rle_abs.
Qed.

Lemma triple_residual u v w a b : length u = length wt -> length v = length wt -> length w = length wt ->
  rwn wt (radd u (radd (rscale a v) (rscale b w))) =
  rwn wt u + rwn wt v * (a * a) + rwn wt w * (b * b) + 2 * rw wt v u * a + 2 * rw wt w u * b + 2 * rw wt w v * a * b.
Proof.
  intros Lu Lv Lww. unfold rwn. assert (L1 : length (rscale a v) = length wt) by (rewrite rscale_len; auto).
  assert (L2 : length (rscale b w) = length wt) by (rewrite rscale_len; auto).
  assert (L3 : length (radd (rscale a v) (rscale b w)) = length wt) by (rewrite radd_len; congruence).
  rewrite rw_add_l, !rw_add_r by auto. rewrite !rw_add_l by auto. rewrite !rw_scale_l, !rw_scale_r.
  rewrite (rw_comm wt u v), (rw_comm wt u w), (rw_comm wt v w). ring.
Qed.

(** the outcome of a diagnosis whose roots are finite numbers with a certificate *)
Inductive outcome : stiff_res (A := RX) -> Prop :=
| Out_unsure : outcome unsure
| Out_notstiff : outcome notstiff
| Out_real r : real_cert r ->
    outcome {| stif := None; rootre := Some true; roots := Some (crt (r, 0), crt (0, 0), Fin (Rabs r)) |}
| Out_pair alpha beta r1 r2 : pair_cert alpha beta -> factors alpha beta r1 r2 -> cabs2 r2 <= cabs2 r1 ->
    outcome {| stif := None; rootre := Some false; roots := Some (crt r1, crt r2, Fin (sqrt (cabs2 r1))) |}.

Lemma xsqrt_nn r : 0 <= r -> xsqrt (Fin r) = Fin (sqrt r).
Proof. intros H. cbn [xsqrt]. destruct (Rlt_dec r 0); [lra|reflexivity]. Qed.

Lemma loop_outcome scale : scale <> 0 -> forall k first v rold calls res cl, length v = n -> rwn wt v = 1 ->
  @stiff_loop RX fun_ k first (Fin havg) (Fin x) (FV y) (FV fxy) (FV wt) (Fin scale) (FV v) n1 (Fin rold) calls = (res, cl) ->
  outcome res.
Proof.
  intros Hs. induction k as [|k IH]; intros first v rold calls res cl Lv Hv H; cbn [stiff_loop] in H.
  { inversion H; subst. constructor. }
  rewrite n1_RX in H. rewrite (stiff_d_real v scale 1 Lv Hs ltac:(lra)) in H.
  set (v1 := hJ v) in *. pose proof (hJ_len v : length v1 = n) as L1.
  match type of H with (if ?b then _ else _) = _ => destruct b end; [inversion H; subst; constructor|].
  rewrite wdot_fin in H by apply wt_ne.
  match type of H with match ?q with inl _ => _ | inr _ => _ end = _ => set (chk := q) in H end.
  assert (Hchk : (exists r1, chk = inl r1 /\ outcome r1) \/ (exists rr oo, chk = inr (Fin rr, oo) /\ 0 < rwn wt v1)).
  { unfold chk. cbn [ndiv RX xdiv].
    destruct (Req_EM_T 1 0); [lra|]. destruct first.
    - cbn [nabs RX xabs]. destruct (nltb RX (Fin (Rabs (rw wt v v1 / 1))) _) eqn:EC.
      + left. eexists. split; [reflexivity|constructor].
      + right. eexists _, _. split; [reflexivity|].
        assert (HN : rwn wt v1 <> 0).
        { intro E. apply rwn_zero in E; [|auto|congruence]. rewrite E, rw_scale_r in EC.
          replace (0 * rw wt v v1 / 1) with 0 in EC by (unfold Rdiv; ring). rewrite Rabs_R0 in EC.
          change (n_epsneg RX) with (Fin (/ 2 ^ 53)) in EC. cbn [npow RX] in EC. rewrite lit_RX in EC.
          assert (0 < / 2 ^ 53) by (apply Rinv_0_lt_compat, pow_lt; lra).
          destruct (xpow_fin (/ 2 ^ 53) (Q2R (1#3)) ltac:(auto)) as (p & E1 & E2). rewrite E1 in EC.
          cbn [nltb RX xltb] in EC. apply Rltb_false in EC. lra. }
        pose proof (rwn_nonneg wt v1). lra.
    - destruct (stiff_b_real (rwn wt v1) (rw wt v v1) 1 rold ltac:(lra)) as (re & E & HF). cbv zeta in E. rewrite E.
      destruct re.
      + left. eexists. split; [reflexivity|]. apply (Out_real (rw wt v v1 / 1)). rewrite <- Hv.
        eapply flag_cert; [auto|lra|]. rewrite Hv. apply HF. reflexivity.
      + right. eexists _, _. split; [reflexivity|].
        assert (HN : rwn wt v1 <> 0).
        { intro E0. assert (false = true); [|discriminate]. apply HF. left.
          pose proof E0 as E1. apply rwn_zero in E1; [|auto|congruence]. rewrite E0, E1, rw_scale_r. ring. }
        pose proof (rwn_nonneg wt v1). lra. }
  clearbody chk.
  destruct Hchk as [(r1 & -> & Ho)|(rr & oo & -> & Hp1)]; [inversion H; subst; auto|].
  rewrite (stiff_d_real v1 scale (rwn wt v1) L1 Hs Hp1) in H.
  set (v2 := hJ v1) in *. pose proof (hJ_len v1 : length v2 = n) as L2.
  rewrite !wdot_fin in H by apply wt_ne.
  destruct (stiff_b_real (rwn wt v2) (rw wt v1 v2) (rwn wt v1) rr ltac:(lra)) as (re2 & E2 & HF2). cbv zeta in E2. rewrite E2 in H.
  destruct re2.
  { inversion H; subst. apply (Out_real (rw wt v1 v2 / rwn wt v1)). eapply flag_cert; [auto|auto|]. apply HF2; reflexivity. }
  assert (Hp2 : 0 < rwn wt v2).
  { assert (HN : rwn wt v2 <> 0).
    { intro E0. assert (false = true); [|discriminate]. apply HF2. left.
      pose proof E0 as E1. apply rwn_zero in E1; [|auto|congruence]. rewrite E0, E1, rw_scale_r. ring. }
    pose proof (rwn_nonneg wt v2). lra. }
  rewrite (stiff_d_real v2 scale (rwn wt v2) L2 Hs Hp2) in H.
  set (v3 := hJ v2) in *. pose proof (hJ_len v2 : length v3 = n) as L3.
  rewrite !wdot_fin in H by apply wt_ne.
  (* det1 is not zero: otherwise v1 is a multiple of v0 and v2 of v1 *)
  assert (Hd1 : 1 * rwn wt v1 - rw wt v v1 * rw wt v v1 <> 0).
  { intro E. assert (false = true); [|discriminate]. apply HF2. left.
    assert (Ec : v1 = rscale (rw wt v v1 / rwn wt v) v) by (apply gram_zero; [exact Hw|congruence|congruence|lra|rewrite Hv; exact E]).
    set (c := rw wt v v1 / rwn wt v) in *. clearbody c.
    assert (Ec2 : v2 = rscale c v1) by (unfold v2; rewrite Ec at 1; rewrite hJ_scale; reflexivity).
    rewrite Ec2, rwn_scale, rw_scale_r. unfold rwn. ring. }
  destruct (stiff_b_real (rwn wt v3) (rw wt v2 v3) (rwn wt v2) (rw wt v1 v2 / rwn wt v1) ltac:(lra)) as (re3 & E3 & HF3). cbv zeta in E3.
  unfold sq in H. rewrite n2_RX in H. cbn [nmul nsub nopp nadd ndiv RX xmul xsub xadd xopp xdiv] in H.
  destruct (Req_EM_T (1 * rwn wt v1 + - (rw wt v v1 * rw wt v v1)) 0) as [E0|_]; [exfalso; apply Hd1; lra|].
  rewrite E3 in H. destruct re3.
  { inversion H; subst. apply (Out_real (rw wt v2 v3 / rwn wt v2)). eapply flag_cert; [auto|auto|]. apply HF3; reflexivity. }
  assert (Hp3 : 0 < rwn wt v3).
  { assert (HN : rwn wt v3 <> 0).
    { intro E0. assert (false = true); [|discriminate]. apply HF3. left.
      pose proof E0 as E1. apply rwn_zero in E1; [|auto|congruence]. rewrite E0, E1, rw_scale_r. ring. }
    pose proof (rwn_nonneg wt v3). lra. }
  destruct (Req_EM_T (rwn wt v1 * rwn wt v2 + - (rw wt v1 v2 * rw wt v1 v2)) 0) as [E0|_].
  { exfalso. assert (false = true); [|discriminate]. apply HF2. left. lra. }
  cbn [xmul xadd nabs RX xabs] in H.
  replace (@lit RX (1#1000000)) with (Fin (1/1000000)) in H by (symmetry; litR). cbn [nleb RX xleb xmul] in H.
  match type of H with context [stiff_c (Fin ?a1) (Fin ?b1)] => set (al1 := a1) in H; set (be1 := b1) in H end.
  match type of H with context [let '(r1, r2) := stiff_c _ _ in let '(root1, root2) := stiff_c (Fin ?a1) (Fin ?b1) in _] =>
    set (al2 := a1) in H; set (be2 := b1) in H end.
  clearbody al1 be1.
  match type of H with match ?q with Some _ => _ | None => _ end = _ => set (conv := q) in H end.
  assert (Hconv : conv = None \/ exists rt, conv = Some rt /\
            outcome {| stif := None; rootre := Some false; roots := Some rt |}).
  { unfold conv. match goal with |- (if Rleb ?a ?b then _ else _) = _ \/ _ => destruct (Rleb_spec a b) as [HR|]; [|left; reflexivity] end.
    destruct (stiff_c_real al1 be1) as (p1 & p2 & -> & _).
    destruct (stiff_c_real al2 be2) as (q1 & q2 & -> & HFa & Hab).     change (nsqrt RX) with xsqrt. replace (xsqrt (xadd (xmul (fst (crt q1)) (fst (crt q1))) (xmul (snd (crt q1)) (snd (crt q1))))) with (Fin (sqrt (cabs2 q1)))
     by (symmetry; apply (xsqrt_nn (cabs2 q1)); unfold cabs2; pose proof (Rle_0_sqr (fst q1)); pose proof (Rle_0_sqr (snd q1)); unfold Rsqr in *; lra).
    match goal with |- (if ?b then _ else _) = _ \/ _ => destruct b end; [right|left; reflexivity].
    eexists. split; [reflexivity|]. apply (Out_pair al2 be2 q1 q2); auto.
    exists v1. split; [auto|]. split; [auto|]. fold v2 v3.
    rewrite triple_residual by congruence. eapply Rle_trans; [|exact HR]. eapply Rle_trans; [|apply Rle_abs].
    right. ring. }
  clearbody conv. destruct Hconv as [->|(rt & -> & Ho)]; [|inversion H; subst; exact Ho].
  change (nsqrt RX) with xsqrt in H. rewrite (xsqrt_nn (rwn wt v3)) in H by lra.
  pose proof (sqrt_lt_R0 _ Hp3) as Hq.
  change (map (fun u : xr => xdiv u (Fin (sqrt (rwn wt v3)))) (FV v3)) with (map (fun u : num RX => ndiv RX u (Fin (sqrt (rwn wt v3)))) (FV v3)) in H.
  rewrite mapdiv_fin in H by lra. rewrite <- n1_RX in H. eapply IH; [| |exact H].
  - rewrite rscale_len; auto.
  - rewrite rwn_scale. rewrite <- (sqrt_sqrt (rwn wt v3)) at 3 by lra. field. lra.
Qed.
End Aff.

(** ** stiff_a *)
Definition sqe : R := sqrt (/ 2 ^ 53).
Lemma sqe_pos : 0 < sqe.
Proof. apply sqrt_lt_R0, Rinv_0_lt_compat, pow_lt. lra. Qed.
Definition cube_eps : R := Rpower (/ 2 ^ 53) (1/3).
Lemma cube_eps_RX : npow RX (n_epsneg RX) (lit (1#3)) = Fin cube_eps.
Proof.
  change (n_epsneg RX) with (Fin (/ 2 ^ 53)). rewrite lit_RX.
  assert (0 < / 2 ^ 53) by (apply Rinv_0_lt_compat, pow_lt; lra).
  assert (E : Q2R (1#3) = 1/3) by (unfold Q2R; simpl; lra). rewrite E. cbn [npow RX xpow].
  destruct (Req_EM_T (1/3) 0); [lra|]. destruct (Rlt_dec 0 (/ 2 ^ 53)); [reflexivity|contradiction].
Qed.

(** the step is representative of the average and the remaining work is large:
    the two questions asked before any evaluation (common.py 912-933) *)
Definition worth_testing (hnow havg x xend : R) (maxfcn cost : nat) : Prop :=
  1/5 <= Rabs (hnow / havg) <= 5 /\ INR maxfcn < INR cost * Rabs ((xend - x) / havg).

Lemma gates hnow havg x xend maxfcn cost : havg <> 0 ->
  let r := nabs RX (ndiv RX (Fin hnow) (Fin havg)) in
  let g1 := orb (nltb RX (lit 5) r) (nltb RX r (lit (1#5))) in
  let g2 := nleb RX (nmul RX (nofnat cost) (nabs RX (ndiv RX (nsub RX (Fin xend) (Fin x)) (Fin havg)))) (nofnat maxfcn) in
  (g1 = true /\ ~ worth_testing hnow havg x xend maxfcn cost) \/
  (g1 = false /\ g2 = true /\ ~ worth_testing hnow havg x xend maxfcn cost) \/
  (g1 = false /\ g2 = false /\ worth_testing hnow havg x xend maxfcn cost).
Proof.
  intros Hh. cbv zeta. rewrite !nofnat_RX. replace (@lit RX 5) with (Fin 5) by (symmetry; litR).
  replace (@lit RX (1#5)) with (Fin (1/5)) by (symmetry; litR).
  cbn [ndiv RX xdiv nsub xsub xadd xopp]. destruct (Req_EM_T havg 0); [contradiction|].
  cbn [nabs RX xabs nltb xltb nmul xmul nleb xleb]. unfold worth_testing, Rminus.
  destruct (Rltb_spec 5 (Rabs (hnow / havg))), (Rltb_spec (Rabs (hnow / havg)) (1/5)),
    (Rleb_spec (INR cost * Rabs ((xend + - x) / havg)) (INR maxfcn)); simpl;
  [left|left|left|left|left|left|right; left|right; right]; repeat split; auto; try lra; intros [? ?]; lra.
Qed.

Lemma ones_rwn wt : Forall (fun x => 0 < x) wt -> wt <> [] -> forall v : rvec, length v = length wt -> 0 < rwn wt (map (fun _ => 1) v).
Proof.
  intros Hw Hne v Hv. pose proof (rwn_nonneg wt (map (fun _ => 1) v)).
  destruct (Req_dec (rwn wt (map (fun _ => 1) v)) 0) as [E|]; [|lra].
  apply rwn_zero in E; [|auto|rewrite map_length; auto]. destruct v, wt; simpl in *; try congruence. inversion E. lra.
Qed.

Lemma stiff_a_real n fun_ x hnow havg xend maxfcn J c0 y fxy wt v0 cost res cl :
  affine n fun_ x J c0 -> length y = n -> fun_ (Fin x) (FV y) = FV fxy -> length wt = n -> Forall (fun w => 0 < w) wt ->
  length v0 = n -> havg <> 0 ->
  @stiff_a RX fun_ (Fin x) (FV y) (Fin hnow) (Fin havg) (Fin xend) maxfcn (FV wt) (FV fxy) (FV v0) cost = (res, cl) ->
  outcome n havg J wt res /\ (cl <> [] -> worth_testing hnow havg x xend maxfcn cost) /\
  (roots res <> None -> worth_testing hnow havg x xend maxfcn cost).
Proof.
  intros HA Ly Ef Lw Hw Lv Hh H. unfold stiff_a in H.
  pose proof (gates hnow havg x xend maxfcn cost Hh) as HG. cbv zeta in HG.
  match type of HG with (?a = _ /\ _) \/ _ => set (g1 := a) in * end.
  match type of HG with _ \/ (_ /\ ?a = _ /\ _) \/ _ => set (g2 := a) in * end.
  cbv zeta in H. fold g1 g2 in H. clearbody g1 g2.
  destruct HG as [[-> _]|[(-> & -> & _)|(-> & -> & HWT)]].
  1,2: inversion H; subst; split; [constructor|split; [congruence|cbn [roots notstiff]; congruence]].
  cbv zeta in H. pose proof (wt_ne wt Hw) as Hwne. rewrite !wdot_fin in H by auto. change (n_epsneg RX) with (Fin (/ 2 ^ 53)) in H.
  change (nsqrt RX) with xsqrt in H. pose proof sqe_pos as Hsq. pose proof (rwn_nonneg wt y) as Ny. pose proof (rwn_nonneg wt v0) as Nv.
  rewrite (xsqrt_nn (/ 2 ^ 53)) in H by (left; apply Rinv_0_lt_compat, pow_lt; lra).
  fold (rwn wt y) (rwn wt v0) in H. rewrite (xsqrt_nn (rwn wt y)), (xsqrt_nn (rwn wt v0)) in H by auto. fold sqe in H.
  rewrite n0_RX in H. cbn [nmul RX xmul] in H.
  set (scale := if Reqb (sqrt (rwn wt y) * sqe) 0 then sqrt (rwn wt v0) * sqe else sqrt (rwn wt y) * sqe).
  assert (ES : (if Reqb (sqrt (rwn wt y) * sqe) 0 return num RX then Fin (sqrt (rwn wt v0) * sqe) else Fin (sqrt (rwn wt y) * sqe)) = Fin scale)
    by (unfold scale; destruct (Reqb _ 0); reflexivity).
  change (neqb RX) with xeqb in H. cbn [xeqb] in H. rewrite !ES in H. clear ES.
  assert (Hsc : wt = [] -> scale = 0).
  { intros E. unfold scale. clear -E Lw Ly Lv. subst wt. assert (y = []) by (apply length_zero_iff_nil; rewrite Ly, <- Lw; reflexivity). assert (v0 = []) by (apply length_zero_iff_nil; rewrite Lv, <- Lw; reflexivity).
    subst y v0. unfold rwn, rw. cbn [map2 rdot]. rewrite sqrt_0, Rmult_0_l. destruct (Reqb 0 0); reflexivity. }
  clearbody scale. cbn [xeqb] in H. destruct (Reqb_spec scale 0) as [E|Hs].
  { pose proof (f_equal fst H) as H1. pose proof (f_equal snd H) as H2. cbn [fst snd] in H1, H2. rewrite <- H1, <- H2.
    split; [constructor|split; [congruence|cbn [roots unsure]; congruence]]. }
  assert (Hn : wt <> []) by (intros E; apply Hs; auto).
  set (u := if Reqb (rwn wt v0) 0 then map (fun _ => 1) v0 else v0).
  assert (EU : (if Reqb (rwn wt v0) 0 return list (num RX) then map (fun _ : num RX => n1) (FV v0) else FV v0) = FV u)
    by (unfold u; destruct (Reqb _ 0); [rewrite !map_map, n1_RX|]; reflexivity).
  rewrite !EU in H. clear EU.
  assert (Hu : 0 < rwn wt u).
  { unfold u. destruct (Reqb_spec (rwn wt v0) 0); [apply ones_rwn; auto; congruence|lra]. }
  assert (Lu : length u = n) by (unfold u; destruct (Reqb _ 0); [rewrite map_length|]; auto).
  rewrite wdot_fin in H by auto. fold (rwn wt u) in H. rewrite (xsqrt_nn (rwn wt u)) in H by lra.
  pose proof (sqrt_lt_R0 _ Hu) as Hq. rewrite mapdiv_fin in H by lra.
  split; [|split; intros; exact HWT].
  eapply (loop_outcome n fun_ x havg J c0 y fxy wt HA Ly Ef Lw Hw scale Hs); [| |exact H].
  - rewrite rscale_len; auto.
  - rewrite rwn_scale. rewrite <- (sqrt_sqrt (rwn wt u)) at 3 by lra. field. lra.
Qed.

(** an eigenvector as starting perturbation: the eigenvalue is found with two evaluations *)
Lemma stiff_a_eigen n fun_ x hnow havg xend maxfcn J c0 y fxy wt v0 cost lam :
  affine n fun_ x J c0 -> length y = n -> fun_ (Fin x) (FV y) = FV fxy -> length wt = n -> Forall (fun w => 0 < w) wt ->
  length v0 = n -> havg <> 0 -> rwn wt v0 <> 0 -> matvec J v0 = rscale lam v0 ->
  worth_testing hnow havg x xend maxfcn cost -> cube_eps <= Rabs (havg * lam) <= 10000000000 ->
  exists p1 p2, @stiff_a RX fun_ (Fin x) (FV y) (Fin hnow) (Fin havg) (Fin xend) maxfcn (FV wt) (FV fxy) (FV v0) cost =
    ({| stif := None; rootre := Some true; roots := Some (crt (havg * lam, 0), crt (0, 0), Fin (Rabs (havg * lam))) |},
     [(Fin x, p1); (Fin x, p2)]).
Proof.
  intros HA Ly Ef Lw Hw Lv Hh Hv0 HE HWT Hmu. unfold stiff_a.
  pose proof (gates hnow havg x xend maxfcn cost Hh) as HG. cbv zeta in HG.
  destruct HG as [[_ HN]|[(_ & _ & HN)|(G1 & G2 & _)]]; try contradiction.
  cbv zeta. rewrite G1. match goal with |- context [if ?b then _ else _] => change b with
    (nleb RX (nmul RX (nofnat cost) (nabs RX (ndiv RX (nsub RX (Fin xend) (Fin x)) (Fin havg)))) (nofnat maxfcn)) end.
  rewrite G2. pose proof (wt_ne wt Hw) as Hwne. rewrite !wdot_fin by auto. change (n_epsneg RX) with (Fin (/ 2 ^ 53)).
  change (nsqrt RX) with xsqrt. pose proof sqe_pos as Hsq. pose proof (rwn_nonneg wt y) as Ny. pose proof (rwn_nonneg wt v0) as Nv.
  rewrite (xsqrt_nn (/ 2 ^ 53)) by (left; apply Rinv_0_lt_compat, pow_lt; lra).
  fold (rwn wt y) (rwn wt v0). rewrite (xsqrt_nn (rwn wt y)), (xsqrt_nn (rwn wt v0)) by auto. fold sqe.
  rewrite n0_RX. cbn [nmul RX xmul].
  set (scale := if Reqb (sqrt (rwn wt y) * sqe) 0 then sqrt (rwn wt v0) * sqe else sqrt (rwn wt y) * sqe).
  assert (ES : (if Reqb (sqrt (rwn wt y) * sqe) 0 return num RX then Fin (sqrt (rwn wt v0) * sqe) else Fin (sqrt (rwn wt y) * sqe)) = Fin scale)
    by (unfold scale; destruct (Reqb _ 0); reflexivity).
  change (neqb RX) with xeqb. cbn [xeqb]. rewrite !ES. clear ES.
  assert (Hv : 0 < rwn wt v0) by lra. pose proof (sqrt_lt_R0 _ Hv) as Hq.
  assert (Hs : scale <> 0) by (unfold scale; destruct (Reqb_spec (sqrt (rwn wt y) * sqe) 0); nra).
  cbn [neqb RX xeqb]. destruct (Reqb_spec scale 0); [contradiction|]. destruct (Reqb_spec (rwn wt v0) 0); [contradiction|].
  rewrite wdot_fin by auto. fold (rwn wt v0). rewrite (xsqrt_nn (rwn wt v0)) by lra. rewrite mapdiv_fin by lra.
  set (v := rscale (/ sqrt (rwn wt v0)) v0).
  assert (L : length v = n) by (unfold v; rewrite rscale_len; auto).
  assert (Hv1 : rwn wt v = 1) by (unfold v; rewrite rwn_scale; rewrite <- (sqrt_sqrt (rwn wt v0)) at 3 by lra; field; lra).
  assert (EJ : hJ havg J v = rscale (havg * lam) v).
  { unfold hJ, v. rewrite matvec_scale, HE, !rscale_rscale. f_equal. ring. }
  set (mu := havg * lam) in *. clearbody mu v scale.
  cbn [stiff_loop]. rewrite n1_RX. rewrite (stiff_d_real n fun_ x havg J c0 y fxy wt HA Ly Ef Hw v scale 1 L Hs ltac:(lra)).
  rewrite EJ, rwn_scale, Hv1. replace (mu * mu * 1) with (mu * mu) by ring.
  change (nsqrt RX) with xsqrt. rewrite (xsqrt_nn (mu * mu)), (xsqrt_nn 1) by nra. rewrite sqrt_1.
  replace (sqrt (mu * mu)) with (Rabs mu) by (symmetry; apply sqrt_Rsqr_abs).
  replace (@lit RX 10000000000) with (Fin 10000000000) by (symmetry; litR). cbn [nmul RX xmul nltb xltb].
  destruct (Rltb_spec (10000000000 * 1) (Rabs mu)); [lra|].
  rewrite wdot_fin by auto. rewrite rw_scale_r. fold (rwn wt v). rewrite Hv1. cbn [ndiv RX xdiv].
  destruct (Req_EM_T 1 0); [lra|]. replace (mu * 1 / 1) with mu by field. cbn [nabs RX xabs].
  change (Fin (/ 2 ^ 53)) with (n_epsneg RX). rewrite cube_eps_RX. cbn [xltb].
  destruct (Rltb_spec (Rabs mu) cube_eps); [lra|].
  assert (Hmn : mu * mu <> 0). { intro. assert (mu = 0) by nra. subst mu. rewrite Rabs_R0 in Hmu. unfold cube_eps in Hmu. pose proof (Rpower_pos (/ 2 ^ 53) (1/3)). lra. }
  rewrite (stiff_d_real n fun_ x havg J c0 y fxy wt HA Ly Ef Hw (rscale mu v) scale (mu * mu) ltac:(rewrite rscale_len; auto) Hs ltac:(nra)).
  assert (EJ2 : hJ havg J (rscale mu v) = rscale mu (rscale mu v)).
  { rewrite <- EJ at 2. unfold hJ. rewrite matvec_scale, !rscale_rscale. f_equal. ring. }
  rewrite EJ2, !wdot_fin by auto. rewrite !rwn_scale, !rw_scale_r, !rw_scale_l. fold (rwn wt v). rewrite Hv1.
  destruct (stiff_b_real (mu * mu * (mu * mu * 1)) (mu * (mu * (mu * 1))) (mu * mu) mu Hmn) as (re & E & HF). cbv zeta in E. rewrite E.
  assert (re = true) by (apply HF; left; ring). subst re.
  replace (mu * (mu * (mu * 1)) / (mu * mu)) with mu by (field; intro; subst; lra).
  eexists _, _. reflexivity.
Qed.

(** ** number of evaluations, any arithmetic *)
Lemma loop_calls {A : Arith} fn k : forall first (havg x : num A) y fxy wt scale v0 v0v0 rold calls res cl,
  stiff_loop fn k first havg x y fxy wt scale v0 v0v0 rold calls = (res, cl) ->
  exists l, cl = (calls ++ l)%list /\ (length l <= 3 * k)%nat /\ Forall (fun p => fst p = x) l.
Proof.
  induction k as [|k IH]; intros first havg x y fxy wt scale v0 v0v0 rold calls res cl H; cbn [stiff_loop] in H.
  { inversion H; subst. exists []. rewrite app_nil_r. auto. }
  unfold stiff_d in H. 
  repeat match type of H with
  | (if ?b then _ else _) = _ => destruct b
  | match ?m with _ => _ end = _ => destruct m
  | (let '(_, _) := ?m in _) = _ => destruct m
  | (_, _) = _ => inversion H; subst; clear H;
      (eexists; split; [rewrite <- ?app_assoc; reflexivity|]; split; [simpl; lia|repeat constructor])
  end.
  apply IH in H. destruct H as (l & -> & Hl & HF).
  eexists; split; [rewrite <- !app_assoc; reflexivity|]. split; [rewrite !app_length; simpl; lia|].
  repeat (apply Forall_app; split); auto; repeat constructor.
Qed.
Lemma stiff_a_calls {A : Arith} fn (x : num A) y hnow havg xend maxfcn wt fxy v0 cost res cl :
  stiff_a fn x y hnow havg xend maxfcn wt fxy v0 cost = (res, cl) ->
  (length cl <= 24)%nat /\ Forall (fun p => fst p = x) cl.
Proof.
  unfold stiff_a. intros H.
  repeat match type of H with (if ?b then _ else _) = _ => destruct b; [inversion H; subst; simpl; split; [lia|constructor]|] end.
  cbv zeta in H.
  repeat match type of H with (if ?b then _ else _) = _ => destruct b; [inversion H; subst; simpl; split; [lia|constructor]|] end.
  apply loop_calls in H. destruct H as (l & -> & Hl & HF). simpl. split; [lia|exact HF].
Qed.
