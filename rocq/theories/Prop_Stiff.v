(** C25-C28, C43: the stiffness diagnosis, the automatic first step, and the
    scale_embedded option of Mu5Nmb.

    Vocabulary: [stiff_a] ... [stiff_d] are the functions of common.py 819-1208 (model: Stiff.v),
    [decide_rk]/[decide_rkn], [notes_rk]/[notes_rkn] the decision and the messages of
    _diagnose_stiffness; [rw]/[rwn] weighted inner product and squared norm, [matvec] a
    matrix times a vector (StiffReal.v). *)
From Coq Require Import String ZArith Reals Lra Psatz QArith Qreals Bool Lia List.
From Verif Require Import Arith Common Stiff RK RKGen RKHist RX RKReal NormReal HStart HStartReal RKInit RKMore RKTop Tableaux Classes
  StiffReal Mu5Scale QX RKRefute.
From Verif Require Import Prop_Tol.
Import ListNotations.
Close Scope string_scope.
Open Scope nat_scope.
Open Scope R_scope.

(** ** C25 *)
(** the two roots are exact, the first is not smaller, for every alpha and beta *)
Theorem C25_quadratic_roots alpha beta : exists r1 r2 : R * R,
  @stiff_c RX (Fin alpha) (Fin beta) = ((Fin (fst r1), Fin (snd r1)), (Fin (fst r2), Fin (snd r2))) /\
  (forall x : R * R, cadd (cadd (cmul x x) (cmul (alpha, 0) x)) (beta, 0)
     = cmul (cadd x (- fst r1, - snd r1)) (cadd x (- fst r2, - snd r2))) /\
  sqrt (cabs2 r2) <= sqrt (cabs2 r1).
Proof.
  destruct (stiff_c_real alpha beta) as (r1 & r2 & E & H1 & H2). exists r1, r2.
  split; [exact E|]. split; [exact H1|]. apply sqrt_le_1_alt. exact H2.
Qed.
(** so every complex root of the quadratic is one of the two *)
Corollary C25_all_roots alpha beta r1 r2 (x : R * R) :
  @stiff_c RX (Fin alpha) (Fin beta) = ((Fin (fst r1), Fin (snd r1)), (Fin (fst r2), Fin (snd r2))) ->
  cadd (cadd (cmul x x) (cmul (alpha, 0) x)) (beta, 0) = (0, 0) <-> x = r1 \/ x = r2.
Proof.
  destruct (C25_quadratic_roots alpha beta) as (s1 & s2 & E & H1 & _). intros E2. rewrite E in E2.
  assert (s1 = r1 /\ s2 = r2) as [-> ->].
  { inversion E2. destruct s1, s2, r1, r2; simpl in *; subst; auto. }
  rewrite H1. destruct x as [a b], r1 as [c d], r2 as [e f]. unfold cmul, cadd. simpl. split; intros H.
  - pose proof (f_equal fst H) as Ha. pose proof (f_equal snd H) as Hb. cbn [fst snd] in Ha, Hb. clear H E E2 H1.
    set (p := a + - c) in *. set (q := b + - d) in *. set (r := a + - e) in *. set (s := b + - f) in *.
    assert (HN : (p * p + q * q) * (r * r + s * s) = 0).
    { replace ((p * p + q * q) * (r * r + s * s)) with ((p * r - q * s) * (p * r - q * s) + (p * s + q * r) * (p * s + q * r)) by ring. rewrite Ha, Hb. ring. }
    apply Rmult_integral in HN. destruct HN as [HN|HN]; [left|right].
    + assert (p = 0 /\ q = 0) as [Hp Hq] by (split; nra). f_equal; unfold p, q in *; lra.
    + assert (r = 0 /\ s = 0) as [Hp Hq] by (split; nra). f_equal; unfold r, s in *; lra.
  - destruct H as [H|H]; inversion H; subst; f_equal; ring.
Qed.
Example C25_case_complex : @stiff_c RX (Fin 2) (Fin 5) = ((Fin (-1), Fin 2), (Fin (-1), Fin (-2))).
Proof.
  unfold stiff_c, sq. rewrite n0_RX, n2_RX. cbn [ndiv RX xdiv].
  destruct (Req_EM_T 2 0); [lra|]. cbn [nmul RX xmul nsub xsub xadd xopp neqb xeqb nopp nabs xabs nsqrt xsqrt nltb xltb nadd].
  replace (2/2 * (2/2) + - (5)) with (-4) by lra. destruct (Reqb_spec (-4) 0); [lra|].
  destruct (Rltb_spec (-4) 0); [|lra]. rewrite (Rabs_left (-4)) by lra. destruct (Rlt_dec (- (-4)) 0); [lra|].
  assert (E : sqrt (- (-4)) = 2) by (replace (- (-4)) with (2 * 2) by lra; apply sqrt_square; lra).
  rewrite E. repeat (f_equal; try lra).
Qed.

(** a dominant real root is reported exactly when the power iterate is an eigenvector, or
    when the relative residual is at most 1e-3 and the quotient has stagnated to 1e-3; what is
    reported is the Rayleigh quotient *)
Theorem C25_real_root wt v w rold : Forall (fun a => 0 < a) wt -> length v = length wt -> length w = length wt -> rwn wt v <> 0 ->
  let r := rw wt v w / rwn wt v in
  exists re : bool, @stiff_b RX (Fin (rwn wt w)) (Fin (rw wt v w)) (Fin (rwn wt v)) (Fin rold)
      = (Fin r, Fin (Rabs r), (if re then Fin r else Fin 0, Fin 0), (Fin 0, Fin 0), re) /\
    (re = true <-> w = rscale r v \/
       (rwn wt (radd w (rscale (- r) v)) <= 1/1000000 * rwn wt w /\ Rabs (r - rold) <= 1/1000 * Rabs r)).
Proof.
  intros Hw Lv Lww Hv r. pose proof (rwn_nonneg wt v) as Hn. assert (Hp : 0 < rwn wt v) by lra.
  destruct (stiff_b_real (rwn wt w) (rw wt v w) (rwn wt v) rold Hv) as (re & E & HF). exists re. split; [exact E|].
  rewrite HF. unfold flag. fold r. pose proof (gram_nonneg wt v w Lv Lww Hp) as HG.
  pose proof (rayleigh_residual wt v w Lv Lww Hp) as HR. cbv zeta in HR. fold r in HR. rewrite HR.
  rewrite Rabs_right; [|apply Rle_ge, Rmult_le_pos; [exact HG|left; apply Rinv_0_lt_compat; auto]].
  split; (intros [H|H]; [left|right; exact H]).
  - apply gram_zero; auto.
  - rewrite H at 1 2 3. unfold rwn at 2. rewrite rw_scale_l, !rw_scale_r. fold (rwn wt v). ring.
Qed.

(** ** C26 *)
Section C26.
Variables (n : nat) (fun_ : num RX -> list (num RX) -> list (num RX)) (x havg : R) (J : list (list R)) (c0 y fxy wt : list R).

(** for f(x, p) = J p + c the difference is havg J v exactly, whatever the scale *)
Theorem C26_difference_exact v scale vv : affine n fun_ x J c0 -> length y = n -> fun_ (Fin x) (FV y) = FV fxy ->
  Forall (fun w => 0 < w) wt -> length v = n -> scale <> 0 -> 0 < vv ->
  exists p, @stiff_d RX fun_ (FV v) (Fin havg) (Fin x) (FV y) (FV fxy) (FV wt) (Fin scale) (Fin vv)
    = (FV (rscale havg (matvec J v)), Fin (rwn wt (rscale havg (matvec J v))), (Fin x, p)).
Proof. intros HA Ly Ef Hw Lv Hs Hv. eexists. apply (stiff_d_real n fun_ x havg J c0 y fxy wt); auto. Qed.

(** an eigenvector as perturbation: the eigenvalue of havg J, from two evaluations *)
Theorem C26_eigenvector hnow xend maxfcn cost v0 lam :
  affine n fun_ x J c0 -> length y = n -> fun_ (Fin x) (FV y) = FV fxy -> length wt = n -> Forall (fun w => 0 < w) wt ->
  length v0 = n -> havg <> 0 -> v0 <> rscale 0 v0 -> matvec J v0 = rscale lam v0 ->
  worth_testing hnow havg x xend maxfcn cost -> cube_eps <= Rabs (havg * lam) <= 10000000000 ->
  exists p1 p2, @stiff_a RX fun_ (Fin x) (FV y) (Fin hnow) (Fin havg) (Fin xend) maxfcn (FV wt) (FV fxy) (FV v0) cost =
    ({| stif := None; rootre := Some true; roots := Some ((Fin (havg * lam), Fin 0), (Fin 0, Fin 0), Fin (Rabs (havg * lam))) |},
     [(Fin x, p1); (Fin x, p2)]).
Proof.
  intros HA Ly Ef Lw Hw Lv Hh Hv0 HE HWT Hm. apply (stiff_a_eigen n fun_ x hnow havg xend maxfcn J c0 y fxy wt v0 cost lam); auto.
  intros E. apply Hv0. apply (rwn_zero wt); auto. congruence.
Qed.

(** whatever the perturbation: for affine f the diagnosis divides by no zero, and a reported
    root or pair of roots comes with a vector that certifies it up to a relative residual 1e-3 *)
Theorem C26_roots_certified hnow xend maxfcn cost v0 res cl :
  affine n fun_ x J c0 -> length y = n -> fun_ (Fin x) (FV y) = FV fxy -> length wt = n -> Forall (fun w => 0 < w) wt ->
  length v0 = n -> havg <> 0 ->
  @stiff_a RX fun_ (Fin x) (FV y) (Fin hnow) (Fin havg) (Fin xend) maxfcn (FV wt) (FV fxy) (FV v0) cost = (res, cl) ->
  let M v := rscale havg (matvec J v) in
  (roots res = None /\ (res = unsure \/ res = notstiff)) \/
  (worth_testing hnow havg x xend maxfcn cost /\ exists r w, rootre res = Some true /\
     roots res = Some ((Fin r, Fin 0), (Fin 0, Fin 0), Fin (Rabs r)) /\
     length w = n /\ 0 < rwn wt w /\ rwn wt (radd (M w) (rscale (- r) w)) <= 1/1000000 * rwn wt (M w)) \/
  (worth_testing hnow havg x xend maxfcn cost /\ exists r1 r2 alpha beta w, rootre res = Some false /\
     roots res = Some ((Fin (fst r1), Fin (snd r1)), (Fin (fst r2), Fin (snd r2)), Fin (sqrt (cabs2 r1))) /\
     factors alpha beta r1 r2 /\ cabs2 r2 <= cabs2 r1 /\
     length w = n /\ 0 < rwn wt w /\
     rwn wt (radd (M (M w)) (radd (rscale alpha (M w)) (rscale beta w))) <= 1/1000000 * rwn wt (M (M w))).
Proof.
  intros HA Ly Ef Lw Hw Lv Hh H M.
  destruct (stiff_a_real n fun_ x hnow havg xend maxfcn J c0 y fxy wt v0 cost res cl HA Ly Ef Lw Hw Lv Hh H) as (HO & _ & HWT).
  destruct HO as [| |r (w & L & P & Hr)|alpha beta r1 r2 (w & L & P & Hr) HF Ha].
  - left. split; [reflexivity|left; reflexivity].
  - left. split; [reflexivity|right; reflexivity].
  - right; left. split; [apply HWT; cbn; discriminate|]. exists r, w. repeat (split; [first [reflexivity|assumption]|]). exact Hr.
  - right; right. split; [apply HWT; cbn; discriminate|]. exists r1, r2, alpha, beta, w.
    repeat (split; [first [reflexivity|assumption]|]). exact Hr.
Qed.
End C26.

(** at most 24 evaluations, all at the current time, in any arithmetic *)
Theorem C26_evaluations {A : Arith} fn (x : num A) y hnow havg xend maxfcn wt fxy v0 cost :
  (length (snd (stiff_a fn x y hnow havg xend maxfcn wt fxy v0 cost)) <= 24)%nat /\
  Forall (fun p => fst p = x) (snd (stiff_a fn x y hnow havg xend maxfcn wt fxy v0 cost)).
Proof. destruct (stiff_a _ _ _ _ _ _ _ _ _ _ _) as [res cl] eqn:E. exact (stiff_a_calls _ _ _ _ _ _ _ _ _ _ _ _ _ E). Qed.

(** a case: y' = -50 y, h = 1/10, far from the end *)
Example C26_case : exists p1 p2,
  @stiff_a RX (fun _ p => map (xmul (Fin (-50))) p) (Fin 0) [Fin 1] (Fin (1/10)) (Fin (1/10)) (Fin 1000000) 5000 [Fin 1] [Fin (-50)] [Fin (1/1000)] 4
  = ({| stif := None; rootre := Some true; roots := Some ((Fin (1/10 * (-50)), Fin 0), (Fin 0, Fin 0), Fin (Rabs (1/10 * (-50)))) |}, [(Fin 0, p1); (Fin 0, p2)]).
Proof.
  assert (HA : affine 1 (fun _ p => map (xmul (Fin (-50))) p) 0 [[-50]] [0]).
  { split; [reflexivity|]. split; [reflexivity|]. intros [|a [|]] L; try discriminate. unfold radd, matvec. simpl. do 2 f_equal. ring. }
  apply (C26_eigenvector 1 _ 0 (1/10) [[-50]] [0] [1] [-50] [1] (1/10) 1000000 5000 4 [1/1000] (-50) HA); auto.
  - simpl. repeat f_equal. ring.
  - repeat constructor. lra.
  - lra.
  - unfold rscale. simpl. intros E. inversion E. lra.
  - unfold matvec, rscale. simpl. f_equal. ring.
  - unfold worth_testing. split.
    + replace (1/10 / (1/10)) with 1 by field. rewrite Rabs_R1. lra.
    + replace ((1000000 - 0) / (1/10)) with 10000000 by field. rewrite Rabs_right by lra.
      rewrite !INR_IZR_INZ. change (Z.of_nat 5000) with 5000%Z. change (Z.of_nat 4) with 4%Z. lra.
  - replace (1/10 * (-50)) with (-5) by field. rewrite Rabs_left by lra. split; [|lra].
    unfold cube_eps. assert (Rpower (/ 2 ^ 53) (1/3) <= 1); [|lra].
    assert (Hl : ln (/ 2 ^ 53) < 0).
    { rewrite <- ln_1. apply ln_increasing; [apply Rinv_0_lt_compat, pow_lt; lra|].
      rewrite <- Rinv_1. apply Rinv_lt_contravar; [rewrite Rmult_1_l; apply pow_lt; lra|]. apply Rlt_pow_R1; [lra|lia]. }
    assert (HE : exp (1/3 * ln (/ 2 ^ 53)) < exp 0) by (apply exp_increasing; lra). rewrite exp_0 in HE. unfold Rpower. lra.
Qed.

(** ** C27 *)
(** messages appear only in a step in which the diagnosis was due; in any arithmetic, for any method *)
Ltac nomsg := split; [reflexivity|split; [reflexivity|split; [lia|split; [intros HH; exfalso; apply HH; reflexivity|intros []]]]].
Lemma diagnose_notes {A : Arith} (m : Meth A) c s h yo s' : diagnose m c s h yo = inl s' ->
  exists ns, notes s' = (notes s ++ ns)%list /\ nfs s' = nfs s /\ (jflstp s' <= jflstp s)%nat /\
    (ns <> [] -> nfev_stiff_detect c <> 0%nat /\ okstp s' = S (okstp s) /\
      let many := Nat.div (nfev_stiff_detect c) (m_stages m) in
      (Nat.modulo (S (okstp s)) many = many - 1 \/ (Nat.modulo (S (okstp s)) 40 = 39 /\ 10 <= jflstp s))%nat) /\
    (In WarnOscillatory ns -> Nat.modulo (S (okstp s)) 40 = 39%nat /\ (10 <= jflstp s)%nat).
Proof.
  unfold diagnose. intros H.
  destruct (Nat.eqb_spec (nfev_stiff_detect c) 0) as [|Hn].
  { apply inl_inv in H. subst s'. exists []. rewrite app_nil_r. nomsg. }
  set (ok := S (okstp s)) in *.
  destruct (Nat.eqb_spec ok 20) as [E20|E20];
  destruct (Nat.eqb_spec (Nat.modulo ok 40) 39) as [E39|E39];
  destruct (Nat.eqb_spec (nfev_stiff_detect c / m_stages m) 0) as [|Hm]; try discriminate H.
  all: cbv zeta in H.
  1: { rewrite E20 in E39. discriminate E39. }
  all: match type of H with (if ?b then _ else _) = _ => destruct b eqn:ET end.
  all: try (apply inl_inv in H; subst s'; exists []; cbn [notes nfs jflstp okstp]; rewrite app_nil_r; nomsg; fail).
  all: match goal with ET : (?a || ?b)%bool = true |- _ => set (toomch := a) in *; set (lots := b) in * end.
  all: assert (HT : (Nat.modulo ok (nfev_stiff_detect c / m_stages m) = nfev_stiff_detect c / m_stages m - 1 \/ (Nat.modulo ok 40 = 39 /\ 10 <= jflstp s))%nat)
    by (apply orb_true_iff in ET; destruct ET as [ET|ET]; unfold toomch, lots in ET;
        [left; apply Nat.eqb_eq; exact ET|first [discriminate ET|right; split; [exact E39|apply Nat.leb_le; exact ET]]]).
  all: assert (HL : forall re, In WarnOscillatory (notes_unsure lots re) -> lots = true)
    by (intros re; unfold notes_unsure; destruct re as [[]|]; simpl; destruct lots; simpl; intuition discriminate).
  all: assert (HL2 : lots = true -> (Nat.modulo ok 40 = 39 /\ 10 <= jflstp s)%nat)
    by (unfold lots; first [discriminate|intros X; split; [exact E39|apply Nat.leb_le; exact X]]).
  all: destruct (m_stab m) as [|rad ta|sr si ta].
  all: repeat match type of H with context [stiff_a ?a ?b ?cc ?d ?e ?g ?i ?j ?k ?l ?o] => destruct (stiff_a a b cc d e g i j k l o) as [res ca] end.
  all: apply inl_inv in H; subst s'; cbn [notes nfs jflstp okstp].
  all: first [exists []; rewrite app_nil_r; nomsg; fail|eexists; split; [reflexivity|]].
  all: split; [reflexivity|]; split; [lia|]; split; [intros _; split; [exact Hn|]; split; [reflexivity|]; exact HT|].
  all: intros HI; apply HL2.
  all: unfold notes_rk, notes_rkn in HI.
  all: repeat match type of HI with In _ (match ?z with _ => _ end) => destruct z end.
  all: try (apply (HL _ HI)); try (simpl in HI; intuition discriminate).
  all: try (unfold notes_notstiff in HI; match type of HI with In _ (match ?z with _ => _ end) => destruct z as [[]|] end; simpl in HI; intuition discriminate).
Qed.

Lemma trial_notes {A : Arith} (m : Meth A) c s ha ms rej :
  match trial_step m c s ha ms rej with
  | Accept s1 _ _ _ _ _ | Reject s1 _ | Abort s1 _ =>
      notes s1 = notes s /\ okstp s1 = okstp s /\ (nfs s <= nfs s1)%nat /\ (jflstp s1 + nfs s <= jflstp s + nfs s1)%nat
  | TrialExn _ => True
  end.
Proof.
  unfold trial_step. destruct (nltb A ha ms); [repeat split; lia|].
  destruct (stages _ _ _ _ _ _ _ _) as [K1 c1]. destruct (m_pre m) as [g|].
  - destruct (g _ _ _) as [yp er]. destruct (nltb A n1 _).
    + cbn [with_trial notes okstp jflstp nfs]. destruct (Nat.eqb _ 0); repeat split; lia.
    + destruct (stages _ _ _ _ _ _ _ _) as [K2 c2]. destruct (comp_sol_err _ _ _ _ _ _ _) as [[[yn en] K3] c3].
      destruct (nltb A en n1).
      * destruct (accept_factor _ _ _ _ _) as [fac sc|]; [|exact I]. cbn [with_trial notes okstp jflstp nfs]. repeat split; lia.
      * destruct (negb ((nisnan A en || nisinf A en) && m_nan_first m));
        cbn [with_trial notes okstp jflstp nfs]; destruct (nisnan A en || nisinf A en); cbn [with_trial notes okstp jflstp nfs]; repeat split; lia.
  - destruct (comp_sol_err _ _ _ _ _ _ _) as [[[yn en] K3] c3]. destruct (nltb A en n1).
    + destruct (accept_factor _ _ _ _ _) as [fac sc|]; [|exact I]. cbn [with_trial notes okstp jflstp nfs]. repeat split; lia.
    + destruct (negb ((nisnan A en || nisinf A en) && m_nan_first m));
      cbn [with_trial notes okstp jflstp nfs]; destruct (nisnan A en || nisinf A en); cbn [with_trial notes okstp jflstp nfs]; repeat split; lia.
Qed.

(** what a step may add to the messages *)
Definition step_messages {A : Arith} (m : Meth A) (c : Cfg A) (s s' : St A) (ns : list note) : Prop :=
  notes s' = (notes s ++ ns)%list /\ (nfs s <= nfs s')%nat /\ (jflstp s' + nfs s <= jflstp s + nfs s')%nat /\
  (ns <> [] -> nfev_stiff_detect c <> 0%nat /\ okstp s' = S (okstp s) /\
     let many := Nat.div (nfev_stiff_detect c) (m_stages m) in
     (Nat.modulo (okstp s') many = many - 1 \/ Nat.modulo (okstp s') 40 = 39)%nat) /\
  (In WarnOscillatory ns -> Nat.modulo (S (okstp s)) 40 = 39%nat /\ (10 <= jflstp s + (nfs s' - nfs s))%nat).

Lemma loop_messages {A : Arith} (m : Meth A) c k : forall s ha ms rej s',
  (rk_loop k m c s ha ms rej = Done s' \/ exists msg, rk_loop k m c s ha ms rej = Fail s' msg) -> exists ns, step_messages m c s s' ns.
Proof.
  induction k as [|k IH]; intros s ha ms rej s' H; cbn [rk_loop] in H; [destruct H as [H|(msg & H)]; discriminate|].
  pose proof (trial_notes m c s ha ms rej) as HT.
  destruct (trial_step m c s ha ms rej) as [s1 h hn tn yn en|s1 hn|s1 msg|e].
  - destruct H as [H|(msg & H)]; [|unfold finish in H; destruct (if m_fsal m then _ else _) as [K4 c4]; destruct (diagnose _ _ _ _ _); discriminate].
    unfold finish in H. destruct (if m_fsal m then _ else _) as [K4 c4].
    match type of H with match ?d with _ => _ end = _ => destruct d as [s2|] eqn:ED; [|discriminate] end.
    inversion H; subst s2; clear H. apply diagnose_notes in ED. cbn [notes okstp jflstp nfs] in ED.
    destruct ED as (ns & E1 & E2 & E3 & E4 & E5). destruct HT as (T1 & T2 & T3 & T4). exists ns.
    unfold step_messages. rewrite E2. split; [rewrite E1, T1; reflexivity|]. split; [lia|]. split; [lia|]. split.
    + intros Hne. destruct (E4 Hne) as (X1 & X2 & X3). rewrite X2, T2 in *. split; [auto|]. split; [auto|]. destruct X3 as [X3|[X3 _]]; auto.
    + intros HI. destruct (E5 HI) as [X1 X2]. rewrite T2 in X1. split; [auto|lia].
  - destruct HT as (T1 & T2 & T3 & T4). destruct (IH _ _ _ _ _ H) as (ns & (E1 & E2 & E3 & E4 & E5)). exists ns.
    split; [rewrite E1, T1; reflexivity|]. split; [lia|]. split; [lia|]. rewrite T2 in *. split; [exact E4|].
    intros HI. destruct (E5 HI). split; [auto|lia].
  - destruct H as [H|(msg' & H)]; [discriminate|]. inversion H; subst. destruct HT as (T1 & T2 & T3 & T4). exists [].
    split; [rewrite app_nil_r; auto|]. split; [lia|]. split; [lia|]. split; [congruence|intros []].
  - destruct H as [H|(msg & H)]; discriminate.
Qed.

Lemma ode_messages {A : Arith} (m : Meth A) c k v v' : ode_step k m c v = StepOk v' -> exists ns, step_messages m c (st v) (st v') ns.
Proof.
  unfold ode_step. destruct (stat v); try discriminate. destruct (_ || _).
  - intros H. inversion H; subst. exists []. unfold step_messages. cbn [st notes okstp jflstp nfs]. split; [rewrite app_nil_r; auto|].
    split; [lia|]. split; [lia|]. split; [congruence|intros []].
  - destruct (step_impl k m c (st v)) as [s'|s' msg|e|] eqn:E; try discriminate; intros H; inversion H; subst; cbn [st];
    unfold step_impl in E; destruct (reassess_stepsize c (st v)) as [[h ms] sc];
    [destruct (loop_messages m c k _ _ _ _ _ (or_introl E)) as (ns & HN)|destruct (loop_messages m c k _ _ _ _ _ (or_intror (ex_intro _ _ E))) as (ns & HN)];
    exists ns; exact HN.
Qed.

(** For every method, arithmetic and history: messages are only added by step() calls after
    which the number of accepted steps is one less than a multiple of
    nfev_stiff_detect // n_stages or of 40, never when nfev_stiff_detect = 0; the "oscillatory"
    warning needs at least ten failed trial steps since construction. *)
Theorem C27_only_when_diagnosed {A : Arith} (m : Meth A) c v0 n v k v' :
  history m c v0 n v -> jflstp (st v0) = 0%nat -> ode_step k m c v = StepOk v' ->
  exists ns, notes (st v') = (notes (st v) ++ ns)%list /\
    (ns <> [] -> nfev_stiff_detect c <> 0%nat /\ okstp (st v') = S (okstp (st v)) /\
       let many := Nat.div (nfev_stiff_detect c) (m_stages m) in
       (Nat.modulo (okstp (st v')) many = many - 1 \/ Nat.modulo (okstp (st v')) 40 = 39)%nat) /\
    (In WarnOscillatory ns -> (10 <= nfs (st v') - nfs (st v0))%nat).
Proof.
  intros HH H0 HS.
  assert (HJ : (nfs (st v0) <= nfs (st v))%nat /\ (jflstp (st v) + nfs (st v0) <= nfs (st v))%nat).
  { clear HS. induction HH as [v|v n v1 v2 kk HH IH HS]; [lia|]. destruct (IH H0) as [I1 I2].
    destruct (ode_messages m c kk v1 v2 HS) as (ns & (_ & E2 & E3 & _)). lia. }
  destruct (ode_messages m c k v v' HS) as (ns & (E1 & E2 & E3 & E4 & E5)). exists ns.
  split; [exact E1|]. split; [exact E4|]. intros HI. destruct (E5 HI) as [_ E]. lia.
Qed.

(** the meaning of the two "stiff" warnings of the Runge-Kutta classes, for a diagnosis with finite roots *)
Theorem C27_stiff_means stbrad tanang lotsfl r1 r2 rho st0 re0 :
  let res := {| stif := st0; rootre := re0; roots := Some ((Fin (fst r1), Fin (snd r1)), (Fin (fst r2), Fin (snd r2)), Fin rho) |} in
  let ns := notes_rk lotsfl (decide_rk (Fin stbrad) (Fin tanang) (A := RX) res) in
  (In WarnStiffReal ns <-> snd r1 = 0 /\ fst r1 <= 0 /\ 9/10 * stbrad <= rho /\ ~ (9/10 * rho <= sqrt (cabs2 r2) /\ 0 < fst r2) /\ Rabs (snd r1) <= Rabs (fst r1) * tanang) /\
  (In WarnStiffComplex ns <-> snd r1 <> 0 /\ fst r1 <= 0 /\ 9/10 * stbrad <= rho /\ ~ (9/10 * rho <= sqrt (cabs2 r2) /\ 0 < fst r2) /\ Rabs (snd r1) <= Rabs (fst r1) * tanang).
Proof.
  cbv zeta. unfold decide_rk. cbn [roots fst snd]. rewrite n0_RX. unfold sq. cbn [neqb RX xeqb nltb xltb nmul xmul nadd xadd].
  change (nsqrt RX) with xsqrt. fold (cabs2 r2).
  assert (Hc : 0 <= cabs2 r2) by (unfold cabs2; nra). rewrite (xsqrt_nn (cabs2 r2) Hc).
  replace (@lit RX (9#10)) with (Fin (9/10)) by (symmetry; litR). cbn [nabs RX xabs xmul nleb xleb xltb].
  destruct (Reqb_spec (snd r1) 0) as [E|E]; destruct (Rltb_spec 0 (fst r1)) as [H1|H1];
   destruct (Rleb_spec (9/10 * rho) (sqrt (cabs2 r2))) as [H2|H2]; destruct (Rltb_spec 0 (fst r2)) as [H3|H3];
   destruct (Rltb_spec (Rabs (fst r1) * tanang) (Rabs (snd r1))) as [H4|H4]; destruct (Rleb_spec (9/10 * stbrad) rho) as [H5|H5];
   cbn [andb notes_rk fst snd notes_notstiff notes_unsure]; try destruct lotsfl; cbn [app In];
   (split; (split; [intros HI; simpl in HI; try (exfalso; intuition discriminate); repeat split; try lra; auto; intros [? ?]; lra
                  |intros (X1 & X2 & X3 & X4 & X5); try (exfalso; first [lra|tauto|congruence]); auto])).
Qed.
(** ... so, for an affine problem, such a warning certifies that havg J has an approximate
    eigenvalue (relative residual 1e-3) of magnitude at least 0.9 stbrad in the left half plane *)

(** *** refuted: "non-convergence is silent" (comment at common.py 464-466) *)
Theorem C27_silent_when_unsure_refuted {A : Arith} (stbrad tanang : num A) :
  stif (@unsure A) = None /\ roots (@unsure A) = None /\ In WarnOscillatory (notes_rk true (decide_rk stbrad tanang (@unsure A))).
Proof. split; [reflexivity|]. split; [reflexivity|]. cbn. auto. Qed.

(** a run: y' = g(t), one component, zero Jacobian; after 79 steps the user is told the problem
    has a complex pair of dominant roots near the imaginary axis *)
Definition spikes : num QX -> list (num QX) -> list (num QX) :=
  fun t _ => [match t with QF q => let z := Qred (q * (5#2)) in let fr := Qmake (Z.modulo (Qnum z) (Zpos (Qden z))) (Qden z) in
     if Qle_bool (3#10) fr && Qle_bool fr (7#20) then QF 1000000 else QF 0 | _ => QF 0 end].
Definition spike_opts : Opts QX := let o := mkopts (QF 1) (QF 1) (QF 1) (@ScNone QX) in
  {| o_max_step := o_max_step o; o_rtol := o_rtol o; o_rtol_is_float := o_rtol_is_float o; o_atol := o_atol o;
     o_first_step := o_first_step o; o_stiff := 5000; o_sc := o_sc o |}.
Fixpoint chk_steps (n : nat) (m : Meth QX) (c : Cfg QX) (v : Solver QX) (P : Solver QX -> bool) : bool :=
  match n with O => P v | S n' => chk_step 40 m c v (fun v' => chk_steps n' m c v' P) end.
Lemma chk_steps_spec m c P : forall n v0 j v, history m c v0 j v -> chk_steps n m c v P = true -> exists v', history m c v0 (n + j) v' /\ P v' = true.
Proof.
  induction n; intros v0 j v HH HC; cbn [chk_steps] in HC; [eauto|].
  destruct (chk_step_spec _ _ _ _ _ HC) as (v1 & HS & HC'). destruct (IHn v0 (S j) v1 (histS _ _ _ _ _ _ _ HH HS) HC') as (v' & H1 & H2).
  exists v'. split; [|exact H2]. replace (S n + j)%nat with (n + S j)%nat by lia. exact H1.
Qed.
Theorem C27_false_alarm_refuted : exists c s v, rk_init Me4_cls spike_opts spikes (QF 0) [QF 0] (QF 100000) = inl (c, s) /\
  history (Me4_meth 1) c (new_solver s) 79 v /\ stat v = Running /\ In WarnOscillatory (notes (st v)).
Proof.
  destruct (chk_init_spec Me4_cls spike_opts spikes (QF 0) [QF 0] (QF 100000)
    (fun c s => chk_steps 79 (Me4_meth 1) c (new_solver s) (fun v => is_run (stat v) &&
       existsb (fun w => match w with WarnOscillatory => true | _ => false end) (notes (st v))))) as (c & s & HI & HC).
  { vm_compute. reflexivity. }
  destruct (chk_steps_spec _ _ _ 79 (new_solver s) 0 (new_solver s) (hist0 _ _ _) HC) as (v & HH & HP).
  apply andb_true_iff in HP. destruct HP as [P1 P2]. apply existsb_exists in P2. destruct P2 as (w & W1 & W2). destruct w; try discriminate W2.
  exists c, s, v. split; [exact HI|]. split; [exact HH|]. split; [apply is_run_spec; exact P1|exact W1].
Qed.

(** *** refuted: Nystrom methods: "a problem diagnosed as stiff is reported" *)
Theorem C27_nystrom_silent_refuted stbre stbim tanang lotsfl r1 r2 rho st0 re0 :
  fst r1 <= 0 -> snd r1 <> 0 -> 85/100 * stbre <= Rabs (fst r1) < 9/10 * stbre -> Rabs (snd r1) < 9/10 * stbim ->
  Rabs (snd r1) <= Rabs (fst r1) * tanang -> fst r2 <= 0 ->
  let res := {| stif := st0; rootre := re0; roots := Some ((Fin (fst r1), Fin (snd r1)), (Fin (fst r2), Fin (snd r2)), Fin rho) |} in
  let d := decide_rkn (A := RX) (Fin stbre) (Fin stbim) (Fin tanang) res in
  fst d = Some true /\ Forall (fun w => is_warning w = false) (notes_rkn (A := RX) (Fin stbre) (Fin stbim) lotsfl res d).
Proof.
  intros H1 H2 H3 H4 H5 H6. cbv zeta. unfold decide_rkn. cbn [roots fst snd]. rewrite n0_RX. unfold sq. cbn [neqb RX xeqb nltb xltb nmul xmul nadd xadd].
  destruct (Reqb_spec (snd r1) 0); [contradiction|]. destruct (Rltb_spec 0 (fst r1)); [lra|].
  destruct (Rltb_spec 0 (fst r2)); [lra|]. rewrite andb_false_r. cbn [nabs RX xabs xmul nleb xleb xltb].
  destruct (Rltb_spec (Rabs (fst r1) * tanang) (Rabs (snd r1))); [lra|].
  replace (@lit RX (9#10)) with (Fin (9/10)) by (symmetry; litR). replace (@lit RX (85#100)) with (Fin (85/100)) by (symmetry; litR).
  cbn [xmul xleb]. destruct (Rleb_spec (85/100 * stbre) (Rabs (fst r1))); [|lra]. cbn [orb fst snd notes_rkn roots]. split; [reflexivity|].
  replace (@lit RX (9#10)) with (Fin (9/10)) by (symmetry; litR). cbn [nmul RX xmul nabs xabs nleb xleb].
  destruct (Rleb_spec (9/10 * stbre) (Rabs (fst r1))); [lra|]. destruct (Rleb_spec (9/10 * stbim) (Rabs (snd r1))); [lra|]. repeat constructor.
Qed.
(** Fi4N (stbre = 3/2, stbim = 4, tanang = 40): the pair -1.3 +- i *)
Example C27_nystrom_case lotsfl : let res := {| stif := None; rootre := Some false; roots := Some ((Fin (-13/10), Fin 1), (Fin (-13/10), Fin (-1)), Fin (sqrt (269/100))) |} in
  match @Fi4N_stab RX with StabRKN a b c => fst (decide_rkn a b c res) = Some true /\
     Forall (fun w => is_warning w = false) (notes_rkn a b lotsfl res (decide_rkn a b c res)) | _ => False end.
Proof.
  assert (E : @Fi4N_stab RX = StabRKN (Fin (3/2)) (Fin 4) (Fin 40)) by (unfold Fi4N_stab, Fi4N_stbre, Fi4N_stbim, Fi4N_tanang; f_equal; litR). rewrite E.
  apply (C27_nystrom_silent_refuted (3/2) 4 40 lotsfl (-13/10, 1) (-13/10, -1)); cbn [fst snd]; rewrite ?Rabs_R1; rewrite ?(Rabs_left (-13/10)) by lra; lra.
Qed.

(** ** C28 *)
(** the automatic first step: non-zero, towards b, bounded by the interval; at most 4 evaluations, at a or a + da *)
Theorem C28_first_step df (a b : R) (y yprime : list (num RX)) morder (rtol : num RX) atol J T : a <> b -> y <> [] ->
  exists h cl, @h_start RX df (Fin a) (Fin b) y yprime morder rtol atol J T = (Fin h, cl) /\
    h <> 0 /\ 0 < h * (b - a) /\ Rabs h <= Rmax (Rabs (b - a)) (100 * (/ 2 ^ 53 + / 2 ^ 105) * Rabs a) /\
    (length cl <= 4)%nat /\
    Forall (fun p => fst p = Fin a \/ fst p = xadd (Fin a) (@hs_da RX (Fin a) (Fin (b - a)))) cl.
Proof.
  intros H1 H2. destruct (h_start_spec df a b y yprime morder rtol atol J T H1 H2) as (h & cl & E & HP & HB & HL & HF).
  exists h, cl. split; [exact E|]. split; [intros ->; lra|]. repeat (split; [assumption|]). exact HF.
Qed.

(** ** C43 *)
(** every instance of Mu5Nmb in a process uses the estimate times 0.75 to the number of
    constructor calls so far with scale_embedded, whatever its own option was *)
Theorem C43_estimate_of_process flags n (h : R) (ks : list (list R)) :
  exists e, m_err (Mu5Nmb_meth n) (Fin h) (map (map Fin) ks) = map Fin e /\
    m_err (mu5_meth (mu5_process flags) n) (Fin h) (map (map Fin) ks)
    = map Fin (map (Rmult ((3/4) ^ count_occ bool_dec flags true)) e).
Proof. exact (process_estimate flags n h ks). Qed.

(** refuted: "the estimate of an instance depends only on its own options": the same call, made
    as the first or as the second constructor call, and the call with scale_embedded=False after another one *)
Theorem C43_instances_independent_refuted : exists (ks : list (list R)) (e : R), e <> 0 /\
  (let est flags := m_err (mu5_meth (mu5_process flags) 1) (Fin 1) (map (map Fin) ks) in
   nth 1 (est [true]) NaN = Fin (3/4 * e) /\ nth 1 (est [true; true]) NaN = Fin (9/16 * e) /\ nth 1 (est [false]) NaN = Fin e /\ nth 1 (est [true; false]) NaN = Fin (3/4 * e)).
Proof.
  set (ks := [[1]] : list (list R)). exists ks.
  assert (He : exists e1 e, e <> 0 /\ m_err (Mu5Nmb_meth 1) (Fin 1) (map (map Fin) ks) = map Fin [e1; e]).
  { exists (0 + 1 * 1 * (Q2R (hd 0%Q Mu5Nmb_E) * 1)), (1 * (Q2R (hd 0%Q Mu5Nmb_Ep) * 1)). split.
    - assert (E : Q2R (hd 0%Q Mu5Nmb_Ep) <> 0); [|lra]. intros E. apply (f_equal (fun z => z)) in E.
      rewrite <- RMicromega.Q2R_0 in E. apply eqR_Qeq in E. vm_compute in E. discriminate E.
    - unfold ks, Mu5Nmb_meth. cbn [rkn_meth m_err]. unfold rkn_err, Mu5Nmb_tab, mk_tabn. cbn [n_E n_Ep]. unfold lincomb.
      change (@lv RX Mu5Nmb_E) with (Fin (Q2R (hd 0%Q Mu5Nmb_E)) :: @lv RX (tl Mu5Nmb_E)).
      change (@lv RX Mu5Nmb_Ep) with (Fin (Q2R (hd 0%Q Mu5Nmb_Ep)) :: @lv RX (tl Mu5Nmb_Ep)).
      cbn [map combine]. set (l1 := @lv RX (tl Mu5Nmb_E)). set (l2 := @lv RX (tl Mu5Nmb_Ep)).
      set (q1 := Q2R (hd 0%Q Mu5Nmb_E)). set (q2 := Q2R (hd 0%Q Mu5Nmb_Ep)). clearbody l1 l2 q1 q2.
      assert (C : forall l : list (num RX), combine l (@nil (list (num RX))) = []) by (destruct l; reflexivity). rewrite !C.
      rewrite n0_RX. cbn [fold_left fst snd repeat vadd vscale map map2 nadd nmul RX xadd xmul app].
      apply f_equal2; [apply f_equal; ring|]. apply f_equal2; [apply f_equal; ring|reflexivity]. }
  destruct He as (e1 & e & Hne & E). exists e. split; [exact Hne|].
  assert (HP : forall flags, nth 1 (m_err (mu5_meth (mu5_process flags) 1) (Fin 1) (map (map Fin) ks)) NaN = Fin ((3/4) ^ count_occ bool_dec flags true * e)).
  { intros flags. destruct (process_estimate flags 1 1 ks) as (ee & H1 & H2). rewrite E in H1.
    assert (Hee : ee = [e1; e]) by (apply FV_inj; symmetry; exact H1). rewrite Hee in H2. rewrite H2. reflexivity. }
  assert (HC : forall f n, count_occ bool_dec f true = n -> nth 1 (m_err (mu5_meth (mu5_process f) 1) (Fin 1) (map (map Fin) ks)) NaN = Fin ((3/4) ^ n * e)) by (intros f n <-; exact (HP f)).
  cbv zeta. split; [refine (eq_trans (HC [true] 1%nat eq_refl) _)|split; [refine (eq_trans (HC [true; true] 2%nat eq_refl) _)|
    split; [refine (eq_trans (HC [false] 0%nat eq_refl) _)|refine (eq_trans (HC [true; false] 1%nat eq_refl) _)]]]; cbn [pow]; apply f_equal; field.
Qed.
