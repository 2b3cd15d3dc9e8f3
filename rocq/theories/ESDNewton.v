(** Newton's iteration of the implicit solvers in exact arithmetic: what is known of the stages of an accepted step. *)
From Coquelicot Require Import Coquelicot.
From Coq Require Import String ZArith Reals Lra Psatz QArith Qreals Bool Lia List Arith.
From Verif Require Import Arith Common Stiff RK HStart RKInit Ode RX RKReal RKInitReal NormReal Prop_Tol Series OrderRK OrderModel Tableaux Classes Dense DenseReal SpecCtl
  ESDIRK ESDCls ESDGen ESDReal ESDStep ESDTop ESDLin ESDLin2 ESDLin3 ESDAcc SpecESD ESDCtl.
Import ListNotations.
Close Scope string_scope. Open Scope nat_scope. Open Scope R_scope.

(** ** Specification *)
(** the weights atol + rtol max(|y|, |u|) and the weighted root mean square *)
Definition weights (al : list R) (rt : R) (y u : list R) : list R := map2 Rplus al (map (Rmult rt) (map2 (fun a b => Rmax (Rabs a) (Rabs b)) y u)).
Definition wnorm (w x : list R) : R := rms (map2 Rdiv x w).
(** z is reached from z0 by corrections with sizes ds (the latest first) *)
Inductive newton_path (corr : list R -> list R -> Prop) (sz : list R -> list R -> R) (z0 : list R) : list R -> list R -> Prop :=
| np_start : newton_path corr sz z0 z0 []
| np_next z ds dz : newton_path corr sz z0 z ds -> corr z dz -> newton_path corr sz z0 (radd z dz) (sz z dz :: ds).
(** the largest ratio of successive sizes; the first is always used, others only if the earlier size exceeds kappa *)
Fixpoint observed (kappa : R) (ds : list R) : R :=
  match ds with
  | d :: ds' => match ds' with
                | [] => 0
                | d0 :: [] => d / d0
                | d0 :: _ => if Rlt_dec kappa d0 then Rmax (observed kappa ds') (d / d0) else observed kappa ds'
                end
  | [] => 0
  end.
(** the last correction is negligible, or a contraction r was observed and the error left, d r / (1 - r), is below kappa *)
Definition settled (kappa tiny : R) (ds : list R) (d : R) : Prop :=
  d <= tiny \/ (ds <> [] /\ observed kappa (d :: ds) < 1 /\ d * observed kappa (d :: ds) < kappa * (1 - observed kappa (d :: ds))).

(** ** real values *)
Lemma radd_len u v : length u = length v -> length (radd u v) = length u.
Proof. unfold radd. revert v. induction u as [|a u IH]; intros [|b v] H; cbn [map2 length] in *; try discriminate; auto. Qed.
Lemma Fmap_inj : forall a b, map Fin a = map Fin b -> a = b.
Proof. induction a as [|x a IH]; intros [|z b] H; cbn in H; try discriminate; auto. injection H as -> H. f_equal. auto. Qed.
Lemma vadd_real (a b : list R) : @vadd RX (map Fin a) (map Fin b) = map Fin (radd a b).
Proof. unfold vadd, radd. revert b. induction a as [|x a IH]; intros [|z b]; cbn [map map2]; auto. f_equal. apply IH. Qed.
Lemma vscale_real d (a : list R) : @vscale RX (Fin d) (map Fin a) = map Fin (map (Rmult d) a).
Proof. unfold vscale. rewrite !map_map. reflexivity. Qed.
Lemma vdiv_real (a w : list R) : Forall (fun x => 0 < x) w -> @vdiv RX (map Fin a) (map Fin w) = map Fin (map2 Rdiv a w).
Proof.
  intros H. unfold vdiv. revert a. induction H as [|x w Hx H IH]; intros [|z a]; cbn [map map2]; auto. f_equal; [|apply IH].
  cbn [ndiv RX xdiv]. destruct (Req_EM_T x 0); [lra|reflexivity].
Qed.
Lemma weights_pos al rt y u : Forall (fun a => 0 < a) al -> 0 <= rt -> Forall (fun x => 0 < x) (weights al rt y u).
Proof.
  intros H Hr. unfold weights. revert y u. induction H as [|a al Ha H IH]; intros [|b y] [|e u]; cbn [map map2]; try constructor; [|apply IH].
  assert (0 <= Rmax (Rabs b) (Rabs e)) by (eapply Rle_trans; [apply Rabs_pos|apply Rmax_l]). nra.
Qed.
Lemma m2len {X Y Z} (g : X -> Y -> Z) : forall a b, length a = length b -> length (map2 g a b) = length a.
Proof. induction a; intros [|b l] H; cbn in *; try discriminate; auto. Qed.
Lemma weights_len al rt y u : length al = length y -> length u = length y -> length (weights al rt y u) = length y.
Proof. intros H1 H2. assert (E : length (map2 (fun a b => Rmax (Rabs a) (Rabs b)) y u) = length y) by (apply m2len; auto). unfold weights. rewrite m2len; [exact H1|]. rewrite map_length, E. exact H1. Qed.

(** the tolerances of a configuration *)
Record tols (c : ECfg RX) (al : list R) (rt : R) : Prop := {
  tl_a : bcast (x_atol c) (x_n c) = map Fin al; tl_l : length al = x_n c; tl_p : Forall (fun a => 0 < a) al; tl_r : x_rtol c = Fin rt; tl_rp : 0 <= rt }.

Section Newton.
Variables (m : EMeth RX) (c : ECfg RX) (L : list (list xr)) (Sc : option (list (list xr))) (g : Stage RX).
Variables (al : list R) (rt kappa tiny d : R) (y psi : list R).
Hypothesis HT : tols c al rt.
Hypothesis Hk : em_kappa m = Fin kappa.
Hypothesis Hd : em_d m = Fin d.
Hypothesis Htiny : x_tiny c = Fin tiny.
Hypothesis Htp : 0 < tiny.
Hypothesis Ey : g_y g = map Fin y.
Hypothesis Ly : length y = x_n c.
Hypothesis Epsi : g_psi g = map Fin psi.
Hypothesis Lpsi : length psi = x_n c.
Hypothesis Hn : (0 < x_n c)%nat.
Hypothesis Hsol : forall b x, x_solve c L b = Some x -> length x = x_n c.

Definition point (z : list R) : list R := radd psi (map (Rmult d) z).
Definition dsize (z dz : list R) : R := wnorm (weights al rt y (point z)) dz.
Definition rcorr (z dz : list R) : Prop := corrects m c L Sc g (map Fin z) (map Fin dz).

Lemma point_len z : length z = x_n c -> length (point z) = x_n c.
Proof. intros H. unfold point. rewrite radd_len; [exact Lpsi|]. rewrite map_length. lia. Qed.
Lemma arg_real z : length z = x_n c -> arg m g (map Fin z) = map Fin (point z).
Proof. intros H. unfold arg. rewrite Hd, Epsi, vscale_real, vadd_real. reflexivity. Qed.
Lemma gauge_real z dz : length z = x_n c -> length dz = x_n c -> gauge m c g (map Fin z) (map Fin dz) = Fin (dsize z dz) /\ 0 <= dsize z dz.
Proof.
  intros H1 H2. split; [|apply rms_nonneg]. unfold gauge. rewrite (arg_real z H1), Ey, (tl_r _ _ _ HT).
  assert (EC : calculate_scale (x_atol c) (Fin rt) (map Fin y) (map Fin (point z)) = map Fin (weights al rt y (point z))).
  { assert (EA : bcast (x_atol c) (@length (num RX) (map Fin y)) = map Fin al) by (rewrite (map_length (Fin : R -> num RX)), Ly; exact (tl_a _ _ _ HT)).
    unfold calculate_scale. rewrite EA. apply scale_nth; [rewrite point_len by exact H1; exact Ly|]. rewrite (tl_l _ _ _ HT). auto. }
  rewrite EC. rewrite vdiv_real by (apply weights_pos; [exact (tl_p _ _ _ HT)|exact (tl_rp _ _ _ HT)]). apply norm_fin.
  intros E. apply (f_equal (@length R)) in E. rewrite m2len in E; [cbn in E; lia|]. rewrite weights_len; [lia|rewrite (tl_l _ _ _ HT); auto|rewrite point_len by exact H1; auto].
Qed.
Lemma rate_real : forall ds, Forall (fun x => tiny < x) ds -> (2 <= length ds)%nat -> rate_of m (map Fin ds) = Fin (observed kappa ds) /\ 0 < observed kappa ds.
Proof.
  induction ds as [|e ds IH]; intros HF HL; [cbn in HL; lia|]. destruct ds as [|e0 ds]; [cbn in HL; lia|].
  assert (He : tiny < e) by (inversion HF; auto). assert (HF' : Forall (fun x => tiny < x) (e0 :: ds)) by (inversion HF; auto). assert (He0 : tiny < e0) by (inversion HF'; auto).
  assert (EQ : xdiv (Fin e) (Fin e0) = Fin (e / e0)) by (cbn [xdiv]; destruct (Req_EM_T e0 0); [lra|reflexivity]).
  assert (HQ : 0 < e / e0) by (apply Rdiv_lt_0_compat; lra).
  destruct ds as [|e1 ds].
  - split; [|exact HQ]. change (rate_of m (map Fin [e; e0])) with (if (xltb NInf (Fin 0)) || xltb (em_kappa m) (Fin e0) then @pymax RX NInf (xdiv (Fin e) (Fin e0)) else NInf).
    cbn [xltb orb]. rewrite EQ. reflexivity.
  - destruct (IH HF' ltac:(cbn [length]; lia)) as (E1 & E2). set (ds1 := e0 :: e1 :: ds) in *.
    change (rate_of m (map Fin (e :: ds1))) with (let r := rate_of m (map Fin ds1) in if (xltb r n0) || xltb (em_kappa m) (Fin e0) then @pymax RX r (xdiv (Fin e) (Fin e0)) else r).
    change (observed kappa (e :: ds1)) with (if Rlt_dec kappa e0 then Rmax (observed kappa ds1) (e / e0) else observed kappa ds1).
    cbv zeta. rewrite E1, Hk, EQ, n0_RX. cbn [xltb]. replace (Rltb (observed kappa ds1) 0) with false by (unfold Rltb; destruct (Rlt_dec (observed kappa ds1) 0); [lra|reflexivity]). cbn [orb].
    unfold Rltb. destruct (Rlt_dec kappa e0); [|auto]. split; [|eapply Rlt_le_trans; [exact E2|apply Rmax_l]].
    unfold pymax. change (nltb RX) with xltb. cbn [xltb]. unfold Rltb. destruct (Rlt_dec (observed kappa ds1) (e / e0)); [rewrite Rmax_right by lra|rewrite Rmax_left by lra]; reflexivity.
Qed.

Lemma conv_back : forall ds z z' r n, converges m c L Sc g ds z z' r n -> length z = x_n c -> length z' = x_n c /\ (Forall isF z' -> Forall isF z).
Proof.
  assert (B : forall z dz b, x_solve c L b = Some dz -> length z = x_n c -> length (@vadd RX z dz) = x_n c /\ (Forall isF (@vadd RX z dz) -> Forall isF z /\ Forall isF dz)).
  { intros z dz b Hs Lz. pose proof (Hsol _ _ Hs) as Ld. split; [apply vadd_len; [exact Lz|exact Ld]|]. intros HF. split.
    - eapply (map2_F1 xadd); [|apply Nat.eq_le_incl; exact (eq_trans Lz (eq_sym Ld))|exact HF]. intros p q Hpq. apply (xadd_F _ _ Hpq).
    - eapply (map2_F xadd); [|apply Nat.eq_le_incl; exact (eq_trans Ld (eq_sym Lz))|exact HF]. intros p q Hpq. apply (xadd_F _ _ Hpq). }
  intros ds z z' r n H. induction H as [z dz E (_ & C)|ds z dz E E2 (_ & C) E3|ds z dz E E2 (_ & C) E3 E4 E5|ds z dz z' r n E (_ & C) E2 H IH]; intros Lz.
  1-3: destruct (B _ _ _ C Lz) as (B1 & B2); split; [exact B1|intros HF; apply (B2 HF)].
  destruct (B _ _ _ C Lz) as (B1 & B2). destruct (IH B1) as (I1 & I2). split; [exact I1|]. intros HF. exact (proj1 (B2 (I2 HF))).
Qed.
Lemma corr_back z dz : length z = x_n c -> corrects m c L Sc g z dz -> Forall isF (@vadd RX z dz) -> exists zr dr, z = map Fin zr /\ dz = map Fin dr /\ length zr = x_n c /\ length dr = x_n c.
Proof.
  intros Lz (_ & C) HF. pose proof (Hsol _ _ C) as Ld.
  assert (F1 : Forall isF z). { eapply (map2_F1 xadd); [|apply Nat.eq_le_incl; exact (eq_trans Lz (eq_sym Ld))|exact HF]. intros p q Hpq. apply (xadd_F _ _ Hpq). }
  assert (F2 : Forall isF dz). { eapply (map2_F xadd); [|apply Nat.eq_le_incl; exact (eq_trans Ld (eq_sym Lz))|exact HF]. intros p q Hpq. apply (xadd_F _ _ Hpq). }
  destruct (all_reals _ F1) as [zr ->]. destruct (all_reals _ F2) as [dr ->]. exists zr, dr. split; [reflexivity|]. split; [reflexivity|].
  split; [exact (eq_trans (eq_sym (map_length Fin zr)) Lz)|exact (eq_trans (eq_sym (map_length Fin dr)) Ld)].
Qed.

Lemma conv_real z0 : forall ds z z' r n, converges m c L Sc g ds z z' r n -> x_linear c = false -> Forall isF z' -> length z = x_n c ->
  forall zr dr, z = map Fin zr -> ds = map Fin dr -> Forall (fun x => tiny < x) dr -> newton_path rcorr dsize z0 zr dr -> (length dr < NEWTON_MAXITER)%nat ->
  exists zl dl dz, newton_path rcorr dsize z0 zl dl /\ rcorr zl dz /\ (length dl < NEWTON_MAXITER)%nat /\ Forall (fun x => tiny < x) dl /\
    length zl = x_n c /\ length dz = x_n c /\ z' = map Fin (radd zl dz) /\ settled kappa tiny dl (dsize zl dz).
Proof.
  intros ds z z' r n H. induction H as [z dz E C|ds z dz E E2 C E3|ds z dz E E2 C E3 E4 E5|ds z dz z' r n E C E2 H IH]; intros Hl HF Lz zr dr Ez Ed HP HN HM; [congruence| | |].
  - destruct (corr_back _ _ Lz C HF) as (zr' & dzr & -> & -> & Lz' & Ldz). apply Fmap_inj in Ez. subst zr'.
    destruct (gauge_real zr dzr Lz' Ldz) as (EG & _). exists zr, dr, dzr. split; [exact HN|]. split; [exact C|]. split; [exact HM|]. split; [exact HP|]. split; [exact Lz'|]. split; [exact Ldz|]. split; [apply vadd_real|].
    apply or_introl. rewrite EG, Htiny in E3. cbn [nleb RX xleb] in E3. unfold Rleb in E3. destruct (Rle_dec (dsize zr dzr) tiny); [assumption|discriminate].
  - destruct (corr_back _ _ Lz C HF) as (zr' & dzr & -> & -> & Lz' & Ldz). apply Fmap_inj in Ez. subst zr'.
    destruct (gauge_real zr dzr Lz' Ldz) as (EG & _). exists zr, dr, dzr. split; [exact HN|]. split; [exact C|]. split; [exact HM|]. split; [exact HP|]. split; [exact Lz'|]. split; [exact Ldz|]. split; [apply vadd_real|].
    apply or_intror. rewrite EG, Htiny in E3. cbn [nleb RX xleb] in E3. unfold Rleb in E3. destruct (Rle_dec (dsize zr dzr) tiny) as [|NT]; [discriminate|]. apply Rnot_le_lt in NT.
    rewrite Ed, map_length in E2. rewrite EG, Ed in E4, E5. split; [intros ->; cbn in E2; lia|].
    assert (HP2 : Forall (fun x => tiny < x) (dsize zr dzr :: dr)) by (constructor; auto).
    destruct (rate_real _ HP2 ltac:(cbn [length]; lia)) as (ER & EP).
    unfold slow in E4. unfold fast in E5. change (Fin (dsize zr dzr) :: map Fin dr)%list with (map Fin (dsize zr dzr :: dr)) in E4, E5. rewrite ER in E4, E5. rewrite Hk in E5. rewrite n1_RX in E4, E5.
    set (rho := observed kappa (dsize zr dzr :: dr)) in *. apply orb_false_iff in E4. destruct E4 as (E4 & _).
    change (xleb (Fin 1) (Fin rho) = false) in E4. cbn [xleb] in E4. unfold Rleb in E4. destruct (Rle_dec 1 rho); [discriminate|].
    split; [lra|]. change (xltb (xmul (Fin (dsize zr dzr)) (Fin rho)) (xmul (Fin kappa) (xsub (Fin 1) (Fin rho))) = true) in E5. cbn [xmul xsub xadd xopp xltb] in E5. unfold Rltb in E5.
    destruct (Rlt_dec _ _); [lra|discriminate].
  - destruct C as (C0 & C1). pose proof (Hsol _ _ C1) as Ld0. assert (Lv : length (@vadd RX z dz) = x_n c) by (apply vadd_len; [exact Lz|exact Ld0]).
    destruct (conv_back _ _ _ _ _ H Lv) as (_ & CB). specialize (CB HF).
    destruct (corr_back _ _ Lz (conj C0 C1) CB) as (zr' & dzr & -> & -> & Lz' & Ldz). apply Fmap_inj in Ez. subst zr'.
    destruct (gauge_real zr dzr Lz' Ldz) as (EG & _). destruct E2 as (E2 & _). rewrite EG, Htiny in E2. cbn [nleb RX xleb] in E2. unfold Rleb in E2. destruct (Rle_dec (dsize zr dzr) tiny) as [|NT]; [discriminate|]. apply Rnot_le_lt in NT.
    destruct (Nat.eq_dec (S (length dr)) NEWTON_MAXITER) as [EM|NM].
    { exfalso. rewrite Ed in H. clear - H EM. assert (G : forall ds z z' r n, converges m c L Sc g ds z z' r n -> (length ds < NEWTON_MAXITER)%nat).
      { intros ds1 z1 z2 r1 n1 H1. induction H1; cbn [length] in *; unfold NEWTON_MAXITER in *; lia. } apply G in H. cbn [length] in H. rewrite map_length in H. lia. }
    apply (IH Hl HF Lv (radd zr dzr) (dsize zr dzr :: dr)).
    + apply vadd_real.
    + cbn [map]. rewrite EG, Ed. reflexivity.
    + constructor; auto.
    + constructor; auto. split; auto.
    + cbn [length]. lia.
Qed.
End Newton.

(** ** the stages of a trial *)
Lemma staged_stage (m : EMeth RX) c L Sc (t h : xr) y yp : forall K psi z r n, staged m c L Sc t h y yp K psi z r n ->
  forall i, (1 <= i < length K)%nat -> exists z' r' n', converges m c L Sc (stage m t h y i (firstn i K)) [] (predicted m h y i (firstn i K)) z' r' n' /\ nth i K [] = map (fun a => ndiv RX a h) z'.
Proof.
  intros K psi z r n H. induction H as [|K psi z r n z' r' n' H IH HK C]; intros i Hi; [cbn [length] in Hi; lia|].
  rewrite app_length in Hi. cbn [length] in Hi. destruct (Nat.eq_dec i (length K)) as [->|Ni].
  - exists z', r', n'. rewrite firstn_app, Nat.sub_diag, firstn_all. cbn [firstn]. rewrite app_nil_r. split; [exact C|]. rewrite app_nth2, Nat.sub_diag by lia. reflexivity.
  - destruct (IH i ltac:(lia)) as (z1 & r1 & n1 & I1 & I2). exists z1, r1, n1. rewrite firstn_app. replace (i - length K)%nat with 0%nat by lia. cbn [firstn]. rewrite app_nil_r.
    split; [exact I1|]. rewrite app_nth1 by lia. exact I2.
Qed.
Lemma staged_lens (m : EMeth RX) c L Sc (t h : xr) y yp : forall K psi z r n, staged m c L Sc t h y yp K psi z r n -> hd [] K = yp /\ (1 <= length K)%nat.
Proof. intros K psi z r n H. induction H as [|K psi z r n z' r' n' H IH HK C]; [cbn; auto|]. destruct IH as (I1 & I2). destruct K as [|k0 K]; [cbn in I2; lia|]. cbn [hd app length] in *. split; [exact I1|lia]. Qed.
