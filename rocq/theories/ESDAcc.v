(** Accepted steps of the implicit solvers in exact arithmetic: all stages are finite and the
    new solution is y + h K^T B, for any right-hand side. *)
From Coquelicot Require Import Coquelicot.
From Coq Require Import String ZArith Reals Lra Psatz QArith Qreals Bool Lia List Arith.
From Verif Require Import Arith Common Stiff RK HStart RKInit Ode RX RKReal RKInitReal NormReal Series OrderRK OrderModel Tableaux Classes Dense DenseReal ESDIRK ESDCls ESDGen ESDReal ESDStep ESDTop ESDLin ESDLin2 ESDLin3.
Import ListNotations.
Close Scope string_scope. Open Scope nat_scope. Open Scope R_scope.

(** ** only finite numbers give finite results *)
Definition isF (x : xr) : Prop := exists r, x = Fin r.
Lemma xadd_F a b : isF (xadd a b) -> isF a /\ isF b.
Proof. intros [r H]. destruct a, b; cbn [xadd] in H; try discriminate H; split; eexists; reflexivity. Qed.
Lemma inf_sign_nF s : ~ isF (inf_of_sign s).
Proof. intros [r H]. unfold inf_of_sign in H. destruct (Rlt_dec 0 s); [discriminate|]. destruct (Rlt_dec s 0); discriminate. Qed.
Lemma xmul_F a b : isF (xmul a b) -> isF a /\ isF b.
Proof. intros H. destruct a, b; cbn [xmul] in H; try (exfalso; exact (inf_sign_nF _ H)); try (destruct H as [? H]; discriminate H); split; eexists; reflexivity. Qed.
Lemma xdiv_F a b : isF (xdiv a b) -> isF a.
Proof. intros H. destruct a, b; cbn [xdiv] in H; try (exfalso; exact (inf_sign_nF _ H)); try (destruct H as [? H]; discriminate H); eexists; reflexivity. Qed.
Lemma fold_add_F : forall (l : list xr) a, isF (fold_left xadd l a) -> isF a /\ Forall isF l.
Proof.
  induction l as [|x l IH]; intros a H; cbn [fold_left] in H; [split; [exact H|constructor]|].
  destruct (IH _ H) as [H1 H2]. apply xadd_F in H1. destruct H1. split; [assumption|]. constructor; assumption.
Qed.
Lemma map2_F (g : xr -> xr -> xr) : (forall a b, isF (g a b) -> isF b) -> forall u v : list xr, (length v <= length u)%nat -> Forall isF (map2 g u v) -> Forall isF v.
Proof.
  intros Hg. induction u as [|a u IH]; intros [|b v] L H; cbn [map2 length] in *; try constructor; try lia.
  - inversion H; subst. eapply Hg; eassumption.
  - inversion H; subst. apply IH; [lia|assumption].
Qed.
Lemma map2_F1 (g : xr -> xr -> xr) : (forall a b, isF (g a b) -> isF a) -> forall u v : list xr, (length u <= length v)%nat -> Forall isF (map2 g u v) -> Forall isF u.
Proof.
  intros Hg. induction u as [|a u IH]; intros [|b v] L H; cbn [map2 length] in *; try constructor; try lia.
  - inversion H; subst. eapply Hg; eassumption.
  - inversion H; subst. apply (IH v); [lia|assumption].
Qed.
Lemma ndot_F (r v : list xr) : (length v <= length r)%nat -> isF (@ndot RX r v) -> Forall isF v.
Proof.
  intros L H. unfold ndot, nsum in H. apply fold_add_F in H. destruct H as [_ H]. eapply map2_F; [|exact L|exact H]. intros a b Hab. apply (xmul_F a b Hab).
Qed.
Lemma norm_F (v : list xr) : xltb (@norm RX v) (Fin 1) = true -> Forall isF v.
Proof.
  intros H. unfold norm in H. assert (D : isF (@ndot RX v v)).
  { apply (xdiv_F _ (@nofnat RX (length v))). change (xltb (xsqrt (xdiv (@ndot RX v v) (@nofnat RX (length v)))) (Fin 1) = true) in H. destruct (xdiv (@ndot RX v v) (@nofnat RX (length v))) as [x| | |]; [eexists; reflexivity|simpl in H; discriminate H..]. }
  eapply ndot_F; [|exact D]. lia.
Qed.
Lemma vscale_F h (v : list xr) : Forall isF (@vscale RX h v) -> Forall isF v.
Proof. unfold vscale. rewrite Forall_map. apply Forall_impl. intros a H. exact (proj2 (xmul_F _ _ H)). Qed.
Lemma lincomb_F n : forall (ws : list xr) K (acc : list xr), length acc = n -> Forall (fun v : list xr => length v = n) K -> (length K <= length ws)%nat ->
  Forall isF (fold_left (fun acc wk => @vadd RX acc (@vscale RX (fst wk) (snd wk))) (combine ws K) acc) -> Forall isF acc /\ Forall (Forall isF) K.
Proof.
  induction ws as [|x ws IH]; intros [|k K] acc La LK LL H; cbn [combine fold_left length] in *; try (split; [exact H|exact (Forall_nil _)]); [lia|].
  inversion LK as [|? ? Lk LK']; subst. destruct (IH K _ ltac:(apply vadd_len; [reflexivity|unfold vscale; rewrite map_length; exact Lk]) LK' ltac:(lia) H) as [H1 H2].
  assert (Ls : length (@vscale RX x k) = length acc) by (unfold vscale; rewrite map_length; exact Lk). cbn [fst snd] in H1. split; [|constructor; [|exact H2]].
  - eapply (map2_F1 xadd); [|rewrite <- Ls; reflexivity|exact H1]. intros a b Hab. apply (xadd_F _ _ Hab).
  - apply (vscale_F x). eapply (map2_F xadd); [|rewrite <- Ls; reflexivity|exact H1]. intros a b Hab. apply (xadd_F _ _ Hab).
Qed.
Lemma all_reals (v : list xr) : Forall isF v -> exists r, v = map Fin r.
Proof. induction 1 as [|x v [r ->] _ [l ->]]; [exists []; reflexivity|exists (r :: l); reflexivity]. Qed.
Lemma all_realsK (K : list (list xr)) : Forall (Forall isF) K -> exists ks, K = map (map Fin) ks.
Proof. induction 1 as [|x K H _ [l ->]]; [exists []; reflexivity|]. destruct (all_reals _ H) as [r ->]. exists (r :: l). reflexivity. Qed.

Lemma scale_AE_len n U k hd0 : mshape n U -> (0 < n)%nat -> exists rs sc', @scale_AE RX U k hd0 = rs :: sc' /\ length rs = n.
Proof.
  intros [U1 U2] Hn. unfold scale_AE, mmul. destruct U as [|u U']; [cbn [length] in U1; lia|]. cbn [map]. do 2 eexists. split; [reflexivity|].
  rewrite map_length, seq_length. unfold mtr. inversion U2; subst. cbn [hd]. destruct u as [|u0 u']; [cbn [length] in *; lia|]. cbn [seq map hd mcol length]. rewrite map_length. reflexivity.
Qed.

(** the structure of the stages *)
Lemma estages_struct (m : EMeth RX) c t h y L : forall left s w K psi z K' psi' z' w', estages m c t h y L left s w K psi z = (SgOk K' psi' z', w') -> length K = s ->
  (left = 0%nat /\ K' = K /\ psi' = psi /\ z' = z) \/
  (exists Ki, K' = (Ki ++ [map (fun a => ndiv RX a h) z'])%list /\ length Ki = (s + left - 1)%nat /\ firstn s K' = K /\
     psi' = vadd y (vscale h (lincomb (length y) (firstn (s + left - 1) (nth (s + left - 1) (em_A m) [])) Ki))).
Proof.
  induction left as [|left IH]; intros s w K psi z K' psi' z' w' H HK; cbn [estages] in H; [apply or_introl; injection H as <- <- <- _; auto|].
  destruct (newton _ _ _ _ _ _ _ _ _ _ _ _ _) as [[z1 rr ni|rr ni|e] w1]; [|discriminate|discriminate].
  right. apply IH in H; [|rewrite app_length; cbn [length]; lia]. destruct H as [(-> & -> & -> & ->)|(Ki & E1 & E2 & E3 & E4)].
  - exists K. split; [reflexivity|]. replace (s + 1 - 1)%nat with s by lia. split; [exact HK|]. split; [rewrite firstn_app, <- HK, Nat.sub_diag, firstn_all, app_nil_r; reflexivity|reflexivity].
  - exists Ki. split; [exact E1|]. replace (s + S left - 1)%nat with (S s + left - 1)%nat by lia. split; [exact E2|]. split; [|exact E4].
    apply (f_equal (firstn s)) in E3. rewrite firstn_firstn, Nat.min_l in E3 by lia. rewrite E3, firstn_app, <- HK, Nat.sub_diag, firstn_all, app_nil_r. reflexivity.
Qed.

(** ** the tolerances have the length of the state *)
Definition atol_fits (c : ECfg RX) : Prop := length (bcast (x_atol c) (x_n c)) = x_n c.
Lemma esd_init_atol (m : EMeth RX) o luok solve f jac M t0 y0 tb c s : esd_init m o luok solve f jac M t0 y0 tb = inl (c, s) -> atol_fits c.
Proof.
  unfold esd_init. destruct (nleb RX _ _); [discriminate|]. destruct (validate_tol _ _ _ _) as [[rt at_]|] eqn:EV; [|discriminate].
  destruct (esd_coefs _) as [[[[kb1 kb2] al] gg]|]; [|discriminate]. destruct (negb _); [discriminate|]. destruct (match jac with JacConst _ => _ | JacFun _ => _ end) as [[J0 jc] xj].
  destruct (negb _); [discriminate|]. destruct (solve _ _); [|discriminate]. destruct (esd_first _ _ _ _ _); [|discriminate].
  intros H. apply inl_pair_inj in H. destruct H as [<- _]. unfold atol_fits. cbn [x_atol x_n]. revert EV. clear. unfold validate_tol. destruct (p_atol o) as [a|a].
  - cbn [negb]. destruct (nltb RX a n0); [discriminate|]. destruct (negb _); [discriminate|]. destruct (nltb RX _ _); [discriminate|]. intros H. apply inl_pair_inj in H. destruct H as [_ <-]. cbn [bcast]. apply repeat_length.
  - destruct (Nat.eqb_spec (length a) (length y0)) as [E|]; cbn [negb]; [|discriminate]. destruct (existsb _ _); [discriminate|]. destruct (negb _); [discriminate|]. destruct (nltb RX _ _); [discriminate|]. intros H. apply inl_pair_inj in H. destruct H as [_ <-]. cbn [bcast]. rewrite map_length. exact E.
Qed.
Lemma esd_built_atol m o f t0 tb y0 c s : esd_built m o f t0 tb y0 c s -> atol_fits c.
Proof.
  intros [luok solve jac M c0 s0 HI _ _|luok solve jac M U nAE y1 yp1 J1 h1 c0 s0 HI _ _ _ _ _ _ _]; [exact (esd_init_atol _ _ _ _ _ _ _ _ _ _ _ _ HI)|].
  unfold esd_init_dae in HI. match type of HI with (match ?x with inl _ => _ | inr _ => _ end) = _ => destruct x as [[c1 s1]|e] eqn:EI; [|discriminate HI] end.
  cbv zeta in HI. destruct (esd_first _ _ _ _ _); [|discriminate HI]. apply inl_pair_inj in HI. destruct HI as [<- _]. exact (esd_init_atol _ _ _ _ _ _ _ _ _ _ _ _ EI).
Qed.
Lemma scale_len (c : ECfg RX) y y' : atol_fits c -> length y = x_n c -> length y' = x_n c -> length (@calculate_scale RX (x_atol c) (x_rtol c) y y') = x_n c.
Proof. intros HA L1 L2. unfold calculate_scale. apply vadd_len; [rewrite L1; exact HA|]. rewrite map_length. rewrite (vlen2 (@npmax RX)). rewrite !map_length, L1, L2. apply Nat.min_id. Qed.

Lemma Forall_firstn' {X} (P : X -> Prop) n l : Forall P l -> Forall P (firstn n l).
Proof. intros H. rewrite <- (firstn_skipn n l) in H. apply Forall_app in H. exact (proj1 H). Qed.
Lemma nth_firstn {X} (d0 : X) n : forall l i, (i < n)%nat -> nth i (firstn n l) d0 = nth i l d0.
Proof. induction n as [|n IH]; intros [|x l] [|i] H; cbn [firstn nth]; auto; try lia. apply IH. lia. Qed.
Lemma nth_map0 (g : R -> R) l q : g 0 = 0 -> nth q (map g l) 0 = g (nth q l 0).
Proof. intros H. rewrite <- H at 1. apply map_nth. Qed.

(** ** the accepted step *)
Record acc_step (m : EMeth RX) (n : nat) (s s' : ES RX) (y : list R) (h : R) (ks : list (list R)) (y' : list R) : Prop := {
  as_h : h <> 0; as_hp : e_hprev s' = Some (Fin h); as_t : e_t s' = Fin (tval s + h); as_yo : e_yold s' = Some (map Fin y);
  as_K : e_K s' = map (map Fin) ks; as_n : length ks = em_stages m; as_l : Forall (fun k => length k = n) ks;
  as_first : e_yp s = map Fin (nth 0 ks []); as_last : e_yp s' = map Fin (nth (em_stages m - 1) ks []);
  as_y : e_y s' = map Fin y'; as_ly : length y' = n;
  as_val : forall q, (q < n)%nat -> nth q y' 0 = nth q y 0 + h * rsum (em_stages m) (fun i => rB m i * nth q (nth i ks []) 0)
}.

Lemma accepted_real m c r k s s' y : real_tab m -> length (em_E m) = em_stages m -> atol_fits c -> la_ok m c -> egood c r -> einv m c s -> tval s <> ctb r ->
  e_y s = map Fin y -> estep_impl m c k s = IDone s' -> exists h ks y', acc_step m (x_n c) s s' y h ks y'.
Proof.
  intros HT HE HAt HA HG HI Ht Ey H. pose proof HI as (I1 & I2 & I3 & I4 & I5 & I6 & I7 & I8 & I9 & I10).
  destruct I1 as (t & Et). destruct I2 as (h0 & Eh & Hh0). assert (Tv : tval s = t) by (unfold tval; rewrite Et; reflexivity). rewrite Tv in *.
  unfold estep_impl in H. rewrite Et, Eh in H.
  destruct (ereassess_real c r t h0 (w_std (e_w s)) HG Hh0 Ht) as (ha & std' & ER & Hstd & Hha & HM & HL). rewrite ER in H.
  destruct (preemptive_ok m c r s ha std' HA HG HI Hstd) as (w & EP & HW & P1 & P2 & P3 & P4). rewrite EP in H.
  destruct (eloop_done m c r s (emin r t h0) HA HG I3 I4 k w ha false s' HW ltac:(lra) H) as (j & w1 & h1 & rej1 & w2 & hh & hn & tn & yn & en & K & B1 & B2 & B3 & B4 & B5 & B6 & a & l & B7 & B8 & B9 & B10 & B11).
  pose proof (fin_trial m c r s w1 h1 (emin r t h0) rej1 HA HG B3 I3 I4 B4) as HF. pose proof (etrial_inv m c s w1 (Fin h1) (Fin (emin r t h0)) rej1 (proj1 (proj2 B3)) (proj1 (proj2 (proj2 B3)))) as HV.
  rewrite B1 in HF, HV. destruct HF as (T0 & (T1 & T2 & T3 & T4) & -> & -> & (q & -> & Hq & Hq1) & T5 & T6 & T7 & T8 & T9 & T10 & T11).
  destruct HV as (_ & _ & _ & _ & _ & _ & _ & _ & _ & V1 & V2 & _ & (L & wf & psi & z & ws & w3 & F1 & F2 & F3 & F4 & _ & _ & err & Eerr & err' & Een & FL1 & FL2)).
  assert (Hcd : cd r = 1 \/ cd r = -1) by (destruct HG as (_ & _ & Hcd & _); exact Hcd).
  assert (H2 : (2 <= em_stages m)%nat) by (destruct HA; assumption). assert (Hn : (0 < x_n c)%nat) by (destruct HA as (_ & Hn & _); exact Hn).
  set (h := h1 * cd r) in *. assert (Hh : h <> 0) by (unfold h; destruct Hcd as [-> | ->]; lra).
  assert (Lerr : length err = x_n c) by (rewrite Eerr; unfold vscale; rewrite map_length, I3; apply lincomb_len; exact T6).
  (* err is finite *)
  assert (FE : Forall isF err).
  { rewrite Een in T10. apply norm_F in T10. destruct (em_filter m) eqn:EFl.
    - destruct (FL2 eq_refl) as (x & Ex & _). destruct HA as (_ & _ & _ & HS & _ & _ & _ & HU). destruct (HS _ _ _ Ex) as [Af _].
      destruct (factorise_ok _ _ _ _ _ _ (proj1 (proj2 B3)) F1) as ((S1 & S2) & S3 & _). rewrite S3 in S2. destruct S2 as (_ & h' & _ & S4). unfold iteration_matrix in S4.
      destruct (x_dae c) as [[U nAE]|] eqn:ED.
      + apply pair_equal_spec in S4. destruct S4 as [S4 _]. rewrite S4 in Af. cbn [mv] in Af. destruct (scale_AE_len (x_n c) U nAE (nmul RX h' (em_d m)) (HU _ _ eq_refl) Hn) as (rs & sc' & E1 & E2).
        rewrite E1 in Af. cbn [map] in Af. pose proof (Forall_inv Af) as Af1. eapply ndot_F; [|exact Af1]. apply Nat.eq_le_incl. exact (eq_trans Lerr (eq_sym E2)).
      + rewrite (S1 eq_refl) in Af. exact Af.
    - rewrite (FL1 eq_refl) in T10. eapply (map2_F1 xdiv); [|  |exact T10]; [intros a0 b0 Hab; exact (xdiv_F _ _ Hab)|].
      apply Nat.eq_le_incl. exact (eq_trans Lerr (eq_sym (scale_len c _ _ HAt I3 T5))). }
  (* hence the stages are *)
  rewrite Eerr in FE. apply vscale_F in FE. unfold lincomb in FE. apply lincomb_F with (n := x_n c) in FE; [|rewrite repeat_length; exact I3|exact T6|apply Nat.eq_le_incl; exact (eq_trans T7 (eq_sym HE))].
  destruct FE as [_ FK]. destruct (all_realsK _ FK) as [ks EK]. subst K.
  apply estages_struct in F2; [|reflexivity]. destruct F2 as [(F2 & _)|(Ki & E1 & E2 & E3 & E4)]; [lia|].
  replace (1 + (em_stages m - 1) - 1)%nat with (em_stages m - 1)%nat in * by lia. set (l1 := (em_stages m - 1)%nat) in *.
  rewrite map_length in T7. assert (LK : Forall (fun k => length k = x_n c) ks). { rewrite Forall_map in T6. eapply Forall_impl; [|exact T6]. intros k0 Hk. exact (eq_trans (eq_sym (map_length Fin k0)) Hk). }
  assert (EKi : Ki = map (map Fin) (firstn l1 ks)). { rewrite <- firstn_map. change (num RX) with xr in *. rewrite E1, firstn_app, E2, Nat.sub_diag, firstn_all2 by lia. cbn [firstn]. rewrite app_nil_r. reflexivity. }
  set (kl := nth l1 ks []). assert (Lkl : length kl = x_n c) by (rewrite Forall_forall in LK; apply LK, nth_In; unfold l1; lia).
  assert (Ez : map (fun a => ndiv RX a (Fin h)) z = map Fin kl).
  { change (num RX) with xr in *. pose proof (f_equal (fun K => nth l1 K []) E1) as Q. cbn beta in Q. rewrite app_nth2, E2, Nat.sub_diag in Q by lia. cbn [nth] in Q. rewrite <- Q.
    change (@nil xr) with (map Fin []). apply (map_nth (map Fin) ks []). }
  assert (Ez' : z = map Fin (map (fun x => h * x) kl)).
  { revert Ez. clear -Hh. revert z. induction kl as [|b kl IH]; intros [|x z] H; cbn [map] in *; try discriminate H; [reflexivity|]. injection H as H1 H2. f_equal; [|apply IH; exact H2].
    cbn [ndiv RX] in H1. assert (FX : isF x) by (apply (xdiv_F x (Fin h)); eexists; exact H1). destruct FX as [x' ->]. cbn [xdiv] in H1. destruct (Req_EM_T h 0); [contradiction|]. injection H1 as <-. f_equal. field. exact Hh. }
  assert (Ly : length y = x_n c) by (rewrite <- I3; rewrite Ey, map_length; reflexivity).
  assert (EA : exists ar, nth l1 (em_A m) [] = map Fin ar /\ length ar = em_stages m /\ forall i, nth i ar 0 = rA m l1 i).
  { assert (IN : In (nth l1 (em_A m) []) (em_A m)) by (apply nth_In; rewrite (rt_lenA m HT); unfold l1; lia).
    pose proof (proj1 (Forall_forall _ _) (rt_A m HT) _ IN) as AF. pose proof (proj1 (Forall_forall _ _) (rt_rows m HT) _ IN) as AL. destruct (all_reals _ AF) as [ar Ear].
    exists ar. split; [exact Ear|]. rewrite Ear, map_length in AL. split; [exact AL|]. intros i. unfold rA. change (num RX) with xr in *. rewrite Ear. rewrite (map_nth Fin). reflexivity. }
  destruct EA as (ar & Ear & Lar & Nar).
  pose proof (lincomb_reals (x_n c) (firstn l1 ar) (map (map Fin) (firstn l1 ks)) (fun i q => nth q (nth i (firstn l1 ks) []) 0) (realsK_fin (x_n c) (firstn l1 ks) (Forall_firstn' _ _ _ LK))) as RC.
  assert (RY : reals (x_n c) yn (fun q => nth q y 0 + h * rsum (em_stages m) (fun i => rB m i * nth q (nth i ks []) 0))).
  { rewrite F3, E4, Ear, EKi, Ez', (rt_d m HT), Ey, map_length, Ly. rewrite firstn_map. eapply reals_ext.
    - apply reals_add; [apply reals_add; [apply reals_intro; exact Ly|apply reals_scale; exact RC]|]. apply reals_scale. apply (reals_intro (x_n c) (map (fun x => h * x) kl)). rewrite map_length. exact Lkl.
    - intros q0 Hq0. cbn beta. rewrite map_length, firstn_length, Nat.min_l by (unfold l1; lia). rewrite nth_map0 by ring.
      replace (em_stages m) with (S l1) by (unfold l1; lia). cbn [rsum]. replace (rB m l1) with (rd m) by (rewrite <- (rt_diag m HT l1) by (unfold l1; lia); exact (rt_last m HT l1)).
      rewrite (rsum_ext l1 (fun i => nth i (firstn l1 ar) 0 * nth q0 (nth i (firstn l1 ks) []) 0) (fun i => rB m i * nth q0 (nth i ks []) 0)).
      + unfold kl. ring.
      + intros i Hi. rewrite !nth_firstn by exact Hi. rewrite Nar. replace (rB m i) with (rA m l1 i) by exact (rt_last m HT i). reflexivity. }
  destruct RY as (y' & Ey' & Ly' & Ny'). exists h, ks, y'. subst s'. unfold efinish. constructor; cbn [e_hprev e_t e_yold e_K e_yp e_y].
  - exact Hh.
  - reflexivity.
  - rewrite Et, Tv. reflexivity.
  - rewrite Ey. reflexivity.
  - reflexivity.
  - exact T7.
  - exact LK.
  - destruct ks as [|k0 ks']; [cbn [length] in T7; lia|]. cbn [map firstn nth] in *. injection E3 as E3. symmetry. exact E3.
  - rewrite E1, last_last. exact Ez.
  - exact Ey'.
  - exact Ly'.
  - exact Ny'.
Qed.
