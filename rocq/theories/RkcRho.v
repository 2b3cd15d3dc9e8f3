(** SSV2stab over the extended reals: the spectral radius estimate is a finite
    nonnegative number, bounded for a Lipschitz fun. *)
From Coq Require Import String ZArith Reals Lra Psatz QArith Qreals Bool Lia List Arith.
From Coquelicot Require Import Coquelicot.
From Verif Require Import Arith Common Stiff RK RX HStart RKInit RKReal HStartReal RKInitReal NormReal Ode Dense OrderRK OrderModel SwagArr Rkc Cheb RkcReal.
Import ListNotations.
Close Scope string_scope. Open Scope nat_scope. Open Scope R_scope.

(** the Euclidean norm *)
Definition en (x : list R) : R := sqrt (sumsq x).
Lemma norm2_fin x : @norm2 RX (map Fin x) = Fin (en x).
Proof.
  unfold norm2. rewrite ndot_fin. cbn [nsqrt RX xsqrt]. fold (sumsq x). pose proof (sumsq_nonneg x). destruct (Rlt_dec (sumsq x) 0); [lra|]. reflexivity.
Qed.
Lemma en_pos x : 0 <= en x. Proof. apply sqrt_pos. Qed.
Lemma en_sq x : en x * en x = sumsq x. Proof. apply sqrt_sqrt, sumsq_nonneg. Qed.
Lemma en_zero x : en x = 0 -> sumsq x = 0. Proof. intros H. rewrite <- en_sq, H. ring. Qed.
Lemma en_triangle x y : length x = length y -> en (radd x y) <= en x + en y.
Proof.
  intros L. pose proof (en_pos x). pose proof (en_pos y). apply Rsqr_incr_0_var; [|lra]. unfold Rsqr. rewrite en_sq.
  change (radd x y) with (NormReal.radd x y). rewrite sumsq_add by exact L. 
  replace ((en x + en y) * (en x + en y)) with (en x * en x + 2 * (en x * en y) + en y * en y) by ring. rewrite !en_sq.
  assert (rdot x y <= en x * en y); [|lra]. apply Rsqr_incr_0_var; [|nra]. unfold Rsqr.
  replace (en x * en y * (en x * en y)) with ((en x * en x) * (en y * en y)) by ring. rewrite !en_sq. apply cauchy. exact L.
Qed.
Lemma sumsq_scale c x : sumsq (rscal c x) = c * c * sumsq x.
Proof. unfold sumsq, rscal. rewrite rdot_scale_l, rdot_sym, rdot_scale_l. ring. Qed.
Lemma en_scale c x : en (rscal c x) = Rabs c * en x.
Proof.
  unfold en. rewrite sumsq_scale. rewrite sqrt_mult; [|nra|apply sumsq_nonneg]. f_equal. apply sqrt_Rsqr_abs.
Qed.
Lemma rsub_radd x y : rsub x y = radd x (rscal (-1) y).
Proof.
  unfold rsub, radd, rscal. revert y. induction x as [|a x IH]; intros [|b y]; cbn [map map2]; try reflexivity. f_equal; [ring|apply IH].
Qed.
Lemma en_sub x y : length x = length y -> en (rsub x y) <= en x + en y.
Proof.
  intros L. rewrite rsub_radd. eapply Rle_trans; [apply en_triangle; rewrite rscal_len; exact L|]. rewrite en_scale. replace (Rabs (-1)) with 1; [lra|]. unfold Rabs; destruct (Rcase_abs (-1)); lra.
Qed.
Lemma sumsq_repeat a n : sumsq (repeat a n) = INR n * (a * a).
Proof. unfold sumsq. induction n as [|n IH]; [cbn; ring|]. cbn [repeat rdot]. rewrite IH, S_INR. ring. Qed.

Fixpoint rflip (i : nat) (v : list R) : list R :=
  match v, i with [], _ => [] | x :: v', O => - x :: v' | x :: v', S j => x :: rflip j v' end.
Lemma flip_fin v : forall i, @flip RX i (map Fin v) = map Fin (rflip i v).
Proof. induction v as [|x v IH]; intros [|i]; cbn; try reflexivity. f_equal. apply IH. Qed.
Lemma rflip_len v : forall i, length (rflip i v) = length v.
Proof. induction v as [|x v IH]; intros [|i]; cbn; try reflexivity. f_equal. apply IH. Qed.
Lemma rflip_en v i : en (rflip i v) = en v.
Proof. unfold en. f_equal. revert i. unfold sumsq. induction v as [|x v IH]; intros [|i]; cbn [rflip rdot]; try ring. rewrite IH. ring. Qed.
Lemma scale_fin c x : map (fun z : num RX => nmul RX z (Fin c)) (map Fin x) = map Fin (rscal c x).
Proof. unfold rscal. rewrite !map_map. apply map_ext. intros a. cbn. f_equal. ring. Qed.
Lemma neq0 x : neqb RX (Fin x) n0 = Reqb x 0. Proof. rewrite n0_RX. reflexivity. Qed.

Section Rho.
Variables (d : nat) (F : R -> list R -> list R) (g : num RX -> list (num RX) -> list (num RX)).
Hypothesis HL : lifts d F g.

Lemma rho_iter_real (t sm dy : R) (y f : list R) (B K : R) : 0 < dy -> length y = d -> length f = d ->
  forall left iter sigma v fv0 rc, length v = d -> 0 <= sigma ->
  exists r v' fv' rc', rho_iter left iter g (Fin t) (map Fin y) (map Fin f) (Fin sm) (Fin dy) (Fin sigma) (map Fin v) fv0 rc = (r, map Fin v', fv', rc') /\ length v' = d /\
   match r with
   | None => True
   | Some (sp, V) => exists q W, sp = Fin q /\ 0 <= q /\ V = map Fin W /\ length W = d /\
       ((forall u, length u = d -> en u <= B -> en (rsub (F t u) f) <= K * dy) -> en y + dy <= B -> en v <= B -> q <= 12/10 * K)
   end.
Proof.
  intros Hdy Hy Hf. induction left as [|left IH]; intros iter sigma v fv0 rc Hv Hs; cbn [rho_iter].
  - exists None, v, fv0, rc. auto.
  - destruct (HL t v Hv) as [Lf Eg]. rewrite Eg, vsub_map2, norm2_fin. set (df := en (rsub (F t v) f)). rewrite xdiv_fin by lra.
    pose proof (en_pos (rsub (F t v) f)) as P. fold df in P. assert (Q : 0 <= df / dy) by (apply Rdiv_le_0_compat; lra).
    assert (Lw : length (rsub (F t v) f) = d) by (rewrite rsub_len; congruence).
    destruct (negb (Nat.eqb iter 0) && _).
    + eexists (Some (_, _)), v, _, _. split; [reflexivity|]. split; [exact Hv|]. exists (12/10 * (df/dy)), (rsub v y). split.
      { cbn [nmul RX]. rewrite lit_RX. change (Fin (Q2R (12#10) * (df / dy)) = Fin (12/10 * (df/dy))). f_equal; unfold Q2R; cbn; lra. }
      split; [lra|]. split; [apply vsub_map2|]. split; [rewrite rsub_len; congruence|].
      intros HB H1 H2. specialize (HB v Hv H2). fold df in HB. apply Rmult_le_compat_l; [lra|]. apply Rmult_le_reg_r with dy; [lra|]. replace (df / dy * dy) with df by (field; lra). exact HB.
    + set (v2 := if negb (neqb RX (Fin df) n0) then _ else _).
      assert (V2 : exists u, v2 = map Fin u /\ length u = d /\ (en y + dy <= B -> en v <= B -> en u <= B)).
      { unfold v2. rewrite neq0. destruct (Reqb_spec df 0) as [Z|Z]; cbn [negb].
        - rewrite flip_fin. exists (rflip (Nat.modulo iter (length (map Fin y))) v). split; [reflexivity|]. rewrite rflip_len, rflip_en. auto.
        - rewrite xdiv_fin by exact Z. rewrite scale_fin, vadd_map2. eexists. split; [reflexivity|]. split; [rewrite radd_len; rewrite ?rscal_len; congruence|].
          intros H1 _. eapply Rle_trans; [apply en_triangle; rewrite rscal_len; congruence|]. rewrite en_scale. fold df. rewrite Rabs_right by (apply Rle_ge, Rdiv_le_0_compat; lra). replace (dy / df * df) with dy by (field; lra). exact H1. }
      destruct V2 as (u & -> & Lu & Bu). destruct (IH (S iter) (df/dy) u (map Fin (F t v)) (rc ++ [(Fin t, map Fin v)]) Lu Q) as (r & v' & fv' & rc' & E & Lv' & R).
      exists r, v', fv', rc'. split; [exact E|]. split; [exact Lv'|]. destruct r as [[sp V]|]; [|exact I]. destruct R as (q & W & E1 & E2 & E3 & E4 & E5).
      exists q, W. repeat split; auto.
Qed.

Lemma rho_start_real (y V : list R) : (0 < d)%nat -> length y = d -> length V = d ->
  exists v dy, @rho_start RX (map Fin y) (map Fin V) = (map Fin v, Fin dy) /\ length v = d /\ 0 < dy /\
    en v <= en y + sqrt (INR d) * dy /\ en y * sqrt small <= dy.
Proof.
  intros Hd Hy HV. unfold rho_start. rewrite !norm2_fin, !neq0. rewrite nsmall_RX. pose proof (proj1 small_pos) as SP. assert (SQ : 0 < sqrt small) by (apply sqrt_lt_R0; exact SP).
  assert (D1 : 1 <= sqrt (INR d)). { rewrite <- sqrt_1. apply sqrt_le_1_alt. apply (le_INR 1) in Hd. exact Hd. }
  assert (E0 : nsqrt RX (Fin small) = Fin (sqrt small)) by (cbn [nsqrt RX xsqrt]; destruct (Rlt_dec small 0); [lra|reflexivity]). rewrite E0.
  pose proof (en_pos y) as P1. pose proof (en_pos V) as P2.
  destruct (Reqb_spec (en y) 0) as [Zy|Zy]; destruct (Reqb_spec (en V) 0) as [ZV|ZV]; cbn [negb andb].
  - rewrite map_length. exists (repeat small (length V)), small. split; [f_equal; clear; induction (length V) as [|n IH]; [reflexivity|cbn [repeat map]; f_equal; exact IH]|]. split; [rewrite repeat_length; exact HV|]. split; [exact SP|]. split.
    + unfold en at 1. rewrite sumsq_repeat, HV, Zy. rewrite sqrt_mult; [|apply pos_INR|nra]. rewrite sqrt_square by lra. lra.
    + rewrite Zy. lra.
  - rewrite xdiv_fin by exact ZV. rewrite scale_fin. eexists. exists small. split; [reflexivity|]. split; [rewrite rscal_len; exact HV|]. split; [exact SP|]. rewrite Zy. split; [|lra].
    rewrite en_scale, Rabs_right by (apply Rle_ge, Rdiv_le_0_compat; lra). replace (small / en V * en V) with small by (field; lra). nra.
  - rewrite n1_RX. cbn [nmul nadd RX xmul xadd]. rewrite scale_fin. eexists. exists (en y * sqrt small). split; [reflexivity|]. split; [rewrite rscal_len; exact HV|]. assert (0 < en y * sqrt small) by nra. split; [assumption|]. split; [|lra].
    rewrite en_scale, ZV. rewrite Rmult_0_r. nra.
  - cbn [nmul RX xmul]. rewrite xdiv_fin by exact ZV. rewrite scale_fin, vadd_map2. eexists. exists (en y * sqrt small). split; [reflexivity|]. split; [rewrite radd_len; rewrite ?rscal_len; congruence|].
    assert (0 < en y * sqrt small) by nra. split; [assumption|]. split; [|lra].
    eapply Rle_trans; [apply en_triangle; rewrite rscal_len; congruence|]. rewrite en_scale, Rabs_right by (apply Rle_ge, Rdiv_le_0_compat; lra). replace (en y * sqrt small / en V * en V) with (en y * sqrt small) by (field; lra). nra.
Qed.

(** fun is Lipschitz in y with constant L, at time t *)
Definition lipschitz (L t : R) : Prop := forall u y, length u = d -> length y = d -> en (rsub (F t u) (F t y)) <= L * en (rsub u y).
Definition rho_bound (L : R) : R := 12/10 * (L * (2 / sqrt small + sqrt (INR d))).

Theorem rkc_rho_real (c : RkcCfg RX) s t y mx : (0 < d)%nat -> rc_fun c = g -> rc_max_step c = Fin mx -> 0 < mx ->
  rs_yn s = map Fin y -> rs_fn s = map Fin (F t y) -> length y = d ->
  match rs_V s with None => True | Some V => exists W, V = map Fin W /\ length W = d end ->
  exists r v' fv' rc', rkc_rho c s (Fin t) = (r, map Fin v', fv', rc') /\
   match r with None => True | Some (sp, V) => exists q W, sp = Fin q /\ 0 <= q /\ V = map Fin W /\ length W = d /\
     (forall L, 0 <= L -> lipschitz L t -> q <= rho_bound L) end.
Proof.
  intros Hd Eg Em Hm Ey Ef Ly HV. unfold rkc_rho. rewrite Ey, Ef, Eg, Em, n1_RX, n0_RX. rewrite xdiv_fin by lra.
  pose proof (proj1 (HL t y Ly)) as Lf.
  assert (HW : exists W, match rs_V s with Some V => V | None => map Fin (F t y) end = map Fin W /\ length W = d).
  { destruct (rs_V s) as [V|]; [exact HV|]. exists (F t y). auto. }
  destruct HW as (W0 & EW & LW). change (num RX) with xr in *.  rewrite EW.
  destruct (rho_start_real y W0 Hd Ly LW) as (v & dy & E & Lv & Hdy & B1 & B2). change (num RX) with xr in *. rewrite E.
  assert (GEN : forall K, exists r v' fv' rc', rho_iter 50 0 g (Fin t) (map Fin y) (map Fin (F t y)) (Fin (1 / mx)) (Fin dy) (Fin 0) (map Fin v) (rs_v2 s) (rs_rcalls s) = (r, map Fin v', fv', rc') /\ length v' = d /\
   match r with None => True | Some (sp, V) => exists q W, sp = Fin q /\ 0 <= q /\ V = map Fin W /\ length W = d /\
     ((forall u, length u = d -> en u <= en y + sqrt (INR d) * dy -> en (rsub (F t u) (F t y)) <= K * dy) -> en y + dy <= en y + sqrt (INR d) * dy -> en v <= en y + sqrt (INR d) * dy -> q <= 12/10 * K) end)
    by (intros K; apply rho_iter_real; auto; lra).
  destruct (GEN 0) as (r & v' & fv' & rc' & E1 & Lv' & _). exists r, v', fv', rc'. split; [exact E1|].
  destruct r as [[sp V]|]; [|exact I]. destruct (GEN 0) as (r & ? & ? & ? & E2 & _ & G). rewrite E1 in E2. injection E2 as <- _ _ _.
  destruct G as (q & W & -> & Hq & -> & LW' & _). exists q, W. split; [reflexivity|]. split; [exact Hq|]. split; [reflexivity|]. split; [exact LW'|].
  intros L HL0 Lip. destruct (GEN (L * (2 / sqrt small + sqrt (INR d)))) as (r & ? & ? & ? & E2 & _ & G). rewrite E1 in E2. injection E2 as <- _ _ _.
  destruct G as (q' & W' & Eq & _ & _ & _ & G). injection Eq as <-.
  assert (D1 : 1 <= sqrt (INR d)). { rewrite <- sqrt_1. apply sqrt_le_1_alt. apply (le_INR 1) in Hd. exact Hd. }
  assert (SQ : 0 < sqrt small) by (apply sqrt_lt_R0, (proj1 small_pos)).
  unfold rho_bound. apply G; [|nra|exact B1].
  intros u Lu Hu. eapply Rle_trans; [apply Lip; assumption|]. rewrite Rmult_assoc. apply Rmult_le_compat_l; [exact HL0|].
  eapply Rle_trans; [apply en_sub; congruence|].
  assert (Z : en y <= dy / sqrt small). { apply Rmult_le_reg_r with (sqrt small); [exact SQ|]. replace (dy / sqrt small * sqrt small) with dy by (field; lra). exact B2. }
  replace ((2 / sqrt small + sqrt (INR d)) * dy) with (2 * (dy / sqrt small) + sqrt (INR d) * dy) by (field; lra). lra.
Qed.
End Rho.
