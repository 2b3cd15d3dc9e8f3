(** ESDIRK over the extended reals: exceptions, termination, step bounds, landing. *)
From Coq Require Import String ZArith Reals Lra Psatz QArith Qreals Bool Lia List.
From Verif Require Import Arith Common Stiff RK HStart RKInit Tableaux Classes Dense Ode RX RKReal RKInitReal ESDIRK ESDGen.
Import ListNotations.
Close Scope string_scope. Open Scope nat_scope. Open Scope R_scope.

(** ** exceptions, any arithmetic *)
Section Exn.
Context {A : Arith}.
Lemma newton_raise (m : EMeth A) c ts h psi y L : forall left k w z dzo rate e w',
  newton m c ts h psi y L left k w z dzo rate = (NwRaise e, w') ->
  e = lin_error \/ (e = AssertionError /\ x_linear c = true /\ (w_curJ w && match w_hLU w with Some hl => neqb A h hl | None => false end)%bool = false).
Proof.
  induction left; intros k w z dzo rate e w' H; cbn [newton] in H; [discriminate|].
  set (yp := vadd psi _) in H.
  destruct (negb _); [discriminate|].
  destruct (x_solve c L _) as [dz|]; [|injection H as <- _; auto].
  destruct (x_linear c) eqn:EL.
  { destruct (_ && _)%bool eqn:E; [discriminate|]. injection H as <- _. right. auto. }
  destruct (nleb _ _ _); [discriminate|].
  assert (R : forall k' z' a b, newton m c ts h psi y L left k' (w_solved (w_call w (ts, yp))) z' a b = (NwRaise e, w') -> e = lin_error \/ (e = AssertionError /\ false = true /\ (w_curJ w && match w_hLU w with Some hl => neqb A h hl | None => false end)%bool = false)).
  { intros k' z' a b Hx. exact (IHleft _ _ _ _ _ _ _ Hx). }
  destruct k; [eauto|]. destruct (_ || _)%bool; [discriminate|]. destruct (nltb _ _ _); [discriminate|]. eauto.
Qed.

Lemma estages_raise (m : EMeth A) c t h y L : forall left s w K psi z e w',
  estages m c t h y L left s w K psi z = (SgRaise e, w') ->
  e = lin_error \/ (e = AssertionError /\ x_linear c = true /\ (w_curJ w && match w_hLU w with Some hl => neqb A h hl | None => false end)%bool = false).
Proof.
  induction left; intros s w K psi z e w' H; cbn [estages] in H; [discriminate|].
  destruct (newton _ _ _ _ _ _ _ _ _ _ _ _ _) as [nr w1] eqn:EN.
  pose proof (newton_core _ _ _ _ _ _ _ _ _ _ _ _ _ _ _ EN) as (E1 & _).
  unfold core in E1. injection E1 as H1 H2 H3 H4 _ _ _ _ _ _ _.
  destruct nr as [z' rr ni|rr ni|e0]; [|discriminate|].
  - apply IHleft in H. cbn [w_rates w_curJ w_hLU] in H. rewrite H2, H4 in H. exact H.
  - injection H as -> _. exact (newton_raise _ _ _ _ _ _ _ _ _ _ _ _ _ _ _ EN).
Qed.

(** linear problems: the rate stays -inf, one evaluation per stage *)
Lemma newton_linear (m : EMeth A) c ts h psi y L w z dzo rate r w' : x_linear c = true ->
  newton m c ts h psi y L NEWTON_MAXITER 0 w z dzo rate = (r, w') ->
  match r with
  | NwConv z' rr ni => rr = rate /\ ni = 1%nat /\ exists dz, z' = vadd z dz /\
      forallb nisfin (x_fun c ts (vadd psi (vscale (em_d m) z))) = true /\
      x_solve c L (mv (w_Sc w) (vsub (vscale h (x_fun c ts (vadd psi (vscale (em_d m) z)))) (mv (x_M c) z))) = Some dz /\
      w_calls w' = (w_calls w ++ [(ts, vadd psi (vscale (em_d m) z))])%list
  | NwDiv rr ni => rr = rate /\ forallb nisfin (x_fun c ts (vadd psi (vscale (em_d m) z))) = false /\ w_calls w' = (w_calls w ++ [(ts, vadd psi (vscale (em_d m) z))])%list
  | NwRaise e => True
  end.
Proof.
  intros HL H. cbn [newton NEWTON_MAXITER] in H. set (yp := vadd psi _) in *.
  destruct (forallb nisfin (x_fun c ts yp)) eqn:EF; cbn [negb] in H.
  - destruct (x_solve c L _) as [dz|] eqn:ES; [|injection H as <- <-; exact I]. rewrite HL in H.
    destruct (_ && _)%bool; injection H as <- <-; [|exact I]. split; [reflexivity|]. split; [reflexivity|]. exists dz.
    split; [reflexivity|]. split; [reflexivity|]. split; [first [exact ES|reflexivity]|reflexivity].
  - injection H as <- <-. split; [reflexivity|]. split; reflexivity.
Qed.

Lemma estages_rate_linear (m : EMeth A) c t h y L : x_linear c = true -> forall left s w K psi z r w', w_rate w = n_ninf ->
  estages m c t h y L left s w K psi z = (r, w') -> match r with SgRaise _ => True | _ => w_rate w' = n_ninf end.
Proof.
  intros HL. induction left; intros s w K psi z r w' HR H; cbn [estages] in H; [injection H as <- <-; exact HR|].
  destruct (newton _ _ _ _ _ _ _ _ _ _ _ _ _) as [nr w1] eqn:EN.
  pose proof (newton_core _ _ _ _ _ _ _ _ _ _ _ _ _ _ _ EN) as (_ & E2 & _).
  apply newton_linear in EN; [|exact HL].
  assert (E : @pymax A n_ninf (w_rate w1) = n_ninf) by (rewrite E2, HR; unfold pymax; destruct (nltb _ _ _); reflexivity).
  destruct nr as [z' rr ni|rr ni|e0].
  - destruct EN as (-> & _). rewrite E in H. apply IHleft in H; [exact H|reflexivity].
  - destruct EN as (-> & _). injection H as <- <-. cbn [w_rates w_rate]. exact E.
  - injection H as <- <-. exact I.
Qed.
End Exn.

(** ** configurations *)
Record econst := { ctb : R; cd : R; cma : R; cmb : R; cte : R; cg : R; ce : R }.
Definition egood (c : ECfg RX) (r : econst) : Prop :=
  x_tb c = Fin (ctb r) /\ x_dir c = Fin (cd r) /\ (cd r = 1 \/ cd r = -1) /\
  x_hmina c = Fin (cma r) /\ 0 < cma r /\ x_hminb c = Fin (cmb r) /\ 0 < cmb r /\
  x_tiny c = Fin (cte r) /\ 0 < cte r /\ x_safety c = Fin (cg r) /\ 0 < cg r < 1 /\
  x_ee c = Fin (ce r) /\ ce r < 0 /\ x_minf c = Fin (1/5) /\
  (x_max_step c = PInf \/ exists M, x_max_step c = Fin M /\ 0 < M).

(** linear algebra with scipy's check_finite, right shapes *)
Definition mshape (n : nat) (X : list (list xr)) : Prop := length X = n /\ Forall (fun r => length r = n) X.
Definition mfin (X : list (list xr)) : Prop := Forall (fun r : list (num RX) => allfin r) X.
Definition la_ok (m : EMeth RX) (c : ECfg RX) : Prop :=
  (2 <= em_stages m)%nat /\ (0 < x_n c)%nat /\
  (forall X, x_luok c X = true -> mfin X) /\
  (forall L b x, x_solve c L b = Some x -> allfin b /\ length x = x_n c) /\
  (forall t y, length (x_fun c t y) = x_n c) /\
  (forall j k t y, x_jac c = Some j -> mshape (x_n c) (j k t y)) /\
  (forall M, x_M c = Some M -> mshape (x_n c) M) /\
  (forall U k, x_dae c = Some (U, k) -> mshape (x_n c) U).

(** state between the steps *)
Definition tval (s : ES RX) : R := match e_t s with Fin x => x | _ => 0 end.
Definition einv (m : EMeth RX) (c : ECfg RX) (s : ES RX) : Prop :=
  (exists tt, e_t s = Fin tt) /\ (exists h, e_habs s = Fin h /\ 0 < h) /\
  length (e_y s) = x_n c /\ length (e_yp s) = x_n c /\ mshape (x_n c) (w_J (e_w s)) /\
  (w_maxf (e_w s) = Fin 10 \/ w_maxf (e_w s) = Fin 4) /\
  lu_ok m c (e_w s) /\ lin_ok c (e_w s) /\
  (x_linear c = true -> w_rate (e_w s) = NInf) /\
  match e_hprev s with
  | None => w_rate (e_w s) = NInf /\ w_std (e_w s) = true
  | Some hp => (exists x, hp = Fin x /\ x <> 0) /\ (exists hl, w_hLU (e_w s) = Some hl) /\ exists eo, e_errold s = Some eo
  end.
(** work attributes at the head of the loop *)
Definition winv (m : EMeth RX) (c : ECfg RX) (s : ES RX) (w : EWk RX) : Prop :=
  (w_maxf w = Fin 10 \/ w_maxf w = Fin 4) /\ lu_ok m c w /\ lin_ok c w /\ mshape (x_n c) (w_J w) /\
  (w_std w = false -> exists hp eo, e_hprev s = Some hp /\ e_errold s = Some eo).

(** ** NaN is absorbed *)
Lemma nsum_nan : forall l a, a = NaN \/ In NaN l -> fold_left (nadd RX) l a = NaN.
Proof.
  induction l as [|x l IH]; intros a H; cbn [fold_left].
  - destruct H as [->|[]]. reflexivity.
  - apply IH. destruct H as [->|[->|H]]; [left; reflexivity|left|right; exact H]. change (nadd RX) with xadd. destruct a; reflexivity.
Qed.
Lemma ndot_nan_r (r v : list xr) : r <> [] -> v <> [] -> Forall (eq NaN) v -> @ndot RX r v = NaN.
Proof.
  intros Hr Hv HF. destruct r as [|a r]; [congruence|]. destruct v as [|b v]; [congruence|]. inversion HF; subst.
  unfold ndot, nsum. apply nsum_nan. right. left. change (nmul RX) with xmul. destruct a; reflexivity.
Qed.
Lemma msub_nan n (M J : list (list xr)) d : mshape n M -> mshape n J ->
  mshape n (@msub RX M (xmul NaN d) J) /\ Forall (Forall (eq NaN)) (@msub RX M (xmul NaN d) J).
Proof.
  intros [L1 F1] [L2 F2]. unfold msub.
  assert (G : forall a b, length a = length b -> Forall (fun r : list xr => length r = n) a -> Forall (fun r : list xr => length r = n) b ->
     let X := map2 (map2 (fun x y => nsub RX x (nmul RX (xmul NaN d) y))) a b in
     length X = length a /\ Forall (fun r : list xr => length r = n) X /\ Forall (Forall (eq NaN)) X).
  { induction a as [|ra a IH]; intros [|rb b] EL Fa Fb; try discriminate; cbn [map2]; [auto|].
    inversion Fa; subst. inversion Fb; subst. destruct (IH b) as (I1 & I2 & I3); auto.
    assert (R : forall u v : list xr, length u = length v -> length (map2 (fun x y => nsub RX x (nmul RX (xmul NaN d) y)) u v) = length u /\
        Forall (eq NaN) (map2 (fun x y => nsub RX x (nmul RX (xmul NaN d) y)) u v)).
    { induction u; intros [|v0 v] E; try discriminate; cbn [map2]; [auto|]. destruct (IHu v) as [R1 R2]; [cbn [length] in E; lia|].
      split; [cbn [length]; rewrite R1; reflexivity|]. constructor; [|exact R2]. cbn [xmul]. change (nsub RX) with xsub. change (nmul RX) with xmul. cbn [xmul]. unfold xsub. cbn [xopp]. destruct a0; reflexivity. }
    destruct (R ra rb) as [R1 R2]; [congruence|]. cbn [length]. split; [rewrite I1; reflexivity|]. split; [constructor; [exact (eq_trans R1 H1)|exact I2]|constructor; [exact R2|exact I3]]. }
  destruct (G M J) as (G1 & G2 & G3); [congruence|assumption|assumption|]. split; [split; [exact (eq_trans G1 L1)|exact G2]|exact G3].
Qed.
Lemma eye_shape n : mshape n (@eye RX n).
Proof.
  unfold eye. split; [rewrite map_length, seq_length; reflexivity|]. apply Forall_forall. intros r Hr. apply in_map_iff in Hr.
  destruct Hr as (i & <- & _). rewrite map_length, seq_length. reflexivity.
Qed.
Lemma mat_of_shape m c : la_ok m c -> mshape (x_n c) (mat_of (x_n c) (x_M c)).
Proof. intros (_ & _ & _ & _ & _ & _ & H & _). unfold mat_of. destruct (x_M c); [apply H; reflexivity|apply eye_shape]. Qed.

(** a nan step is refused by the factorisation *)
Lemma nan_refused m c w d : la_ok m c -> x_dir c = Fin d -> mshape (x_n c) (w_J w) -> need_lu c w NaN = true -> factorise m c w NaN = inr lin_error.
Proof.
  intros HA Hd HJ HN. unfold factorise. rewrite HN.
  destruct (msub_nan (x_n c) (mat_of (x_n c) (x_M c)) (w_J w) (em_d m) (mat_of_shape m c HA) HJ) as [[S1 S2] S3].
  assert (HA' := HA). destruct HA as (_ & Hn & Hlu & _ & _ & _ & _ & HU).
  change (nmul RX) with xmul in *. set (base := @msub RX _ (xmul NaN (em_d m)) (w_J w)) in *.
  assert (NF : forall X : list (list xr), (exists r, In r X /\ In NaN r) -> x_luok c X = false).
  { intros X (r & H1 & H2). destruct (x_luok c X) eqn:E; [|reflexivity]. apply Hlu in E. unfold mfin in E. rewrite Forall_forall in E. specialize (E r H1).
    unfold allfin in E. rewrite Forall_forall in E. destruct (E NaN H2) as [q Hq]. discriminate Hq. }
  destruct base as [|r0 base'] eqn:EB; [cbn [length] in S1; lia|]. rewrite <- EB in *.
  assert (Hr0 : In r0 base) by (rewrite EB; left; reflexivity).
  assert (N0 : length r0 = x_n c) by (rewrite Forall_forall in S2; apply S2; exact Hr0).
  assert (R0 : Forall (eq NaN) r0) by (rewrite Forall_forall in S3; apply S3; exact Hr0).
  assert (I0 : In NaN r0). { destruct r0; [cbn [length] in N0; lia|]. inversion R0; subst. left. reflexivity. }
  destruct (x_dae c) as [[U k]|] eqn:ED.
  - rewrite NF; [reflexivity|]. set (sc := scale_AE U k _). destruct (HU U k eq_refl) as [U1 U2].
    assert (SC : exists rs sc', sc = rs :: sc' /\ rs <> []).
    { unfold sc, scale_AE, mmul. destruct U as [|u U']; [cbn [length] in U1; lia|]. cbn [map]. do 2 eexists. split; [reflexivity|].
      intros E. apply (f_equal (@length xr)) in E. cbn [length] in E. rewrite map_length, seq_length in E.
      unfold mtr in E. inversion U2; subst. cbn [hd] in E. destruct u as [|u0 u']; [cbn [length] in *; lia|]. cbn [seq map hd length mcol] in E. discriminate E. }
    destruct SC as (rs & sc' & Esc & Hrs). exists (map (fun j => @ndot RX rs (mcol j base)) (seq 0 (length (hd [] base)))). split.
    + unfold mmul. rewrite Esc. cbn [map]. left. reflexivity.
    + replace (length (hd [] base)) with (x_n c) by (rewrite EB; cbn [hd]; symmetry; exact N0). destruct (x_n c) as [|n']; [lia|]. cbn [seq map]. left. apply ndot_nan_r; [exact Hrs| |].
      * unfold mcol. rewrite EB. discriminate.
      * unfold mcol. apply Forall_forall. intros v Hv. apply in_map_iff in Hv. destruct Hv as (r & <- & Hr).
        rewrite Forall_forall in S2, S3. pose proof (S2 r Hr) as E2. pose proof (S3 r Hr) as E3. destruct r; [cbn [length] in E2; lia|]. inversion E3; subst. reflexivity.
  - rewrite NF; [reflexivity|]. exists r0. auto.
Qed.

Lemma scale_AE_row n U k hd0 : mshape n U -> (0 < n)%nat -> exists rs sc', @scale_AE RX U k hd0 = rs :: sc' /\ rs <> [].
Proof.
  intros [U1 U2] Hn. unfold scale_AE, mmul. destruct U as [|u U']; [cbn [length] in U1; lia|]. cbn [map]. do 2 eexists. split; [reflexivity|].
  intros E. apply (f_equal (@length xr)) in E. cbn [length] in E. rewrite map_length, seq_length in E.
  unfold mtr in E. inversion U2; subst. cbn [hd] in E. destruct u as [|u0 u']; [cbn [length] in *; lia|]. cbn [seq map hd length mcol] in E. discriminate E.
Qed.

Lemma vscale_nan (v : list xr) : Forall (eq NaN) (@vscale RX NaN v) /\ length (@vscale RX NaN v) = length v.
Proof.
  unfold vscale. split; [|apply map_length]. apply Forall_forall. intros x Hx. apply in_map_iff in Hx. destruct Hx as (a & <- & _). reflexivity.
Qed.
Lemma vsub_nan (u v : list xr) : Forall (eq NaN) u -> Forall (eq NaN) (@vsub RX u v).
Proof.
  intros H. revert v. induction H; intros [|b v]; cbn [vsub map2]; constructor; [|apply IHForall]. subst. reflexivity.
Qed.
Lemma vlen2 {X : Type} (g : xr -> xr -> X) (u v : list xr) : length (map2 g u v) = Nat.min (length u) (length v).
Proof. revert v. induction u; intros [|b v]; cbn [map2 length]; auto. rewrite IHu. reflexivity. Qed.
Lemma lincomb_len n ws (K : list (list xr)) : Forall (fun v => length v = n) K -> length (@lincomb RX n ws K) = n.
Proof.
  intros HK. unfold lincomb. assert (G : forall l acc, Forall (fun p : xr * list xr => length (snd p) = n) l -> length acc = n ->
     length (fold_left (fun acc wk => @vadd RX acc (vscale (fst wk) (snd wk))) l acc) = n).
  { induction l; intros acc HF HL; cbn [fold_left]; [exact HL|]. inversion HF; subst. apply IHl; [assumption|]. unfold vadd. etransitivity; [apply vlen2|]. unfold vscale. rewrite map_length. change (num RX) with xr in *. lia. }
  apply G; [|apply repeat_length]. clear G. revert K HK. induction ws; intros [|v K] HK; cbn [combine]; constructor; inversion HK; subst; auto.
Qed.
Lemma xmulN a : xmul NaN a = NaN. Proof. destruct a; reflexivity. Qed.
Lemma mv_len (c : ECfg RX) n M (v : list xr) : (forall M', M = Some M' -> mshape n M') -> length v = n -> length (@mv RX M v) = n.
Proof. intros HM Hv. unfold mv. destruct M as [M|]; [|exact Hv]. rewrite map_length. exact (proj1 (HM M eq_refl)). Qed.

Lemma nan_stage m c w t y L left yp : la_ok m c -> w_LU w = Some L -> lu_ok m c w -> length yp = x_n c -> length y = x_n c ->
  match estages m c t NaN y L (S left) 1 (w_rates w n_ninf 0) [yp] [] [] with
  | (SgOk _ _ _, _) => False
  | (SgRaise e, _) => e = lin_error
  | (SgDiv, _) => True
  end.
Proof.
  intros HA HL HU Hp Hy. assert (HA' := HA). destruct HA as (_ & Hn & _ & Hsol & Hf & _ & HM & HUs). cbn [estages].
  set (psi := vadd y _). set (zp := vscale _ _). set (ts := nadd RX t _).
  assert (Lz : length zp = x_n c). { unfold zp, vscale. rewrite map_length, Hy. apply lincomb_len. constructor; auto. }
  unfold NEWTON_MAXITER. cbn [newton].
  set (fv := x_fun c ts _). destruct (forallb nisfin fv) eqn:EF; cbn [negb]; [|exact I].
  cbn [w_rates w_Sc].
  set (res := vsub _ _).
  assert (Hres : Forall (eq NaN) res /\ length res = x_n c).
  { unfold res. destruct (vscale_nan fv) as [V1 V2]. split; [apply vsub_nan; exact V1|]. unfold vsub. etransitivity; [apply vlen2|].
    change (length (@vscale RX NaN fv)) with (length (@vscale RX NaN fv)). rewrite V2. unfold fv. rewrite Hf, (mv_len c (x_n c)); [lia|exact HM|exact Lz]. }
  destruct Hres as [R1 R2].
  assert (HN : forall x, x_solve c L (mv (w_Sc w) res) = Some x -> False).
  { intros x Hx. apply Hsol in Hx. destruct Hx as [Hx _].
    assert (IN : In NaN (@mv RX (w_Sc w) res)).
    { destruct HU as [HU1 HU2]. rewrite HL in HU2. destruct HU2 as (_ & hl & _ & E). unfold iteration_matrix in E.
      assert (Hne : res <> []) by (intros E0; apply (f_equal (@length xr)) in E0; change (@length (num RX) res = 0%nat) in E0; rewrite R2 in E0; lia).
      destruct (x_dae c) as [[U k]|] eqn:ED.
      - apply (f_equal fst) in E. cbn [fst] in E. rewrite E. destruct (scale_AE_row (x_n c) U k (nmul RX hl (em_d m)) (HUs U k eq_refl) Hn) as (rs & sc' & Es & Hrs). rewrite Es. cbn [mv map]. left.
        apply ndot_nan_r; auto.
      - rewrite (HU1 eq_refl). cbn [mv]. destruct res as [|a res']; [congruence|]. inversion R1; subst. left. reflexivity. }
    unfold allfin in Hx. rewrite Forall_forall in Hx. destruct (Hx NaN IN) as [q Hq]. discriminate Hq. }
  destruct (x_solve c L (mv (w_Sc w) res)) as [x|]; [destruct (HN x eq_refl)|reflexivity].
Qed.

Lemma nan_trial m c r s w ms rej : la_ok m c -> egood c r -> winv m c s w -> length (e_y s) = x_n c -> length (e_yp s) = x_n c ->
  match etrial m c s w NaN (Fin ms) rej with
  | EtRaise e => e = lin_error
  | EtAgain w' ha' rej' => ha' = NaN /\ w_LU w' = None /\ winv m c s w'
  | _ => False
  end.
Proof.
  intros HA HG HW Hy Hp. pose proof HW as (W1 & W2 & W3 & W4 & W5).
  pose proof (etrial_inv m c s w NaN (Fin ms) rej W2 W3) as HT.
  destruct HG as (_ & Gd & _).
  unfold etrial in *. cbn [nltb RX xltb] in *. change (nmul RX) with xmul in *. rewrite Gd in *. cbn [xmul] in *.
  destruct (need_lu c w NaN) eqn:EN.
  { rewrite (nan_refused m c w (cd r) HA Gd W4 EN) in *. reflexivity. }
  assert (EF : exists L, factorise m c w NaN = inl (L, w) /\ w_LU w = Some L).
  { unfold factorise. rewrite EN. unfold need_lu in EN. destruct (w_LU w) as [L|]; [eauto|]. cbn [orb] in EN. discriminate EN. }
  destruct EF as (L & EF & EL). rewrite EF in *.
  assert (H2 : (2 <= em_stages m)%nat) by (destruct HA; assumption).
  destruct (em_stages m - 1)%nat as [|left] eqn:ES; [lia|].
  pose proof (nan_stage m c w (e_t s) (e_y s) L left (e_yp s) HA EL W2 Hp Hy) as HN.
  destruct (estages m c (e_t s) NaN (e_y s) L (S left) 1 (w_rates w n_ninf 0) [e_yp s] [] []) as [[K psi z| |e] w2] eqn:EE; [contradiction| |exact HN].
  pose proof (estages_core _ _ _ _ _ _ _ _ _ _ _ _ _ _ EE) as (G1 & _).
  unfold core in G1. cbn [w_rates w_J w_curJ w_LU w_hLU w_Sc w_std w_maxf w_nfs w_nfi w_nlu w_jcalls] in G1.
  injection G1 as K1 K2 K3 K4 K5 K6 K7 K8 K9 K10 K11.
  cbn [w_nfi_up w_curJ] in *. destruct (negb (w_curJ w2)) eqn:EC.
  - destruct (x_jac c) as [jac|] eqn:EJ.
    + split; [reflexivity|]. split; [reflexivity|]. destruct HT as (_ & T1 & T2 & T3 & _).
      split; [cbn [w_newJ w_nfi_up w_maxf]; rewrite K7; exact W1|]. split; [exact T1|]. split; [exact T2|]. split; [cbn [w_newJ w_nfi_up w_J]|].
      * destruct HA as (_ & _ & _ & _ & _ & HJ & _). apply HJ. exact EJ.
      * cbn [w_newJ w_nfi_up w_std]. rewrite K6. exact W5.
    + exfalso. assert (x_linear c = true) by (unfold x_linear; rewrite EJ; reflexivity). rewrite K2, (W3 H) in EC. discriminate EC.
  - split; [reflexivity|]. split; [reflexivity|]. destruct HT as (_ & T1 & T2 & T3 & _).
    split; [cbn [w_control w_dropLU w_nfi_up w_maxf]; rewrite K7; exact W1|]. split; [exact T1|]. split; [exact T2|]. split; [cbn [w_control w_dropLU w_nfi_up w_J]; rewrite K1; exact W4|].
    cbn [w_control w_std]. discriminate.
Qed.

(** with a nan step the loop ends, with an exception, within two more trials *)
Lemma nan_loop m c r s ms : la_ok m c -> egood c r -> length (e_y s) = x_n c -> length (e_yp s) = x_n c -> forall k w rej, winv m c s w ->
  eloop (2 + k) m c s w NaN (Fin ms) rej = IRaise lin_error.
Proof.
  intros HA HG Hy Hp k w rej HW. cbn [Nat.add eloop]. pose proof (nan_trial m c r s w ms rej HA HG HW Hy Hp) as H1.
  destruct (etrial m c s w NaN (Fin ms) rej) as [w'|e|w' ha' rej'|w' h hn tn yn en K]; try contradiction; [rewrite H1; reflexivity|].
  destruct H1 as (-> & HL & HW'). pose proof (nan_trial m c r s w' ms rej' HA HG HW' Hy Hp) as H2.
  assert (E : etrial m c s w' NaN (Fin ms) rej' = EtRaise lin_error).
  { unfold etrial. cbn [nltb RX xltb]. change (nmul RX) with xmul. destruct HG as (_ & Gd & _). rewrite Gd. cbn [xmul].
    rewrite (nan_refused m c w' (cd r) HA Gd); [reflexivity|destruct HW' as (_ & _ & _ & H & _); exact H|]. unfold need_lu. rewrite HL. reflexivity. }
  rewrite E. reflexivity.
Qed.

(** ** the step factors *)
Lemma nrf_factor x : exists q, @pymax RX MIN_FACTOR (@pymin RX (ndiv RX MAX_RATE x) MAX_FACTOR_NRF) = Fin q /\ 1/5 <= q <= 1/2.
Proof.
  assert (E1 : @MIN_FACTOR RX = Fin (1/5)) by (unfold MIN_FACTOR; litR). assert (E2 : @MAX_RATE RX = Fin (1/5)) by (unfold MAX_RATE; litR).
  assert (E3 : @MAX_FACTOR_NRF RX = Fin (1/2)) by (unfold MAX_FACTOR_NRF; litR). rewrite E1, E2, E3.
  set (z := ndiv RX (Fin (1/5)) x). clearbody z. unfold pymin, pymax. cbn [nltb RX].
  destruct z as [z| | |]; cbn [xltb].
  - destruct (Rltb_spec (1/2) z); cbn [xltb].
    + destruct (Rltb_spec (1/5) (1/2)); [|lra]. exists (1/2). split; [reflexivity|lra].
    + destruct (Rltb_spec (1/5) z); [exists z|exists (1/5)]; (split; [reflexivity|lra]).
  - cbn [xltb]. destruct (Rltb_spec (1/5) (1/2)); [|lra]. exists (1/2). split; [reflexivity|lra].
  - exists (1/5). split; [reflexivity|lra].
  - exists (1/5). split; [reflexivity|lra].
Qed.

Definition eshrink (r : econst) : R := Rmax (1/2) (cg r).
Lemma reject_factor_e c r en : egood c r -> xltb en (Fin 1) = false ->
  (exists q, @pymax RX (xmul (x_safety c) (xpow en (x_ee c))) (x_minf c) = Fin q /\ 1/5 <= q <= eshrink r) \/
  (en = NaN /\ @pymax RX (xmul (x_safety c) (xpow en (x_ee c))) (x_minf c) = NaN).
Proof.
  intros (_ & _ & _ & _ & _ & _ & _ & _ & _ & Gg & Gg1 & Ge & Ge1 & Gm & _) Hlt. rewrite Gg, Ge, Gm.
  assert (HH : forall q, 0 <= q <= cg r -> exists q', @pymax RX (Fin q) (Fin (1/5)) = Fin q' /\ 1/5 <= q' <= eshrink r).
  { intros q Hq. unfold pymax. cbn [nltb RX xltb]. destruct (Rltb_spec q (1/5)); eexists; (split; [reflexivity|]); unfold eshrink.
    - split; [lra|]. apply Rle_trans with (1/2); [lra|apply Rmax_l].
    - split; [lra|]. apply Rle_trans with (cg r); [lra|apply Rmax_r]. }
  destruct en as [x| | |]; cbn [xltb] in Hlt; try discriminate.
  - left. apply Rltb_false in Hlt. unfold xpow. destruct (Req_EM_T (ce r) 0); [lra|]. destruct (Rlt_dec 0 x); [|lra]. cbn [xmul]. apply HH.
    pose proof (Rpower_pos x (ce r)). pose proof (Rpower_ge1_neg x (ce r) Hlt). split; [nra|]. rewrite <- (Rmult_1_r (cg r)) at 2.
    apply Rmult_le_compat_l; [lra|]. apply H0. lra.
  - left. unfold xpow. destruct (Req_EM_T (ce r) 0); [lra|]. destruct (Rlt_dec 0 (ce r)); [lra|]. cbn [xmul]. apply HH. lra.
  - right. split; [reflexivity|]. unfold xpow. destruct (Req_EM_T (ce r) 0); [lra|]. cbn [xmul]. reflexivity.
Qed.

Lemma accept_e c r s w en ha rej hn w' : egood c r -> (w_maxf w = Fin 10 \/ w_maxf w = Fin 4) -> 0 < ha -> xltb en (Fin 1) = true ->
  eassess c s w en (Fin ha) rej = inl (true, hn, w') -> exists q, hn = Fin (ha * q) /\ 0 < q <= 10 /\ (rej = true -> q <= 1).
Proof.
  intros (_ & _ & _ & _ & _ & _ & _ & Gt & Gt1 & Gg & Gg1 & Ge & Ge1 & Gm & _) HM Hh Hlt H. unfold eassess in H. rewrite n1_RX in H. cbn [nltb RX] in H. rewrite Hlt in H.
  assert (D : forall f sd, (exists q, f = Fin q /\ 0 < q <= 10) ->
     (if rej then inl (true, nmul RX (Fin ha) (pymin (Fin 1) f), w_control w true (if xltb (pymin (Fin 1) f) MAX_FACTOR then MAX_FACTOR else w_maxf w) (w_nfs w))
      else inl (true, nmul RX (Fin ha) f, w_control w sd (if xltb f MAX_FACTOR then MAX_FACTOR else w_maxf w) (w_nfs w)) : (bool * xr * EWk RX) + exn) = inl (true, hn, w') ->
     exists q, hn = Fin (ha * q) /\ 0 < q <= 10 /\ (rej = true -> q <= 1)).
  { intros f sd (q & -> & Hq) E. destruct rej.
    - unfold pymin in E. cbn [nltb RX xltb] in E. destruct (Rltb_spec q 1); apply (f_equal (fun x => match x with inl (_, a, _) => a | _ => NaN end)) in E; cbn in E; subst hn; eexists; (split; [reflexivity|]); split; try lra; intros; lra.
    - apply (f_equal (fun x => match x with inl (_, a, _) => a | _ => NaN end)) in E. cbn in E. subst hn. exists q. split; [reflexivity|]. split; [lra|discriminate]. }
  cbv zeta in H. rewrite ?n1_RX in H.
  rewrite Gt in H. destruct (xltb en (Fin (cte r))) eqn:Et.
  { apply D in H; [exact H|]. destruct HM as [-> | ->]; eexists; (split; [reflexivity|lra]). }
  assert (exists eo, en = Fin eo /\ cte r <= eo < 1) as (eo & -> & Heo).
  { destruct en as [x| | |]; cbn [xltb] in *; try discriminate. apply Rltb_true in Hlt. apply Rltb_false in Et. exists x. auto. }
  destruct (w_std w).
  - apply D in H; [exact H|]. rewrite Gg, Ge. cbn [npow RX]. destruct (xpow_fin eo (ce r)) as (p & -> & Hp); [lra|]. change (nmul RX) with xmul. cbn [xmul].
    destruct HM as [-> | ->]; unfold pymin; cbn [nltb RX xltb]; match goal with |- context [Rltb ?a ?b] => destruct (Rltb_spec a b) end; eexists; (split; [reflexivity|]); nra.
  - destruct (e_hprev s) as [hp|]; [|discriminate]. destruct (e_errold s) as [eo'|]; [|discriminate]. apply D in H; [exact H|]. rewrite Gm.
    match goal with |- exists q, @pymax RX _ (@pymin RX ?z _) = _ /\ _ => set (zz := z) end. clearbody zz.
    destruct HM as [-> | ->]; unfold pymin, pymax; cbn [nltb RX]; destruct zz as [z| | |]; cbn [xltb].
    all: repeat match goal with |- context [Rltb ?a ?b] => destruct (Rltb_spec a b); cbn [xltb] end; try (eexists; split; [reflexivity|lra]); lra.
Qed.

(** ** lengths *)
Lemma vadd_len n (u v : list xr) : length u = n -> length v = n -> length (@vadd RX u v) = n.
Proof. intros H1 H2. unfold vadd. etransitivity; [apply vlen2|]. change (num RX) with xr in *. lia. Qed.
Lemma newton_len m c ts h psi y L : la_ok m c -> forall left k w z dzo rate z' rr ni w', length z = x_n c ->
  newton m c ts h psi y L left k w z dzo rate = (NwConv z' rr ni, w') -> length z' = x_n c.
Proof.
  intros HA. assert (Hs : forall L b x, x_solve c L b = Some x -> length x = x_n c) by (intros; destruct HA as (_ & _ & _ & H1 & _); eapply H1; eassumption).
  induction left; intros k w z dzo rate z' rr ni w' Lz H; cbn [newton] in H; [discriminate|].
  destruct (negb _); [discriminate|]. destruct (x_solve c L _) as [dz|] eqn:ES; [|discriminate]. pose proof (vadd_len _ _ _ Lz (Hs _ _ _ ES)) as Lz'.
  destruct (x_linear c). { destruct (_ && _)%bool; [|discriminate]. injection H as <- _ _ _. exact Lz'. }
  destruct (nleb _ _ _). { injection H as <- _ _ _. exact Lz'. }
  destruct k; [eapply IHleft; eassumption|]. destruct (_ || _)%bool; [discriminate|].
  destruct (nltb _ _ _); [injection H as <- _ _ _; exact Lz'|]. eapply IHleft; eassumption.
Qed.
Lemma estages_len m c t h y L : la_ok m c -> length y = x_n c -> forall left s w K psi z K' psi' z' w',
  Forall (fun v : list xr => length v = x_n c) K -> estages m c t h y L left s w K psi z = (SgOk K' psi' z', w') ->
  Forall (fun v : list xr => length v = x_n c) K' /\ length K' = (length K + left)%nat /\
  ((left = 0%nat /\ psi' = psi /\ z' = z) \/ (length psi' = x_n c /\ length z' = x_n c)).
Proof.
  intros HA Hy. induction left; intros s w K psi z K' psi' z' w' HK H; cbn [estages] in H.
  { injection H as <- <- <- _. split; [exact HK|]. split; [rewrite Nat.add_0_r; reflexivity|]. left. auto. }
  destruct (newton _ _ _ _ _ _ _ _ _ _ _ _ _) as [[z1 rr ni|rr ni|e] w1] eqn:EN; [|discriminate|discriminate].
  assert (L1 : length z1 = x_n c).
  { eapply newton_len; [exact HA| |exact EN]. unfold vscale. rewrite map_length. rewrite Hy. apply lincomb_len. exact HK. }
  apply IHleft in H.
  2:{ apply Forall_app. split; [exact HK|]. constructor; [|constructor]. rewrite map_length. exact L1. }
  destruct H as (H1 & H2 & H3). split; [exact H1|]. split; [rewrite H2, app_length; cbn [length]; rewrite <- Nat.add_assoc; reflexivity|]. right.
  destruct H3 as [(-> & -> & ->)|H3]; [|exact H3]. split; [|exact L1]. apply vadd_len; [exact Hy|]. unfold vscale. rewrite map_length. rewrite Hy. apply lincomb_len. exact HK.
Qed.

(** ** one trial with a finite step *)
Lemma fin_trial m c r s w h ms rej : la_ok m c -> egood c r -> winv m c s w -> length (e_y s) = x_n c -> length (e_yp s) = x_n c -> 0 < h ->
  match etrial m c s w (Fin h) (Fin ms) rej with
  | EtFail w' => h < ms /\ w' = w
  | EtRaise e => ms <= h /\ e = lin_error
  | EtAgain w' ha' rej' => ms <= h /\ winv m c s w' /\
      (w_jcalls w' = w_jcalls w /\ w_curJ w' = w_curJ w /\ rej' = true /\
        ((exists q, ha' = Fin (h * q) /\ 1/5 <= q <= eshrink r) \/ ha' = NaN) \/
       (w_curJ w = false /\ w_curJ w' = true /\ ha' = Fin h /\ rej' = rej /\ w_jcalls w' = (w_jcalls w ++ [(e_t s, e_y s)])%list))
  | EtAccept w' hh hn tn yn en K => ms <= h /\ ((w_maxf w' = Fin 10 \/ w_maxf w' = Fin 4) /\ lu_ok m c w' /\ lin_ok c w' /\ mshape (x_n c) (w_J w')) /\ hh = Fin (h * cd r) /\ tn = xadd (e_t s) (Fin (h * cd r)) /\
      (exists q, hn = Fin (h * q) /\ 0 < q <= 10 /\ (rej = true -> q <= 1)) /\
      length yn = x_n c /\ Forall (fun v : list xr => length v = x_n c) K /\ length K = em_stages m /\ (exists hl, w_hLU w' = Some hl) /\
      (x_linear c = true -> w_rate w' = NInf) /\ xltb en (Fin 1) = true /\ w_jcalls w' = w_jcalls w
  end.
Proof.
  intros HA HG HW Hy Hp Hh. pose proof HW as (W1 & W2 & W3 & W4 & W5).
  pose proof (etrial_inv m c s w (Fin h) (Fin ms) rej W2 W3) as HT.
  assert (Gd : x_dir c = Fin (cd r)) by (destruct HG as (_ & Gd & _); exact Gd).
  assert (H2 : (2 <= em_stages m)%nat) by (destruct HA; assumption).
  assert (HJ : forall j k t y, x_jac c = Some j -> mshape (x_n c) (j k t y)) by (destruct HA as (_ & _ & _ & _ & _ & HJ & _); exact HJ).
  destruct (etrial m c s w (Fin h) (Fin ms) rej) as [w'|e|w' ha' rej'|w' hh hn tn yn en K] eqn:E.
  - destruct HT as [H1 ->]. cbn [nltb RX xltb] in H1. apply Rltb_true in H1. auto.
  - cbn [nltb RX xltb] in HT. pose proof HT as HT'. apply Rltb_false in HT. split; [lra|].
    unfold etrial in E. cbn [nltb RX xltb] in E. rewrite HT' in E. change (nmul RX) with xmul in E. rewrite Gd in E. cbn [xmul] in E.
    destruct (factorise m c w (Fin (h * cd r))) as [[L w1]|e1] eqn:EF.
    2:{ injection E as <-. unfold factorise in EF. destruct (need_lu _ _ _), (w_LU w); try discriminate EF;
        (match type of EF with (let '(_, _) := ?x in _) = _ => destruct x as [Sc X] end); (destruct (x_luok c X); [discriminate|injection EF as <-; reflexivity]). }
    pose proof (factorise_ok m c w (Fin (h * cd r)) L w1 W2 EF) as (F1 & F2 & F3 & F4 & F5 & F6 & F7 & F8 & F9 & F10 & F11).
    destruct (estages m c (e_t s) (Fin (h * cd r)) (e_y s) L (em_stages m - 1) 1 (w_rates w1 n_ninf 0) [e_yp s] [] []) as [[K psi z| |e1] w2] eqn:EE.
    + pose proof (estages_core _ _ _ _ _ _ _ _ _ _ _ _ _ _ EE) as (G1 & _).
      unfold core in G1. cbn [w_rates w_J w_curJ w_LU w_hLU w_Sc w_std w_maxf w_nfs w_nfi w_nlu w_jcalls] in G1.
      injection G1 as K1 K2 K3 K4 K5 K6 K7 K8 K9 K10 K11.
      assert (FL : forall err' w3 err, (if em_filter m then match x_solve c L (mv (w_Sc w2) err) with Some x => inl (mv (x_M c) x, w_solved w2) | None => inr lin_error end else inl (err, w2)) = @inl (list (num RX) * EWk RX) exn (err', w3) -> w_std w3 = w_std w2).
      { intros err' w3 err E0. destruct (em_filter m); [destruct (x_solve c L (mv (w_Sc w2) err))|]; apply (f_equal (fun q => match q with inl p => Some (w_std (snd p)) | inr _ => None end)) in E0; cbn [snd w_solved w_std] in E0; congruence. }
      match type of E with match ?x with _ => _ end = _ => destruct x as [[err' w3]|e1] eqn:EFL end.
      2:{ injection E as <-. destruct (em_filter m); [|discriminate EFL]. destruct (x_solve c L _); [discriminate|injection EFL as <-; reflexivity]. }
      apply FL in EFL. exfalso.
      match type of E with match ?x with _ => _ end = _ => destruct x as [[[[] ?] ?]|e1] eqn:EA; try discriminate E end.
      unfold eassess in EA. destruct (nltb RX _ n1) in EA; [|discriminate EA]. destruct (nltb RX _ _) in EA; [destruct rej; discriminate EA|].
      destruct (w_std w3) eqn:E3 in EA; [destruct rej; discriminate EA|]. destruct W5 as (hp & eo & H1 & H3).
      { rewrite <- F10, <- K6, <- EFL. exact E3. }
      rewrite H1, H3 in EA. destruct rej; discriminate EA.
    + pose proof (estages_core _ _ _ _ _ _ _ _ _ _ _ _ _ _ EE) as (G1 & _).
      unfold core in G1. cbn [w_rates w_J w_curJ w_LU w_hLU w_Sc w_std w_maxf w_nfs w_nfi w_nlu w_jcalls] in G1.
      injection G1 as K1 K2 K3 K4 K5 K6 K7 K8 K9 K10 K11. exfalso.
      cbn [w_nfi_up w_curJ] in E. destruct (negb (w_curJ w2)) eqn:EC; [|discriminate E].
      destruct (x_jac c) eqn:EJ; [discriminate E|]. assert (EL : x_linear c = true) by (unfold x_linear; rewrite EJ; reflexivity). rewrite K2, F4, (W3 EL) in EC. discriminate EC.
    + injection E as <-. apply estages_raise in EE. destruct EE as [EE|(_ & EL & EB)]; [exact EE|]. exfalso. cbn [w_rates w_curJ w_hLU] in EB.
      rewrite F4, (W3 EL) in EB. cbn [andb] in EB. destruct F11 as [[-> F11]|[F11 _]].
      * unfold need_lu in F11. rewrite EL in F11. destruct (w_hLU w) as [hl|]; [|rewrite !orb_true_r in F11; discriminate F11].
        apply orb_false_iff in F11. destruct F11 as [_ F11]. cbn [andb] in F11. rewrite EB in F11. discriminate F11.
      * rewrite F11 in EB. cbn [neqb RX xeqb] in EB. apply Reqb_false in EB. apply EB. reflexivity.
  - destruct HT as (T0 & T1 & T2 & T3 & T4 & T5). cbn [nltb RX xltb] in T0. apply Rltb_false in T0. split; [lra|].
    assert (MFw : w_maxf w' = Fin 10 \/ w_maxf w' = Fin 4) by (rewrite MAXF_RX in T3; destruct T3 as [-> | ->]; [exact W1|right; reflexivity]).
    destruct T5 as [(TA & -> & ->)|[(TA & -> & TB & TC & x & ->)|(TA & -> & en & Hen & ->)]].
    + destruct TA as (A1 & A2 & A3 & A4 & A5 & A6 & A7 & A8). split.
      * split; [exact MFw|]. split; [exact T1|]. split; [exact T2|]. split; [|rewrite A5; exact W5].
        destruct A8 as (jac & EJ & ->). apply HJ. exact EJ.
      * right. auto.
    + destruct TA as (A1 & A2 & A3 & A4 & A5). split.
      * split; [exact MFw|]. split; [exact T1|]. split; [exact T2|]. split; [rewrite A1; exact W4|]. rewrite A4. discriminate.
      * left. split; [exact A3|]. split; [exact A2|]. split; [reflexivity|]. left. destruct (nrf_factor x) as (q & -> & Hq). exists q. split; [reflexivity|].
        split; [lra|]. unfold eshrink. apply Rle_trans with (1/2); [lra|apply Rmax_l].
    + destruct TA as (A1 & A2 & A3 & A4 & A5). split.
      * split; [exact MFw|]. split; [exact T1|]. split; [exact T2|]. split; [rewrite A1; exact W4|]. rewrite A4. discriminate.
      * left. split; [exact A3|]. split; [exact A2|]. split; [reflexivity|]. rewrite n1_RX in Hen. change (nltb RX) with xltb in Hen. change (npow RX) with xpow. change (nmul RX) with xmul.
        destruct (reject_factor_e c r en HG Hen) as [(q & -> & Hq)|(_ & ->)]; [left|right; reflexivity]. exists q. split; [reflexivity|exact Hq].
  - destruct HT as (T0 & T1 & T2 & -> & -> & T3 & T4 & T5 & T6 & T7 & T8 & T9 & (L & w1 & psi & z & w2 & w3 & U1 & U2 & -> & U3 & U4 & U5 & _)).
    cbn [nltb RX xltb] in T0. apply Rltb_false in T0. split; [lra|].
    assert (MFw : w_maxf w' = Fin 10 \/ w_maxf w' = Fin 4) by (rewrite MAXF_RX in T3; destruct T3 as [-> | ->]; [exact W1|right; reflexivity]).
    pose proof (estages_core _ _ _ _ _ _ _ _ _ _ _ _ _ _ U2) as (G1 & _).
    unfold core in G1, U4. cbn [w_rates w_J w_curJ w_LU w_hLU w_Sc w_std w_maxf w_nfs w_nfi w_nlu w_jcalls] in G1.
    injection G1 as K1 K2 K3 K4 K5 K6 K7 K8 K9 K10 K11. injection U4 as M1 M2 M3 M4 M5 M6 M7 M8 M9 M10 M11.
    pose proof (factorise_ok m c w _ L w1 W2 U1) as (F1 & F2 & F3 & F4 & F5 & F6 & F7 & F8 & F9 & F10 & F11).
    pose proof (eassess_core _ _ _ _ _ _ _ _ _ U3) as ((J1 & J2 & J3 & J4 & J5 & J6 & J7 & J8 & J9 & J10) & _).
    rewrite n1_RX in T4. change (nltb RX) with xltb in T4.
    pose proof (estages_len m c (e_t s) _ (e_y s) L HA Hy _ _ _ _ _ _ _ _ _ _ (Forall_cons _ Hp (Forall_nil _)) U2) as (L1 & L2 & L3).
    split.
    { split; [exact MFw|]. split; [exact T1|]. split; [exact T2|]. rewrite J1, M1, K1, F3; exact W4. }
    split; [rewrite Gd; reflexivity|]. split; [rewrite Gd; reflexivity|]. split.
    { eapply accept_e; [exact HG| |exact Hh|exact T4|exact U3]. rewrite M7, K7. cbn [w_rates w_maxf]. rewrite F9. exact W1. }
    split; [destruct L3 as [(L3 & _)|[L3 L4]]; [lia|]; apply vadd_len; [exact L3|unfold vscale; rewrite map_length; exact L4]|].
    split; [exact L1|]. split; [rewrite L2; cbn [length]; lia|]. split; [exact T6|]. split; [|split; [exact T4|exact T5]].
    intros HL. rewrite J6, U5. pose proof (estages_rate_linear m c (e_t s) _ (e_y s) L HL _ _ (w_rates w1 n_ninf 0) _ _ _ _ _ eq_refl U2) as R. cbn iota in R. rewrite R. reflexivity.
Qed.
