(** The DAE constructor over RX: counting singular values, the blocks of U^T J V^T, consistent
    values and derivatives. *)
From Coq Require Import String Reals Lra QArith Qreals Bool Lia List Arith.
From Verif Require Import Arith Common Stiff RK HStart RKInit RX Tableaux Classes Dense Ode RKReal HStartReal RKInitReal Series OrderRK OrderModel RKSpecProofs OrderPairN StiffReal GlobalAccept
  ESDIRK ESDCls ESDGen ESDReal ESDTop ESDInv ESDLin ESDLin2 DAE DAEReal.
Import ListNotations.
Close Scope string_scope. Open Scope nat_scope. Open Scope R_scope.

Notation FV := (map Fin).
Notation FM := (map (map Fin)).

Ltac rwx E H := let Q := fresh "Q" in pose proof E as Q; change (num RX) with xr in Q; change (num RX) with xr in H; rewrite Q in H; clear Q.
(** ** lists *)
Lemma fin_inj (a b : list R) : map Fin a = map Fin b -> a = b.
Proof. revert b. induction a as [|x a IH]; intros [|y b] H; try discriminate; [reflexivity|]. injection H as -> H. f_equal. apply IH, H. Qed.

Lemma filter_sorted lim : forall s : list R, (forall i j, (i <= j < length s)%nat -> nth j s 0 <= nth i s 0) ->
  let k := length (filter (fun x => nltb RX x (Fin lim)) (map Fin s)) in
  (k <= length s)%nat /\ (forall i, (i < length s - k)%nat -> lim <= nth i s 0) /\ forall i, (length s - k <= i < length s)%nat -> nth i s 0 < lim.
Proof.
  induction s as [|a s IH]; intros Hs; [cbn; split; [lia|split; intros; lia]|].
  assert (Hs' : forall i j, (i <= j < length s)%nat -> nth j s 0 <= nth i s 0) by (intros i j H; apply (Hs (S i) (S j)); cbn [length]; lia).
  specialize (IH Hs'). cbn zeta in IH |- *. set (p := fun x => nltb RX x (Fin lim)) in *.
  cbn [map filter]. unfold p at 1 4 7. cbn [nltb RX xltb]. destruct (Rltb_spec a lim) as [Ha|Ha].
  - assert (E : filter p (map Fin s) = map Fin s).
    { assert (G : Forall (fun x => x < lim) s).
      { apply Forall_forall. intros x Hx. apply (In_nth _ _ 0) in Hx. destruct Hx as (i & Hi & <-). pose proof (Hs 0%nat (S i) ltac:(cbn [length]; lia)) as B. cbn [nth] in B. lra. }
      clear -G. induction G as [|x s Hx G IH]; [reflexivity|]. cbn [map filter]. unfold p at 1. cbn [nltb RX xltb]. destruct (Rltb_spec x lim); [|lra]. rewrite IH. reflexivity. }
    change (num RX) with xr in *. rewrite E. cbn [length]. rewrite map_length. split; [lia|]. split; [intros; lia|]. intros i Hi.
    pose proof (Hs 0%nat i ltac:(cbn [length]; lia)) as B. change (nth 0 (a :: s) 0) with a in B. lra.
  - destruct IH as (B1 & B2 & B3). change (num RX) with xr in *. set (k := length (filter p (map Fin s))) in *. clearbody k. clear p Hs Hs'. cbn [length]. split; [lia|]. split.
    + intros [|i] Hi; [cbn [nth]; lra|]. cbn [nth]. apply B2. lia.
    + intros [|i] Hi; [lia|]. cbn [nth]. apply B3. lia.
Qed.

Lemma mv_rect k (X : list (list R)) (v : list R) : Forall (fun r => length r = k) X -> length v = k ->
  @mv RX (Some (FM X)) (FV v) = FV (map (fun r => rsum k (fun l => nth l r 0 * nth l v 0)) X).
Proof. intros HX Hv. cbn [mv]. rewrite !map_map. apply map_ext_in. intros r Hr. rewrite Forall_forall in HX. apply ndot_fin; auto. Qed.

Lemma mv_sq d (X : list (list R)) (v : list R) : rshape d X -> length v = d -> @mv RX (Some (FM X)) (FV v) = FV (rvec d (rmv d X v)).
Proof.
  intros HX Hv. destruct (mv_fin d X v HX Hv) as (r & E & L & N). rewrite E. f_equal. apply nth_eq_list; [unfold rvec; rewrite map_length, seq_length; exact L|].
  intros q Hq. rewrite N, rvec_nth by congruence. reflexivity.
Qed.
Lemma rvec_len d g : length (rvec d g) = d. Proof. unfold rvec. rewrite map_length, seq_length. reflexivity. Qed.

Definition rconj (d : nat) (U J V : list (list R)) : list (list R) := rmmul d (rmmul d (rtr d U) J) (rtr d V).
Lemma conj_fin d U J V : rshape d U -> rshape d J -> rshape d V -> @conj_mat RX (FM U) (FM J) (FM V) = FM (rconj d U J V).
Proof.
  intros HU HJ HV. unfold conj_mat, rconj. rewrite (mtr_fin d U HU), (mtr_fin d V HV).
  rewrite (mmul_fin d (rtr d U) J) by (first [apply rtr_shape; exact HU|exact HJ]). apply mmul_fin; [apply rmmul_shape|]; apply rtr_shape; assumption.
Qed.
Lemma rconj_shape d U J V : rshape d U -> rshape d (rconj d U J V).
Proof. intros HU. apply rmmul_shape, rmmul_shape, rtr_shape, HU. Qed.
Lemma rconj_mv d U J V z q : rshape d U -> (q < d)%nat ->
  rmv d (rconj d U J V) z q = rmv d (rtr d U) (rvec d (rmv d J (rvec d (rmv d (rtr d V) z)))) q.
Proof.
  intros HU Hq. unfold rconj. rewrite rmv_mmul by (first [exact Hq|apply rmmul_shape, rtr_shape, HU]).
  rewrite rmv_mmul by (first [exact Hq|apply rtr_shape, HU]). reflexivity.
Qed.

(** ** blocks *)
Definition bvv (nu : nat) (G : list (list R)) := map (skipn nu) (skipn nu G).
Definition bvu (nu : nat) (G : list (list R)) := map (firstn nu) (skipn nu G).
Lemma bvv_fin nu G : map (skipn nu) (skipn nu (FM G)) = FM (bvv nu G).
Proof. unfold bvv. rewrite skipn_map, !map_map. apply map_ext. intros r. apply skipn_map. Qed.
Lemma bvu_fin nu G : map (firstn nu) (skipn nu (FM G)) = FM (bvu nu G).
Proof. unfold bvu. rewrite skipn_map, !map_map. apply map_ext. intros r. apply firstn_map. Qed.
Lemma skipn_In {X} n (l : list X) x : In x (skipn n l) -> In x l.
Proof. intros H. rewrite <- (firstn_skipn n l). apply in_or_app. right. exact H. Qed.
Lemma bvv_shape d nu G : rshape d G -> rshape (d - nu) (bvv nu G).
Proof.
  intros [L H]. rewrite Forall_forall in H. unfold bvv. split; [rewrite map_length, skipn_length; lia|]. apply Forall_forall. intros r Hr. apply in_map_iff in Hr. destruct Hr as (x & <- & Hx).
  rewrite skipn_length, (H x); [reflexivity|]. apply skipn_In in Hx. exact Hx.
Qed.
Lemma bvu_rows d nu G : (nu <= d)%nat -> rshape d G -> length (bvu nu G) = (d - nu)%nat /\ Forall (fun r => length r = nu) (bvu nu G).
Proof.
  intros Hn [L H]. rewrite Forall_forall in H. unfold bvu. split; [rewrite map_length, skipn_length; lia|]. apply Forall_forall. intros r Hr. apply in_map_iff in Hr. destruct Hr as (x & <- & Hx).
  rewrite firstn_length, (H x); [lia|]. apply skipn_In in Hx. exact Hx.
Qed.
Lemma block_mv d nu G u v q : (nu <= d)%nat -> rshape d G -> length u = nu -> length v = (d - nu)%nat -> (q < d - nu)%nat ->
  rmv d G (u ++ v) (nu + q) = rsum nu (fun l => nth l (nth q (bvu nu G) []) 0 * nth l u 0) + rmv (d - nu) (bvv nu G) v q.
Proof.
  intros Hn [L H] Hu Hv Hq. unfold rmv at 1. assert (SP : forall g, rsum d g = rsum nu g + rsum (d - nu) (fun k => g (nu + k)%nat)) by (intros g; rewrite <- rsum_app; f_equal; lia).
  rewrite SP. f_equal.
  - apply rsum_ext. intros l Hl. unfold bvu. rewrite nthl_map by (rewrite skipn_length; lia). rewrite nth_skipn, nth_firstn_lt by exact Hl. rewrite app_nth1 by lia. reflexivity.
  - unfold rmv. apply rsum_ext. intros l Hl. unfold bvv. rewrite nthl_map by (rewrite skipn_length; lia). rewrite !nth_skipn. rewrite app_nth2 by lia. f_equal. f_equal. lia.
Qed.

(** np.allclose(x, 0) *)
Lemma close0_RX x : @close0 RX (Fin x) = true <-> Rabs x <= 1 / 100000000.
Proof.
  unfold close0. rewrite n0_RX, !lit_RX. cbn [nleb nabs nsub nadd nmul RX]. unfold xsub. cbn [xopp xadd xabs xmul xleb].
  replace (x + - 0) with x by ring. rewrite Rabs_R0. replace (Q2R (1 # 100000000) + Q2R (1 # 100000) * 0) with (1 / 100000000) by (unfold Q2R; cbn [Qnum Qden]; lra).
  match goal with |- Rleb ?a ?b = true <-> _ => destruct (Rleb_spec a b) end; split; intros; auto; try discriminate; lra.
Qed.
Lemma forallb_close0 (l : list R) : forallb (@close0 RX) (FV l) = true <-> forall i, (i < length l)%nat -> Rabs (nth i l 0) <= 1 / 100000000.
Proof.
  rewrite forallb_forall. split.
  - intros H i Hi. apply close0_RX, H. apply in_map. apply nth_In. exact Hi.
  - intros H x Hx. apply in_map_iff in Hx. destruct Hx as (a & <- & Ha). apply (In_nth _ _ 0) in Ha. destruct Ha as (i & Hi & <-). apply close0_RX, H, Hi.
Qed.

(** the time increment of h_start *)
Lemma hs_da_RX a dx : dx <> 0 -> exists da, @hs_da RX (Fin a) (Fin dx) = Fin da /\ 0 < da * dx.
Proof.
  intros Hd. destruct relper_RX as (q & Eq & Hq). pose proof small_pos as Hs. unfold hs_da. rewrite Eq, nsmall_RX, lit_RX. cbn [nmul nabs RX xmul xabs].
  rewrite pymin_fin. rewrite pymax_fin. cbn [ncopysign RX]. unfold por. rewrite n0_RX.
  set (mm := Rmax _ _). assert (Hm : 0 <= mm).
  { unfold mm. eapply Rle_trans; [|apply Rmax_r]. replace (Q2R 100) with 100 by (unfold Q2R; cbn; lra). apply Rmult_le_pos; [lra|apply Rabs_pos]. }
  cbn [nmul RX]. unfold xcopysign. cbn [xabs xopp]. rewrite (Rabs_right mm) by lra.
  assert (Hdd : 0 < q * (dx * dx)) by (apply Rmult_lt_0_compat; [lra|]; pose proof (Rsqr_pos_lt dx Hd) as B; unfold Rsqr in B; exact B).
  destruct (Rlt_dec dx 0) as [Hx|Hx]; cbn [neqb RX xeqb]; match goal with |- context [Reqb ?u ?v] => destruct (Reqb_spec u v) as [E|E] end; cbn [xmul];
    eexists; (split; [reflexivity|]); try lra; clearbody mm.
  - assert (0 < mm * - dx) by (apply Rmult_lt_0_compat; lra). lra.
  - apply Rmult_lt_0_compat; lra.
Qed.

(** ** consistent values *)
(** scipy.optimize.root: when it reports success, the residuals are at most e *)
Definition root_within (e : R) (root : (list xr -> list xr) -> (list xr -> list (list xr)) -> list xr -> option (list xr)) : Prop :=
  forall g jac v0 v, root g jac v0 = Some v ->
  exists v', v = map Fin v' /\ length v' = length v0 /\ Forall (fun x => exists r, x = Fin r /\ Rabs r <= e) (g v).

Section Ics.
Variables (d k : nat) (L : Lin RX) (U V : list (list R)) (F : R -> list R -> list R) (f : xr -> list xr -> list xr).
Hypothesis Hk : (k <= d)%nat.
Hypothesis HU : orthogonal d U.
Hypothesis HV : orthogonal d V.
Hypothesis HF : lifts d F f.
Notation nu := (d - k)%nat.
Notation ut := (rmv d (rtr d U)).

Lemma consistent_y_real e t0 y0 J0 (jac : list xr -> list (list xr)) y1 f1 J1 u1 :
  0 <= e -> root_within e (l_root L) -> length y0 = d -> rshape d J0 ->
  (forall y, length y = d -> exists J, jac (FV y) = FM J /\ rshape d J) ->
  consistent_y L f jac (FM U) (FM V) k (Fin t0) (FV y0) (FV (F t0 y0)) (FM J0) = inl (y1, f1, J1, u1) ->
  exists y J u, y1 = FV y /\ length y = d /\ f1 = FV (F t0 y) /\ J1 = FM J /\ rshape d J /\ u1 = FV u /\ length u = nu /\
    l_rank L (FM (bvv nu (rconj d U J0 V))) = k /\
    (forall l, (l < nu)%nat -> rmv d V y l = rmv d V y0 l) /\
    (forall l, (nu <= l < d)%nat -> Rabs (ut (F t0 y) l) <= Rmax e (1 / 100000000)) /\
    ((y = y0 /\ J = J0) \/ (FM J = jac (FV y) /\ forall l, (nu <= l < d)%nat -> Rabs (ut (F t0 y) l) <= e)) /\
    ((forall l, (nu <= l < d)%nat -> Rabs (ut (F t0 y0) l) <= 1 / 100000000) -> y = y0 /\ J = J0).
Proof.
  intros He Hroot Hy HJ0 Hjac H. pose proof (proj1 HU) as SU. pose proof (proj1 HV) as SV. unfold consistent_y in H. rewrite map_length, Hy in H. cbv zeta in H.
  rwx (conj_fin d U J0 V SU HJ0 SV) H. rwx (bvv_fin nu (rconj d U J0 V)) H.
  destruct (Nat.eqb_spec (l_rank L (FM (bvv nu (rconj d U J0 V)))) k) as [Er|]; cbn [negb] in H; [|discriminate H].
  destruct (HF t0 y0 Hy) as (LF0 & _).
  rwx (mtr_fin d U SU) H. rwx (mtr_fin d V SV) H.
  rwx (mv_sq d V y0 SV Hy) H. rwx (mv_sq d (rtr d U) (F t0 y0) (rtr_shape d U SU) LF0) H.
  rewrite !skipn_map, !firstn_map in H. change (num RX) with xr in *.
  match type of H with (if ?b then _ else _) = _ => destruct b eqn:Ec end.
  - injection H as <- <- <- <-. exists y0, J0, (firstn nu (rvec d (rmv d V y0))).
    do 3 (split; [first [reflexivity|exact Hy]|]). split; [reflexivity|]. split; [exact HJ0|]. split; [reflexivity|].
    split; [rewrite firstn_length, rvec_len; lia|]. split; [exact Er|]. split; [reflexivity|]. split; [|auto].
    intros l Hl. eapply Rle_trans; [|apply Rmax_r]. rewrite forallb_close0 in Ec. rewrite skipn_length, rvec_len in Ec.
    pose proof (Ec (l - nu)%nat ltac:(lia)) as B. rewrite nth_skipn, rvec_nth in B by lia. replace (nu + (l - nu))%nat with l in B by lia. exact B.
  - match type of H with (match ?X with Some _ => _ | None => _ end = _) => destruct X as [v|] eqn:Ev; [|discriminate H] end.
    destruct (Hroot _ _ _ _ Ev) as (v' & -> & Lv & Hres). rewrite map_length, skipn_length, rvec_len in Lv.
    set (u := firstn nu (rvec d (rmv d V y0))) in *. assert (Lu : length u = nu) by (unfold u; rewrite firstn_length, rvec_len; lia).
    cbv beta in Hres. rewrite <- !map_app in Hres, H. assert (Luv : length (u ++ v') = d) by (rewrite app_length; lia).
    rwx (mv_sq d (rtr d V) (u ++ v') (rtr_shape d V SV) Luv) H. rwx (mv_sq d (rtr d V) (u ++ v') (rtr_shape d V SV) Luv) Hres.
    set (y := rvec d (rmv d (rtr d V) (u ++ v'))) in *. assert (Ly : length y = d) by apply rvec_len.
    destruct (HF t0 y Ly) as (LF & EF). change (num RX) with xr in *. rewrite EF in Hres, H.
    rwx (mv_sq d (rtr d U) (F t0 y) (rtr_shape d U SU) LF) Hres. rewrite skipn_map in Hres.
    destruct (Hjac y Ly) as (J & EJ & SJ). injection H as <- <- <- <-.
    assert (Hsmall : forall l, (nu <= l < d)%nat -> Rabs (ut (F t0 y) l) <= e).
    { intros l Hl. rewrite Forall_forall in Hres. destruct (Hres (Fin (ut (F t0 y) l))) as (r & E1 & E2).
      - apply in_map. replace (ut (F t0 y) l) with (nth (l - nu) (skipn nu (rvec d (ut (F t0 y)))) 0).
        + apply nth_In. rewrite skipn_length, rvec_len. lia.
        + rewrite nth_skipn, rvec_nth by lia. f_equal. lia.
      - injection E1 as ->. exact E2. }
    exists y, J, u. do 3 (split; [first [reflexivity|exact Ly]|]). split; [exact EJ|]. split; [exact SJ|]. split; [reflexivity|]. split; [exact Lu|]. split; [exact Er|]. split; [|split; [|split]].
    + intros l Hl. unfold y. rewrite orth_out by (first [exact HV|lia]). rewrite app_nth1 by lia. unfold u. rewrite nth_firstn_lt by exact Hl. apply rvec_nth. lia.
    + intros l Hl. eapply Rle_trans; [|apply Rmax_l]. apply Hsmall, Hl.
    + right. split; [symmetry; exact EJ|exact Hsmall].
    + intros Hc. exfalso. assert (T : forallb close0 (FV (skipn nu (rvec d (ut (F t0 y0))))) = true); [|exact (Bool.eq_true_false_abs _ T Ec)].
      apply forallb_close0. rewrite skipn_length, rvec_len. intros i Hi. rewrite nth_skipn, rvec_nth by lia. apply Hc. lia.
Qed.

Lemma consistent_yp_real s y fv J (u : list xr) fdot r :
  exact_solve k (l_solve L) -> length s = d -> (forall l, (l < nu)%nat -> nth l s 0 <> 0) ->
  length y = d -> length fv = d -> rshape d J -> length fdot = d ->
  consistent_yp L (FM U) (FV s) (FM V) k (FV y) (FV fv) (FM J) u (FV fdot) = inl r ->
  exists yp z, i_y r = FV y /\ i_J r = FM J /\ i_u r = u /\ i_yp r = FV yp /\ length yp = d /\ length z = d /\
    (forall l, (l < d)%nat -> nth l yp 0 = rmv d (rtr d V) z l) /\
    (forall l, (l < nu)%nat -> nth l z 0 = ut fv l / nth l s 0) /\
    (forall l, (nu <= l < d)%nat -> ut fdot l + ut (rvec d (rmv d J yp)) l = 0).
Proof.
  intros HX Ls Hs Ly Lf HJ Ld H. pose proof (proj1 HU) as SU. pose proof (proj1 HV) as SV. unfold consistent_yp in H. rewrite map_length, Ly in H. cbv zeta in H.
  rwx (conj_fin d U J V SU HJ SV) H. rwx (bvv_fin nu (rconj d U J V)) H. rwx (bvu_fin nu (rconj d U J V)) H. rwx (mtr_fin d U SU) H. rwx (mtr_fin d V SV) H.
  rwx (mv_sq d (rtr d U) fdot (rtr_shape d U SU) Ld) H. rwx (mv_sq d (rtr d U) fv (rtr_shape d U SU) Lf) H.
  rewrite !skipn_map, !firstn_map in H. change (num RX) with xr in *.
  set (G := rconj d U J V) in *. assert (SG : rshape d G) by (apply rconj_shape, SU).
  set (gu := firstn nu (rvec d (ut fv))) in *. set (su := firstn nu s) in *.
  assert (Lgu : length gu = nu) by (unfold gu; rewrite firstn_length, rvec_len; lia). assert (Lsu : length su = nu) by (unfold su; rewrite firstn_length; lia).
  assert (Ediv : @vdiv RX (FV gu) (FV su) = FV (map2 Rdiv gu su)).
  { apply StiffReal.vdiv_fin. apply Forall_forall. intros x Hx. apply (In_nth _ _ 0) in Hx. destruct Hx as (i & Hi & <-). unfold su. rewrite nth_firstn_lt by lia. apply Hs. lia. }
  change (num RX) with xr in *. rewrite Ediv in H. set (ud := map2 Rdiv gu su) in *.
  assert (Lud : length ud = nu) by (unfold ud; rewrite GlobalAccept.map2_len; lia).
  destruct (bvu_rows d nu G ltac:(lia) SG) as (Lb & Rb). rwx (mv_rect nu (bvu nu G) ud Rb Lud) H.
  set (gd := skipn nu (rvec d (ut fdot))) in *. assert (Lgd : length gd = k) by (unfold gd; rewrite skipn_length, rvec_len; lia).
  set (rhs0 := map (fun r0 => rsum nu (fun l => nth l r0 0 * nth l ud 0)) (bvu nu G)) in *.
  assert (Lr0 : length rhs0 = k) by (unfold rhs0; rewrite map_length; lia).
  destruct (map2_fin (nadd RX) Rplus (fun _ _ => eq_refl) gd rhs0) as (rhs & Er & Lr & Nr); [congruence|].
  unfold vadd at 1 in H. rewrite Er in H.
  match type of H with (match ?X with Some _ => _ | None => _ end = _) => destruct X as [x|] eqn:Ex; [|discriminate H] end.
  pose proof (bvv_shape d nu G SG) as SB. replace (d - nu)%nat with k in SB by lia.
  destruct (HX (bvv nu G) rhs x SB ltac:(congruence) Ex) as (x' & -> & Lx & Nx).
  match type of H with (match ?X with Some _ => _ | None => _ end = _) => destruct X as [Z|] eqn:EZ; [|discriminate H] end.
  assert (Eo : map (nopp RX) (FV x') = FV (map Ropp x')) by (rewrite !map_map; reflexivity). change (num RX) with xr in *. rewrite Eo in H. rewrite <- map_app in H.
  assert (Lz : length (ud ++ map Ropp x') = d) by (rewrite app_length, map_length; lia).
  rwx (mv_sq d (rtr d V) (ud ++ map Ropp x') (rtr_shape d V SV) Lz) H.
  set (yp := rvec d (rmv d (rtr d V) (ud ++ map Ropp x'))) in *.
  exists yp, (ud ++ map Ropp x')%list. injection H as <-. cbn [i_y i_J i_u i_yp]. do 4 (split; [reflexivity|]).
  split; [apply rvec_len|]. split; [exact Lz|]. split; [intros l Hl; apply rvec_nth; exact Hl|]. split.
  - intros l Hl. rewrite app_nth1 by lia. unfold ud. rewrite (GlobalAccept.map2_nth Rdiv gu su l 0 0 0) by lia. unfold gu, su. rewrite !nth_firstn_lt by exact Hl. rewrite rvec_nth by lia. reflexivity.
  - intros l Hl. unfold yp. rewrite <- (rconj_mv d U J V) by (first [exact SU|lia]). fold G.
    replace l with (nu + (l - nu))%nat by lia. set (q := (l - nu)%nat). rewrite (block_mv d nu G) by (first [exact SG|rewrite map_length; lia|lia]).
    replace (d - nu)%nat with k by lia. assert (Hq : (q < k)%nat) by (unfold q; lia).
    replace (rmv k (bvv nu G) (map Ropp x') q) with (- rmv k (bvv nu G) x' q).
    2:{ unfold rmv. rewrite <- (Rmult_1_l (rsum k (fun l0 => nth l0 (nth q (bvv nu G) []) 0 * nth l0 x' 0))), Ropp_mult_distr_l, <- rsum_scal. apply rsum_ext. intros j Hj.
        rewrite (nth_indep (map Ropp x') 0 (- 0)) by (rewrite map_length; lia). rewrite (map_nth Ropp). ring. }
    rewrite (Nx q Hq), Nr by lia. unfold gd, rhs0. rewrite nth_skipn, rvec_nth by lia. rewrite nth0_map by lia. ring.
Qed.
End Ics.
