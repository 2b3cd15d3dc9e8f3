(** When the constructor accepts a DAE (common.py 1823-1920): the steps of _consistent_ICs go
    through for an index-1 problem with consistent initial values. *)
From Coq Require Import String Reals Lra QArith Qreals Bool Lia List Arith.
From Verif Require Import Arith Common Stiff RK HStart RKInit RX Tableaux Classes Dense Ode RKReal HStartReal RKInitReal Series OrderRK OrderModel RKSpecProofs OrderPairN StiffReal GlobalAccept
  ESDIRK ESDCls ESDGen ESDReal ESDTop ESDInv ESDLin ESDLin2 Prop_ESDLin DAE DAEReal DAETop DAEMake.
Import ListNotations.
Close Scope string_scope. Open Scope nat_scope. Open Scope R_scope.
Ltac rwg E := let Q := fresh "Q" in pose proof E as Q; change (num RX) with xr in *; rewrite Q; clear Q.

Section Acc.
Variables (d k : nat) (L : Lin RX) (U V : list (list R)) (F : R -> list R -> list R) (f : xr -> list xr -> list xr).
Hypothesis Hk : (k <= d)%nat.
Hypothesis HU : orthogonal d U.
Hypothesis HV : orthogonal d V.
Hypothesis HF : lifts d F f.
Notation nu := (d - k)%nat.
Notation ut := (rmv d (rtr d U)).

Lemma consistent_y_acc t0 y0 J0 (jac : list xr -> list (list xr)) :
  length y0 = d -> rshape d J0 -> l_rank L (FM (bvv nu (rconj d U J0 V))) = k ->
  (forall l, (nu <= l < d)%nat -> Rabs (ut (F t0 y0) l) <= 1 / 100000000) ->
  consistent_y L f jac (FM U) (FM V) k (Fin t0) (FV y0) (FV (F t0 y0)) (FM J0) =
    inl (FV y0, FV (F t0 y0), FM J0, FV (firstn nu (rvec d (rmv d V y0)))).
Proof.
  intros Hy HJ0 Er Hc. pose proof (proj1 HU) as SU. pose proof (proj1 HV) as SV. unfold consistent_y. rewrite map_length, Hy. cbv zeta.
  rwg (conj_fin d U J0 V SU HJ0 SV). rwg (bvv_fin nu (rconj d U J0 V)). rewrite Er, Nat.eqb_refl. cbn [negb].
  destruct (HF t0 y0 Hy) as (LF0 & _).
  rwg (mtr_fin d U SU). rwg (mtr_fin d V SV).
  rwg (mv_sq d V y0 SV Hy). rwg (mv_sq d (rtr d U) (F t0 y0) (rtr_shape d U SU) LF0).
  rewrite !skipn_map, !firstn_map. change (num RX) with xr in *.
  assert (T : forallb close0 (FV (skipn nu (rvec d (ut (F t0 y0))))) = true).
  { apply forallb_close0. rewrite skipn_length, rvec_len. intros i Hi. rewrite nth_skipn, rvec_nth by lia. apply Hc. lia. }
  change (num RX) with xr in *. rewrite T. reflexivity.
Qed.

Lemma all_some_total {A B} (g : A -> option B) : forall l, (forall x, In x l -> exists y, g x = Some y) -> exists r, all_some (map g l) = Some r.
Proof.
  induction l as [|x l IH]; intros H; cbn [map all_some]; [eauto|]. destruct (H x (or_introl eq_refl)) as (y & ->).
  destruct IH as (r & ->); [intros z Hz; apply H; right; exact Hz|]. eauto.
Qed.

Lemma consistent_yp_acc s y fv J (u : list xr) fdot :
  exact_solve k (l_solve L) -> length s = d -> (forall l, (l < nu)%nat -> nth l s 0 <> 0) ->
  length y = d -> length fv = d -> rshape d J -> length fdot = d ->
  (forall b, length b = k -> exists x, l_solve L (FM (bvv nu (rconj d U J V))) (FV b) = Some x) ->
  exists r, consistent_yp L (FM U) (FV s) (FM V) k (FV y) (FV fv) (FM J) u (FV fdot) = inl r.
Proof.
  intros HX Ls Hs Ly Lf HJ Ld Htot. pose proof (proj1 HU) as SU. pose proof (proj1 HV) as SV. unfold consistent_yp. rewrite map_length, Ly. cbv zeta.
  rwg (conj_fin d U J V SU HJ SV). rwg (bvv_fin nu (rconj d U J V)). rwg (bvu_fin nu (rconj d U J V)). rwg (mtr_fin d U SU). rwg (mtr_fin d V SV).
  rwg (mv_sq d (rtr d U) fdot (rtr_shape d U SU) Ld). rwg (mv_sq d (rtr d U) fv (rtr_shape d U SU) Lf).
  rewrite !skipn_map, !firstn_map. change (num RX) with xr in *.
  set (G := rconj d U J V) in *. assert (SG : rshape d G) by (apply rconj_shape, SU).
  set (gu := firstn nu (rvec d (ut fv))) in *. set (su := firstn nu s) in *.
  assert (Lgu : length gu = nu) by (unfold gu; rewrite firstn_length, rvec_len; lia). assert (Lsu : length su = nu) by (unfold su; rewrite firstn_length; lia).
  assert (Ediv : @vdiv RX (FV gu) (FV su) = FV (map2 Rdiv gu su)).
  { apply StiffReal.vdiv_fin. apply Forall_forall. intros x Hx. apply (In_nth _ _ 0) in Hx. destruct Hx as (i & Hi & <-). unfold su. rewrite nth_firstn_lt by lia. apply Hs. lia. }
  change (num RX) with xr in *. rewrite Ediv. set (ud := map2 Rdiv gu su) in *.
  assert (Lud : length ud = nu) by (unfold ud; rewrite GlobalAccept.map2_len; lia).
  destruct (bvu_rows d nu G ltac:(lia) SG) as (Lb & Rb). rwg (mv_rect nu (bvu nu G) ud Rb Lud).
  set (gd := skipn nu (rvec d (ut fdot))) in *. assert (Lgd : length gd = k) by (unfold gd; rewrite skipn_length, rvec_len; lia).
  set (rhs0 := map (fun r0 => rsum nu (fun l => nth l r0 0 * nth l ud 0)) (bvu nu G)) in *.
  assert (Lr0 : length rhs0 = k) by (unfold rhs0; rewrite map_length; lia).
  destruct (map2_fin (nadd RX) Rplus (fun _ _ => eq_refl) gd rhs0) as (rhs & Er & Lr & Nr); [congruence|].
  unfold vadd at 1. rewrite Er. destruct (Htot rhs ltac:(congruence)) as (x & Ex). rewrite Ex.
  assert (EZ : exists Z, msolve L (FM (bvv nu G)) (FM (bvu nu G)) = Some Z).
  { unfold msolve. destruct (all_some_total (fun j => l_solve L (FM (bvv nu G)) (mcol j (FM (bvu nu G)))) (seq 0 (length (hd [] (FM (bvu nu G)))))) as (cols & E).
    - intros j _. pose proof (mcol_fin j (bvu nu G)) as E. change (num RX) with xr in *. rewrite E. apply Htot. rewrite map_length. lia.
    - change (num RX) with xr in *. rewrite E. eauto. }
  destruct EZ as (Z & EZ). change (num RX) with xr in *. rewrite EZ. eauto.
Qed.
End Acc.
