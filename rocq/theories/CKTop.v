(** Runs of CKdisc: construction, histories of step() calls; proofs for Prop_CK.v. *)
From Coq Require Import String ZArith Reals Lra Psatz QArith Qreals Bool Lia List.
From Verif Require Import Arith Common Stiff RK RKGen RKHist RX RKReal HStart RKInit RKInitReal RKStep RKBuilt RKTop NormReal SpecRK
  Tableaux Classes Dense Ode CK CKGen CKReal OrderModel OrderRK OrderPair CKOrder.
Import ListNotations.
Close Scope string_scope.
Open Scope nat_scope.
Open Scope R_scope.

Implicit Types (c : Cfg RX) (s : CKst RX).

(** CKdisc(fun, t0, y0, tb, ...) returned a solver *)
Record ck_built (o : Opts RX) fun_ (t0 tb : R) y0 c s : Prop := {
  cb_init : ck_init o fun_ (Fin t0) y0 (Fin tb) = inl (c, s);
  cb_ne : t0 <> tb;
  cb_y : y0 <> [];
  cb_sc : sc_ok (sc_or (o_sc o) (ScName "standard"));
  cb_max : o_max_step o <> NaN;
  cb_first : o_first_step o <> Some NaN
}.
(** n returned step() calls *)
Definition ck_after o fun_ (t0 tb : R) y0 c (n : nat) (v : OSolver RX (CKst RX)) : Prop :=
  exists s, ck_built o fun_ t0 tb y0 c s /\
    ohist ck_view (t_bound c) (direction c) (fun k => ck_step_impl k c) (onew s) n v.
Definition ck_step c (k : nat) (v : OSolver RX (CKst RX)) := ostep ck_view (t_bound c) (direction c) (ck_step_impl k c) v.

Definition ck_failed (v : OSolver RX (CKst RX)) : Prop := exists msg, ostat v = OFailed msg.

Lemma ck_built_good o fun_ t0 tb y0 c s : ck_built o fun_ t0 tb y0 c s ->
  exists r, good_cfg c r /\ ck_live r s /\ RKReal.tb r = tb /\ 0 < dir r * (tb - t0) /\ hb r = sqrt (/ 2 ^ 1022) /\
    t (ckb s) = Fin t0 /\ y (ckb s) = y0 /\ fresh c (ckb s) /\ max_step c = o_max_step o /\ fn c = fun_ /\
    (tw0 s = Fin (3/2) /\ tw1 s = Fin (11/10) /\ qt0 s = Fin 100 /\ qt1 s = Fin 100).
Proof.
  intros [H Hne Hy Hsc Hm Hf]. unfold ck_init in H.
  match type of H with match rk_init ?k ?o' _ _ _ _ with _ => _ end = _ => set (oo := o') in * end.
  destruct (rk_init CKdisc_cls oo fun_ (Fin t0) y0 (Fin tb)) as [[c1 s1]|] eqn:E; [|discriminate].
  apply inl_pair_inj in H. destruct H as [<- <-].
  assert (HC : allfin (k_C (@CKdisc_cls RX))).
  { unfold CKdisc_cls. cbn [k_C]. unfold lv, allfin. apply Forall_forall. intros x Hx. apply in_map_iff in Hx. destruct Hx as (q & <- & _). eexists; reflexivity. }
  destruct (rk_init_good CKdisc_cls oo fun_ t0 tb y0 c1 s1 E Hne Hy HC Hsc Hm Hf)
    as (r & HG & HS & E1 & E2 & E3 & E4 & E5 & E6 & E7 & E8 & E9).
  destruct (rk_init_consts CKdisc_cls oo fun_ (Fin t0) y0 (Fin tb) c1 s1 E) as (Hb & Ht).
  exists r. split; [exact HG|].
  assert (L32 : @lit RX (3#2) = Fin (3/2)) by litR. assert (L100 : @lit RX 100 = Fin 100) by litR.
  cbn [ckb tw0 tw1 qt0 qt1]. rewrite L32, L100, l1110.
  split.
  { split; [apply good_live; exact HS|]. split; [exact E9|].
    split; [exists (3/2); split; [reflexivity|lra]|].
    split; [reflexivity|]. split; (exists 100; split; [reflexivity|lra]). }
  split; [exact E1|]. split.
  { destruct HS as ((x & Hx & Hge) & _). rewrite E3 in Hx. injection Hx as <-. rewrite E1 in Hge.
    destruct HG as (_ & ([D|D] & _) & _); rewrite D in *; [assert (tb - t0 <> 0) by lra|assert (tb - t0 <> 0) by lra]; lra. }
  split; [destruct HG as ((_ & _ & _ & Hb' & _) & _); congruence|].
  split; [exact E3|]. split; [exact E4|].
  split; [unfold fresh; rewrite E5, E3, E4; reflexivity|]. split; [exact E6|]. split; [exact E7|]. repeat split.
Qed.

(** the invariant of a running solver *)
Definition ck_inv c (r : rconst) s : Prop := ck_live r s /\ fresh c (ckb s).
Lemma ck_after_inv o fun_ t0 tb y0 c n v : ck_after o fun_ t0 tb y0 c n v ->
  exists r s0, good_cfg c r /\ RKReal.tb r = tb /\ 0 < dir r * (tb - t0) /\ hb r = sqrt (/ 2 ^ 1022) /\ max_step c = o_max_step o /\ fn c = fun_ /\
    t_bound c = Fin tb /\ direction c = Fin (dir r) /\ ck_inv c r s0 /\ tval (ckb s0) = t0 /\
    ohist ck_view (Fin tb) (Fin (dir r)) (fun k => ck_step_impl k c) (onew s0) n v /\
    oinv ck_view tb (dir r) (ck_inv c r) (onew s0) /\ oinv ck_view tb (dir r) (ck_inv c r) v.
Proof.
  intros (s0 & HB & HH). destruct (ck_built_good _ _ _ _ _ _ _ HB) as (r & HG & HL & E1 & Hd & Hb & Et & Ey & HF & EM & Ef & _).
  assert (Etb : t_bound c = Fin tb) by (destruct HG as ((HH1 & _) & _); rewrite HH1, E1; reflexivity).
  assert (Edir : direction c = Fin (dir r)) by (destruct HG as ((_ & HH1 & _) & _); exact HH1).
  assert (Etv : tval (ckb s0) = t0) by (unfold tval; rewrite Et; auto).
  exists r, s0. rewrite Etb, Edir in HH.
  assert (HI0 : oinv ck_view tb (dir r) (ck_inv c r) (onew s0)).
  { split; [split; auto|]. unfold ahead, tv. cbn [onew ost ck_view v_t]. rewrite Et. exact Hd. }
  repeat (split; [assumption|]). split; [split; assumption|]. split; [assumption|]. split; [exact HH|]. split; [exact HI0|].
  eapply (ohist_oinv ck_view tb (dir r) (fun k => ck_step_impl k c)); [| |exact HI0|exact HH].
  - intros s (((((x & Hx) & _) & _) & _) & _). exists x. exact Hx.
  - intros k s s' (HLs & HFs) HA HD. split.
    + destruct (ck_step_real c r k s s' HG HLs) as (j & H1 & ord & q & _ & _ & _ & _ & _ & _ & _ & _ & _ & _ & _ & _ & HL' & _ & _); auto.
      unfold ahead, tv in HA. cbn [ck_view v_t] in HA. unfold tval. rewrite E1. lra.
    + destruct (ck_step_real c r k s s' HG HLs) as (j & H1 & ord & q & _ & _ & _ & _ & _ & _ & _ & _ & _ & _ & _ & _ & _ & _ & HF'); auto.
      unfold ahead, tv in HA. cbn [ck_view v_t] in HA. unfold tval. rewrite E1. lra.
Qed.

Lemma ck_inv_fin c r s : ck_inv c r s -> exists x, t (ckb s) = Fin x.
Proof. intros (((((x & Hx) & _) & _) & _) & _). exists x. exact Hx. Qed.
Lemma ck_ahead r s tb : ahead ck_view tb (dir r) s <-> 0 < dir r * (tb - tval (ckb s)).
Proof. unfold ahead, tv, tval. cbn [ck_view v_t]. reflexivity. Qed.

(** one step() call of a solver with a past: an accepted step, a failure, or (only for an
    empty system) the shortcut *)
Lemma ck_step_cases o fun_ t0 tb y0 c n v k v' : ck_after o fun_ t0 tb y0 c n v -> ck_step c k v = OOk v' ->
  exists r, good_cfg c r /\ RKReal.tb r = tb /\ 0 < dir r * (tb - t0) /\ hb r = sqrt (/ 2 ^ 1022) /\ max_step c = o_max_step o /\
    t_bound c = Fin tb /\ direction c = Fin (dir r) /\ fn c = fun_ /\
    ck_inv c r (ost v) /\ 0 < dir r * (tb - tval (ckb (ost v))) /\
    ((ck_step_impl k c (ost v) = IDone (ost v') /\ ck_inv c r (ost v') /\ ot_old v' = Some (t (ckb (ost v))) /\
       ((ostat v' = ORunning /\ 0 < dir r * (tb - tval (ckb (ost v')))) \/ (ostat v' = OFinished /\ dir r * (tb - tval (ckb (ost v'))) <= 0))) \/
     (exists msg, ck_step_impl k c (ost v) = IFail (ost v') msg /\ ostat v' = OFailed msg /\ ot_old v' = ot_old v) \/
     (y (ckb (ost v)) = [] /\ t (ckb (ost v')) = Fin tb /\ ostat v' = OFinished)).
Proof.
  intros HA HS. destruct (ck_after_inv _ _ _ _ _ _ _ _ HA) as (r & s0 & HG & E1 & Hd & Hb & EM & Ef & Etb & Edir & HI0 & Et & HH & HO0 & HO).
  exists r. repeat (split; [assumption|]).
  unfold ck_step in HS. rewrite Etb, Edir in HS.
  assert (I2 : forall k s s', ck_inv c r s -> ahead ck_view tb (dir r) s -> ck_step_impl k c s = IDone s' -> ck_inv c r s').
  { intros k0 s s' (HLs & HFs) HAh HD. apply ck_ahead in HAh. rewrite <- E1 in HAh.
    destruct (ck_step_real c r k0 s s' HG HLs ltac:(apply Rgt_not_eq; exact HAh) HD) as (j & H1 & ord & q & _ & _ & _ & _ & _ & _ & _ & _ & _ & _ & _ & _ & HL' & _ & HF').
    split; assumption. }
  destruct (ostep_running ck_view tb (dir r) (fun k => ck_step_impl k c) (ck_inv c r) (ck_inv_fin c r) I2 v v' k HO HS)
    as (Hr & HI & HAh & HC). apply ck_ahead in HAh. split; [exact HI|]. split; [exact HAh|].
  destruct HC as [(s' & HD & <- & HI' & Ho & HC)|[(s' & msg & HD & <- & Hs & Ho)|(Hn & Hs & Hst)]].
  - left. split; [exact HD|]. split; [exact HI'|]. split; [exact Ho|].
    destruct HC as [[A1 A2]|[A1 A2]]; [left|right]; split; auto.
  - right. left. exists msg. auto.
  - right. right. cbn [ck_view v_n] in Hn. split; [destruct (y (ckb (ost v))); [reflexivity|discriminate Hn]|].
    rewrite Hs. split; [reflexivity|exact Hst].
Qed.

(** the loop: j rejected trials, each followed by a smaller one, then the accepted trial *)
Lemma ck_loop_trial c : forall k s h ms rej s', ck_ranges s -> 0 < h -> ck_loop k c s (Fin h) (Fin ms) rej = IDone s' ->
  exists j s1 s2 H rej1 ord hh ha' yn, ck_trial c s1 (Fin H) (Fin ms) rej1 = CkAccept s2 ord hh ha' yn /\
    s' = ck_finish c s2 ord hh ha' yn /\ same_core (ckb s) (ckb s1) /\ ck_ranges s1 /\ 0 < H /\
    h * (1/5) ^ j <= H <= h * (9/10) ^ j /\ (rej1 = true <-> rej = true \/ (1 <= j)%nat) /\
    nfs (ckb s') = (nfs (ckb s) + j)%nat /\
    exists l, calls (ckb s') = calls (ckb s) ++ l /\ (length l <= 5 * j + 6)%nat.
Proof.
  induction k as [|k IH]; intros s h ms rej s' HR Hh H; cbn [ck_loop] in H; [discriminate|].
  pose proof (ck_trial_ranges c s (Fin h) (Fin ms) rej HR) as HRR.
  pose proof (ck_trial_inv c s (Fin h) (Fin ms) rej) as HT. cbv zeta in HT.
  destruct (ck_trial c s (Fin h) (Fin ms) rej) as [s1 msg|s1 h1|s1 ord hh h1 yn] eqn:ET; try discriminate.
  - destruct (ck_reject_shrinks c s h (Fin ms) rej s1 h1 HR ET) as (q & -> & Hq).
    destruct HT as (_ & HC & _ & Hn & _ & (l1 & C1 & N1 & _) & _).
    destruct (IH s1 (h * q) ms true s' HRR ltac:(nra) H) as (j & sa & sb & HH & rej1 & ord & hh & ha' & yn & B1 & B2 & B3 & B4 & B5 & B6 & B7 & B8 & l & B9 & B10).
    exists (S j), sa, sb, HH, rej1, ord, hh, ha', yn. split; [exact B1|]. split; [exact B2|]. split; [eapply same_core_trans; eauto|].
    split; [exact B4|]. split; [exact B5|].
    assert (0 < (1/5) ^ j) by (apply pow_lt; lra). assert (0 < (9/10) ^ j) by (apply pow_lt; lra).
    assert (0 < h * (1/5)^j) by nra. assert (0 < h * (9/10)^j) by nra. split; [simpl; split; nra|].
    split; [split; [intros _; right; lia|intros _; apply B7; auto]|]. split; [lia|].
    exists (l1 ++ l). split; [rewrite B9, C1, app_assoc; reflexivity|]. rewrite app_length. lia.
  - injection H as <-. exists 0%nat, s, s1, h, rej, ord, hh, h1, yn. split; [exact ET|]. split; [reflexivity|].
    split; [apply same_core_refl|]. split; [exact HR|]. split; [exact Hh|]. split; [simpl; lra|].
    split; [split; [auto|intros [E|E]; [exact E|lia]]|].
    destruct HT as (_ & _ & _ & Hn & (l & C1 & N1 & _) & _). cbn [ck_finish ckb nfs calls].
    split; [lia|]. exists (l ++ [(nadd RX (t (ckb s1)) hh, yn)]). split; [rewrite C1, app_assoc; reflexivity|]. rewrite app_length. cbn [length]. lia.
Qed.

Lemma ck_theta_Q ord : In ord [4%nat; 2%nat; 1%nat] -> ck_theta ord = Q2R (mb_theta (ck_member ord)).
Proof. intros [<-|[<-|[<-|[]]]]; cbn [ck_theta ck_member mb_theta]; unfold Q2R; simpl; lra. Qed.

(** everything about an accepted step *)
Theorem ck_accepted c r k s s' : good_cfg c r -> ck_inv c r s -> dir r * (tb r - tval (ckb s)) <> 0 ->
  ck_step_impl k c s = IDone s' ->
  exists j H ord q ks, let s0 := ckb s in let s1 := ckb s' in let M := ck_member ord in let h := dir r * H in
    In ord [4%nat; 2%nat; 1%nat] /\ ckord s' = ord /\ 0 < H /\
    textbook_rk (mb_tab RX M) (length (y s0)) (fn c) (t s0) (y s0) (Fin h) ks (nadd RX (t s0) (Fin h)) (y s1) /\
    nltb RX (scaled_rms (rtol c) (atol c) (y s0) (y s1) (tab_error (mb_tab RX M) (length (y s0)) (fn c) (Fin h) ks (nadd RX (t s0) (Fin h)) (y s1))) n1 = true /\
    tval s1 = tval s0 + Q2R (mb_theta M) * h /\ f s1 = fn c (t s1) (y s1) /\ y_old s1 = Some (y s0) /\
    ks = firstn (mb_stages M) (K s1) /\ nth 0 (K s1) [] = fn c (t s0) (y s0) /\ last (K s1) [] = f s1 /\
    (ord = 4%nat -> K s1 = ks ++ [f s1]) /\
    nfs s1 = (nfs s0 + j)%nat /\ trial0 c r s0 * (1/5) ^ j <= H <= trial0 c r s0 * (9/10) ^ j /\
    hval s1 = H * q /\ 1/5 <= q <= 5 /\ ((1 <= j)%nat -> q <= 1) /\ (ord <> 4%nat -> q = Q2R (mb_theta M)) /\
    exists l, calls s1 = calls s0 ++ l /\ (length l <= 5 * j + 6)%nat.
Proof.
  intros HG (HL & HF) Hne HD. pose proof HD as HD0.
  destruct (ck_step_real c r k s s' HG HL Hne HD) as (j & H & ord & q & A1 & A2 & A3 & A4 & A5 & A6 & A7 & A8 & A9 & A10 & A11 & A12 & A13 & A14 & A15).
  destruct HL as (HL & Hsc & HR). unfold ck_step_impl in HD.
  destruct (ck_reassess c r (ckb s) HG HL) as (sc & Er & _ & _). rewrite Er in HD.
  pose proof (trial0_pos c r (ckb s) HG HL Hne) as Hpos.
  match type of HD with ck_loop k c ?x _ _ _ = _ => assert (HRx : ck_ranges x) by exact HR; set (sx := x) in * end.
  destruct (ck_loop_trial c k sx _ _ _ s' HRx Hpos HD) as (j' & sa & sb & H' & rej1 & ord' & hh & ha' & yn & B1 & B2 & B3 & B4 & B5 & B6 & B7 & B8 & l & B9 & B10).
  assert (Ej : j' = j).
  { unfold sx in B8. cbn [ckb with_trial nfs] in B8. lia. }
  subst j'.
  assert (Ecore : y (ckb sa) = y (ckb s) /\ t (ckb sa) = t (ckb s) /\ f (ckb sa) = f (ckb s)).
  { destruct B3 as (C1 & C2 & C3 & _). unfold sx in *. cbn [ckb with_trial t y f] in *. auto. }
  destruct Ecore as (Ey & Et & Ef).
  assert (HFa : fresh c (ckb sa)) by (unfold fresh in *; rewrite Ef, Et, Ey; exact HF).
  pose proof HG as HG'. destruct HG' as ((_ & Hdir & _) & HRc & _).
  destruct (ck_accept_member c sa (Fin H') _ _ sb ord' hh ha' yn HFa B1) as (M1 & ks & M2 & M3 & M4 & M5 & M6).
  destruct (ck_accept_real c sa H' _ _ sb ord' hh ha' yn _ Hdir B5 B1) as (_ & R2 & _).
  assert (Eo : ord' = ord) by (rewrite <- A5, B2; reflexivity). subst ord'.
  rewrite Ey, Et, Hdir in M2, M3. rewrite Et, Ey in M6. cbn [nmul RX xmul] in M2, M3.
  (* the two descriptions of the trial size agree *)
  assert (EH : H' = H).
  { rewrite B2 in A7. cbn [ck_finish ckb h_previous] in A7. rewrite R2 in A7. injection A7 as E7.
    pose proof (theta_pos ord) as Hth. destruct HRc as ([D|D] & _); rewrite D in E7; nra. }
  subst H'. replace (H * dir r) with (dir r * H) in * by ring.
  exists j, H, ord, q, ks. cbv zeta.
  assert (Eth := ck_theta_Q ord M1).
  split; [exact M1|]. split; [exact A5|]. split; [exact A14|].
  assert (Eyn : y (ckb s') = yn) by (rewrite B2; reflexivity). rewrite Eyn.
  split; [exact M2|]. split; [exact M3|]. split; [rewrite A6, <- Eth; ring|]. split; [rewrite A15, Eyn; reflexivity|].
  split; [rewrite B2; cbn [ck_finish ckb y_old]; f_equal|].
  { pose proof (ck_trial_inv c sa (Fin H) (Fin (min_step_at r (ckb s))) rej1) as HT. cbv zeta in HT. rewrite B1 in HT.
    destruct HT as (_ & (C1 & C2 & _) & _). rewrite C2. exact Ey. }
  assert (EK : K (ckb s') = K (ckb sb) ++ [f (ckb s')]) by (rewrite B2; reflexivity).
  assert (HLK : (mb_stages (ck_member ord) <= length (K (ckb sb)))%nat /\ (ord = 4%nat -> length (K (ckb sb)) = 6%nat)).
  { pose proof (ck_trial_inv c sa (Fin H) (Fin (min_step_at r (ckb s))) rej1) as HT. cbv zeta in HT. rewrite B1 in HT.
    destruct HT as (_ & _ & _ & _ & _ & _ & Ks & EKs & _ & HC). rewrite EKs.
    destruct HC as [HC|[HC|HC]]; destruct HC as (-> & HLen & _); cbn [ck_member mb_stages]; (split; [lia|intros; try lia; try discriminate]). }
  destruct HLK as (HLK & HLK6).
  split; [rewrite EK, firstn_app; replace (mb_stages (ck_member ord) - length (K (ckb sb)))%nat with 0%nat by lia; cbn [firstn]; rewrite app_nil_r; exact M5|].
  split; [rewrite EK, app_nth1; [exact M6|]|].
  { assert (1 <= mb_stages (ck_member ord))%nat by (destruct M1 as [<-|[<-|[<-|[]]]]; cbn; lia). lia. }
  split; [rewrite EK; apply last_last|].
  split; [intros E4; rewrite EK, M5; f_equal; rewrite E4; cbn [ck_member mb_stages]; symmetry; apply firstn_all2; rewrite HLK6 by exact E4; lia|].
  split; [exact A1|]. split; [exact A3|]. split; [exact A8|]. split; [exact A11|]. split; [exact A12|].
  split; [intros E; rewrite <- Eth; apply A10; exact E|]. exists l. split; [exact B9|exact B10].
Qed.

(** ranges in every state, also after a failure *)
Lemma ck_loop_ranges c : forall k s h ms rej, ck_ranges s -> match ck_loop k c s h ms rej with
  | IDone s' | IFail s' _ => ck_ranges s' | _ => True end.
Proof.
  induction k as [|k IH]; intros s h ms rej HR; cbn [ck_loop]; [exact I|].
  pose proof (ck_trial_ranges c s h ms rej HR) as H.
  destruct (ck_trial c s h ms rej) as [s1 m1|s1 h1|s1 ord hh h1 yn]; [exact H|apply IH; exact H|exact H].
Qed.
Lemma ck_impl_ranges c k s : ck_ranges s -> match ck_step_impl k c s with IDone s' | IFail s' _ => ck_ranges s' | _ => True end.
Proof.
  intros H. unfold ck_step_impl. destruct (reassess_stepsize c (ckb s)) as [[h ms] sc]. apply ck_loop_ranges. exact H.
Qed.
Theorem ck_hist_ranges c tb dir v0 n v : ck_ranges (ost v0) ->
  ohist ck_view tb dir (fun k => ck_step_impl k c) v0 n v -> ck_ranges (ost v).
Proof.
  intros H0 H. induction H as [v|v n v1 v2 k H IH HS]; [exact H0|]. specialize (IH H0). unfold ostep in HS.
  destruct (ostat v1); try discriminate. destruct (_ || _); [injection HS as <-; exact IH|].
  pose proof (ck_impl_ranges c k _ IH) as HR. destruct (ck_step_impl k c (ost v1)) as [s'|s' msg|e|]; try discriminate; injection HS as <-; exact HR.
Qed.
