(** ESDIRK over the extended reals: one step() from a reachable state. *)
From Coq Require Import String ZArith Reals Lra Psatz QArith Qreals Bool Lia List.
From Verif Require Import Arith Common Stiff RK HStart RKInit Tableaux Classes Dense Ode RX RKReal RKInitReal ESDIRK ESDGen ESDReal.
Import ListNotations.
Close Scope string_scope. Open Scope nat_scope. Open Scope R_scope.

(** ** the step size before the loop *)
Definition emin (r : econst) (t h : R) : R := Rmax (cma r * (Rabs t + h)) (cmb r).
Lemma ereassess_real c r t h std : egood c r -> 0 < h -> t <> ctb r ->
  exists ha std', ereassess c (Fin t) (Fin h) std = (Fin ha, Fin (emin r t h), std') /\ (std' = std \/ std' = true) /\
    0 < ha <= Rabs (ctb r - t) /\ (forall M, x_max_step c = Fin M -> ha < 101/100 * M) /\
    (ha = Rabs (ctb r - t) \/ (101/100 * ha <= Rabs (ctb r - t) /\ xleb (Fin ha) (x_max_step c) = true)).
Proof.
  intros (Gt & _ & _ & Ga & Ga1 & Gb & Gb1 & _ & _ & _ & _ & _ & _ & _ & GM) Hh Ht.
  unfold ereassess. rewrite Gt, Ga, Gb. change (nadd RX) with xadd. change (nmul RX) with xmul. change (nabs RX) with xabs. change (nsub RX) with xsub. change (ndiv RX) with xdiv.
  unfold xsub. cbn [xabs xadd xmul xopp]. change (ctb r + - t) with (ctb r - t). set (d := Rabs (ctb r - t)).
  assert (Hd : 0 < d) by (apply Rabs_pos_lt; lra).
  replace (@pymax RX (Fin (cma r * (Rabs t + h))) (Fin (cmb r))) with (Fin (emin r t h)).
  2:{ unfold pymax, emin, Rmax. cbn [nltb RX xltb]. destruct (Rltb_spec (cma r * (Rabs t + h)) (cmb r)); destruct (Rle_dec _ _); f_equal; try lra. }
  assert (Hm : 0 < emin r t h) by (unfold emin; apply Rlt_le_trans with (cmb r); [lra|apply Rmax_r]).
  set (ms := emin r t h) in *. clearbody ms.
  set (h1 := if (nltb RX (Fin h) (Fin ms) || nltb RX (x_max_step c) (Fin h))%bool then @pymin RX (x_max_step c) (pymax (Fin ms) (Fin h)) else Fin h).
  assert (H1 : exists x, h1 = Fin x /\ 0 < x /\ xleb (Fin x) (x_max_step c) = true).
  { unfold h1. cbn [nltb RX]. destruct GM as [-> | (M & -> & HM)].
    - cbn [xltb]. rewrite orb_false_r. destruct (Rltb_spec h ms); unfold pymin, pymax; cbn [nltb RX xltb]; [|eauto].
      destruct (Rltb_spec ms h); cbn [xltb]; eexists; (split; [reflexivity|]); split; try lra; reflexivity.
    - cbn [xltb xleb]. assert (LL : forall x, x <= M -> Rleb x M = true) by (intros; destruct (Rleb_spec x M); [reflexivity|lra]).
      destruct (Rltb_spec h ms); destruct (Rltb_spec M h); cbn [orb]; unfold pymin, pymax; cbn [nltb RX xltb].
      all: repeat match goal with |- context [Rltb ?a ?b] => destruct (Rltb_spec a b); cbn [xltb] end; eexists; (split; [reflexivity|]); (split; [lra|]); apply LL; lra. }
  destruct H1 as (x & E1 & Hx & Hxm). fold h1.
  assert (ES : exists std', (if (nltb RX (Fin h) (Fin ms) || nltb RX (x_max_step c) (Fin h))%bool then true else std) = std' /\ (std' = std \/ std' = true)) by (destruct (_ || _)%bool; eauto).
  destruct ES as (std' & -> & Hs). rewrite E1. cbn [xdiv nltb RX xltb]. destruct (Req_EM_T x 0); [lra|]. rewrite n1_RX. cbn [xopp xadd xabs].
  replace (@lit RX (1#100)) with (Fin (1/100)) by (symmetry; litR). cbn [xltb].
  assert (LM : forall M, x_max_step c = Fin M -> x <= M) by (intros M EM; rewrite EM in Hxm; cbn [xleb] in Hxm; apply Rleb_true in Hxm; exact Hxm).
  assert (DX : d / x * x = d) by (field; lra).
  destruct (Rltb_spec (Rabs (d / x + - (1))) (1/100)) as [HA|HA]; cbn [orb].
  - exists d, std'. split; [reflexivity|]. split; [exact Hs|]. split; [lra|]. split; [|left; reflexivity].
    intros M EM. specialize (LM M EM). apply Rabs_def2 in HA. nra.
  - destruct (Rltb_spec d x) as [HB|HB].
    + exists d, std'. split; [reflexivity|]. split; [exact Hs|]. split; [lra|]. split; [|left; reflexivity].
      intros M EM. specialize (LM M EM). lra.
    + exists x, std'. split; [reflexivity|]. split; [exact Hs|]. split; [lra|]. split; [intros M EM; specialize (LM M EM); lra|].
      right. split; [|exact Hxm]. assert (1 <= d / x) by (apply Rmult_le_reg_r with x; lra).
      rewrite Rabs_pos_eq in HA by lra. nra.
Qed.

(** ** the preemptive update *)
Lemma preemptive_ok m c r s ha std : la_ok m c -> egood c r -> einv m c s -> (std = w_std (e_w s) \/ std = true) ->
  exists w, preemptive c s (w_control (e_w s) std (w_maxf (e_w s)) (w_nfs (e_w s))) (Fin ha) = inl w /\ winv m c s w /\
    w_calls w = w_calls (e_w s) /\ w_nfs w = w_nfs (e_w s) /\ w_nfi w = w_nfi (e_w s) /\
    ((w_jcalls w = w_jcalls (e_w s) /\ w_curJ w = w_curJ (e_w s)) \/
     (w_curJ (e_w s) = false /\ w_jcalls w = w_jcalls (e_w s) ++ [(e_t s, e_y s)] /\ w_curJ w = true) \/
     (0 < length (w_jcalls w))%nat /\ w_jcalls w = w_jcalls (e_w s) ++ [(e_t s, e_y s)] /\ w_curJ w = w_curJ (e_w s) /\ x_jac_each c && negb (w_curJ (e_w s)) = false)%list.
Proof.
  intros HA HG (I1 & I2 & I3 & I4 & I5 & I6 & I7 & I8 & I9 & I10) Hstd.
  set (w0 := w_control _ _ _ _).
  assert (W0 : winv m c s w0).
  { split; [exact I6|]. split; [exact I7|]. split; [exact I8|]. split; [exact I5|]. cbn [w0 w_control w_std]. intros E.
    destruct Hstd as [-> | ->]; [|discriminate E]. destruct (e_hprev s) as [hp|]; [|destruct I10 as [_ I10]; rewrite I10 in E; discriminate E].
    destruct I10 as (_ & _ & eo & Eo). eauto. }
  assert (HJ : forall j k t y, x_jac c = Some j -> mshape (x_n c) (j k t y)) by (destruct HA as (_ & _ & _ & _ & _ & HJ & _); exact HJ).
  assert (WJ : forall jac b, x_jac c = Some jac -> winv m c s (w_newJ w0 (jac (length (w_jcalls w0)) (e_t s) (e_y s)) b (e_t s, e_y s))).
  { intros jac b EJ. destruct W0 as (A1 & [A2 _] & A3 & A4 & A5). split; [exact A1|]. split; [split; [exact A2|exact I]|].
    split; [intros EL; unfold x_linear in EL; rewrite EJ in EL; discriminate EL|]. split; [apply HJ; exact EJ|exact A5]. }
  unfold preemptive. destruct (x_jac_each c && negb (w_curJ w0))%bool eqn:EE.
  { apply andb_prop in EE. destruct EE as [_ EE]. apply negb_true_iff in EE.
    destruct (x_jac c) as [jac|] eqn:EJ.
    - eexists. split; [reflexivity|]. split; [apply (WJ jac true eq_refl)|]. do 3 (split; [reflexivity|]). right. left. split; [exact EE|]. split; reflexivity.
    - exfalso. assert (EL : x_linear c = true) by (unfold x_linear; rewrite EJ; reflexivity). specialize (I8 EL). change (w_curJ w0) with (w_curJ (e_w s)) in EE. rewrite I8 in EE. discriminate EE. }
  destruct (nltb RX n0 (w_rate w0)) eqn:ER.
  2:{ exists w0. split; [reflexivity|]. split; [exact W0|]. do 3 (split; [reflexivity|]). left. split; reflexivity. }
  assert (NL : w_rate (e_w s) <> NInf). { intros E. rewrite n0_RX in ER. change (w_rate w0) with (w_rate (e_w s)) in ER. rewrite E in ER. discriminate ER. }
  destruct (e_hprev s) as [hp|] eqn:EH; [|destruct I10 as [I10 _]; contradiction].
  destruct I10 as (_ & (hl & Ehl) & _). change (w_hLU w0) with (w_hLU (e_w s)). rewrite Ehl.
  match goal with |- context [if (Nat.ltb ?a ?b && ?d)%bool then _ else _] => destruct (Nat.ltb a b && d)%bool end.
  - destruct (x_jac c) as [jac|] eqn:EJ.
    + eexists. split; [reflexivity|]. split; [apply (WJ jac _ eq_refl)|]. do 3 (split; [reflexivity|]). right. right. split; [|split; [reflexivity|split; [reflexivity|exact EE]]].
      cbn [w_newJ w_jcalls]. rewrite app_length. cbn [length]. lia.
    + exfalso. apply NL. apply I9. unfold x_linear. rewrite EJ. reflexivity.
  - match goal with |- context [if ?b then inl (w_dropLU _) else _] => destruct b end.
    + eexists. split; [reflexivity|]. split.
      * destruct W0 as (A1 & [A2 _] & A3 & A4 & A5). split; [exact A1|]. split; [split; [exact A2|exact I]|]. split; [exact A3|]. split; [exact A4|exact A5].
      * do 3 (split; [reflexivity|]). left. split; reflexivity.
    + exists w0. split; [reflexivity|]. split; [exact W0|]. do 3 (split; [reflexivity|]). left. split; reflexivity.
Qed.

(** ** the loop *)
Definition cost (w : EWk RX) : nat := if w_curJ w then 0 else 1.

(** the loop ends: with enough fuel there is an answer, and the only exception is lin_error *)
Lemma eloop_ends m c r s ms : la_ok m c -> egood c r -> length (e_y s) = x_n c -> length (e_yp s) = x_n c ->
  forall N b fuel w h rej, winv m c s w -> 0 < h -> h * eshrink r ^ N < ms -> (cost w <= b)%nat -> (N + b + 3 <= fuel)%nat ->
  match eloop fuel m c s w (Fin h) (Fin ms) rej with IFuel => False | IRaise e => e = lin_error | _ => True end.
Proof.
  intros HA HG Hy Hp N b. assert (Hsh : 1/5 <= eshrink r < 1).
  { unfold eshrink. split; [apply Rle_trans with (1/2); [lra|apply Rmax_l]|]. apply Rmax_lub_lt; [lra|]. destruct HG as (_ & _ & _ & _ & _ & _ & _ & _ & _ & _ & Hg & _). lra. }
  remember (N + b)%nat as T. revert N b HeqT. induction T as [T IH] using lt_wf_ind. intros N b -> fuel w h rej HW Hh HN Hb Hf.
  destruct fuel as [|fuel]; [lia|]. cbn [eloop].
  pose proof (fin_trial m c r s w h ms rej HA HG HW Hy Hp Hh) as HT.
  destruct (etrial m c s w (Fin h) (Fin ms) rej) as [w'|e|w' ha' rej'|w' hh hn tn yn en K]; [exact I|exact (proj2 HT)| |exact I].
  destruct HT as (T0 & W' & [(T1 & T2 & T3 & [(q & -> & Hq)| ->])|(T1 & T2 & -> & T3 & T4)]).
  - destruct N as [|N]; [cbn [pow] in HN; lra|]. eapply (IH (N + b)%nat ltac:(lia) N b eq_refl); [exact W'|nra| | |lia].
    + cbn [pow] in HN. assert (0 <= eshrink r ^ N) by (apply pow_le; lra). apply Rle_lt_trans with (2 := HN). rewrite Rmult_assoc. apply Rmult_le_compat_l; [lra|]. apply Rmult_le_compat_r; lra.
    + unfold cost in *. rewrite T2. exact Hb.
  - destruct fuel as [|[|fuel]]; [lia..|]. change (S (S fuel)) with (2 + fuel)%nat.
    rewrite (nan_loop m c r s ms HA HG Hy Hp fuel w' rej' W'). reflexivity.
  - assert (Hb1 : b = S (b - 1)) by (unfold cost in Hb; rewrite T1 in Hb; lia).
    eapply (IH (N + (b - 1))%nat ltac:(lia) N (b - 1)%nat eq_refl); [exact W'|exact Hh|exact HN| |lia].
    unfold cost. rewrite T2. lia.
Qed.

(** what a successful loop did: the trial that was accepted had a step h1 = h q, q made of the
    shrink factors, and the counters moved accordingly *)
Definition w_fails (w : EWk RX) : nat := (w_nfs w + w_nfi w)%nat.
Lemma eloop_done m c r s ms : la_ok m c -> egood c r -> length (e_y s) = x_n c -> length (e_yp s) = x_n c ->
  forall fuel w h rej s', winv m c s w -> 0 < h -> eloop fuel m c s w (Fin h) (Fin ms) rej = IDone s' ->
  exists j w1 h1 rej1 w2 hh hn tn yn en K,
    etrial m c s w1 (Fin h1) (Fin ms) rej1 = EtAccept w2 hh hn tn yn en K /\ s' = efinish c s w2 hh hn tn yn en K /\
    winv m c s w1 /\ 0 < h1 /\ h * (1/5) ^ j <= h1 <= h * eshrink r ^ j /\ (rej1 = true <-> (rej = true \/ (0 < j)%nat)) /\
    exists a l, w_fails w1 = (w_fails w + j + a)%nat /\ (a <= cost w)%nat /\
      w_jcalls w1 = (w_jcalls w ++ repeat (e_t s, e_y s) a)%list /\
      w_calls w1 = (w_calls w ++ l)%list /\ (length l <= NEWTON_MAXITER * (em_stages m - 1) * (j + a))%nat.
Proof.
  intros HA HG Hy Hp. assert (Hsh : 1/5 <= eshrink r < 1).
  { unfold eshrink. split; [apply Rle_trans with (1/2); [lra|apply Rmax_l]|]. apply Rmax_lub_lt; [lra|]. destruct HG as (_ & _ & _ & _ & _ & _ & _ & _ & _ & _ & Hg & _). lra. }
  induction fuel as [|fuel IH]; intros w h rej s' HW Hh H; [discriminate H|]. cbn [eloop] in H.
  pose proof (fin_trial m c r s w h ms rej HA HG HW Hy Hp Hh) as HT.
  pose proof (etrial_inv m c s w (Fin h) (Fin ms) rej (proj1 (proj2 HW)) (proj1 (proj2 (proj2 HW)))) as HI.
  destruct (etrial m c s w (Fin h) (Fin ms) rej) as [w'|e|w' ha' rej'|w' hh hn tn yn en K] eqn:ET; [discriminate H|discriminate H| |].
  - destruct HI as (_ & _ & _ & _ & (l & El & Hl) & HI).
    destruct HT as (T0 & W' & [(T1 & T2 & T3 & [(q & -> & Hq)| ->])|(T1 & T2 & -> & T3 & T4)]).
    + assert (Hhq : 0 < h * q) by nra. destruct (IH _ _ _ _ W' Hhq H) as (j & w1 & h1 & rej1 & w2 & hh & hn & tn & yn & en & K & B1 & B2 & B3 & B4 & B5 & B6 & a & l2 & B7 & B8 & B9 & B10 & B11).
      assert (FS : w_fails w' = S (w_fails w)).
      { unfold w_fails. destruct HI as [((A1 & A2 & _) & _)|[((_ & _ & _ & _ & A5) & _)|((_ & _ & _ & _ & A5) & _)]]; [congruence|lia|lia]. }
      exists (S j), w1, h1, rej1, w2, hh, hn, tn, yn, en, K. split; [exact B1|]. split; [exact B2|]. split; [exact B3|]. split; [exact B4|]. split; [|split].
      * assert (P1 : 0 <= (1/5) ^ j) by (apply pow_le; lra). assert (P2 : 0 <= eshrink r ^ j) by (apply pow_le; lra). cbn [pow].
        split; [eapply Rle_trans; [|exact (proj1 B5)]|eapply Rle_trans; [exact (proj2 B5)|]]; rewrite !Rmult_assoc; apply Rmult_le_compat_l; try lra; apply Rmult_le_compat_r; lra.
      * rewrite B6, T3. split; [intros _; right; lia|auto].
      * exists a, (l ++ l2)%list. split; [rewrite B7, FS; lia|]. split; [unfold cost in *; rewrite T2 in B8; exact B8|]. split; [rewrite B9, T1; reflexivity|].
        split; [rewrite B10, El, app_assoc; reflexivity|]. rewrite app_length. nia.
    + exfalso. destruct fuel as [|[|fuel]]; [discriminate H| |].
      * cbn [eloop] in H. pose proof (nan_trial m c r s w' ms rej' HA HG W' Hy Hp) as HN. destruct (etrial m c s w' NaN (Fin ms) rej') as [| | |]; try contradiction; discriminate H.
      * change (S (S fuel)) with (2 + fuel)%nat in H. rewrite (nan_loop m c r s ms HA HG Hy Hp fuel w' rej' W') in H. discriminate H.
    + destruct (IH _ _ _ _ W' Hh H) as (j & w1 & h1 & rej1 & w2 & hh & hn & tn & yn & en & K & B1 & B2 & B3 & B4 & B5 & B6 & a & l2 & B7 & B8 & B9 & B10 & B11).
      assert (FS : w_fails w' = S (w_fails w)).
      { unfold w_fails. destruct HI as [((A1 & A2 & _ & _ & _ & A6 & A7 & _) & _)|[((_ & A2 & _) & _ & A5 & _)|((_ & A2 & _) & _)]]; [lia|congruence|congruence]. }
      exists j, w1, h1, rej1, w2, hh, hn, tn, yn, en, K. split; [exact B1|]. split; [exact B2|]. split; [exact B3|]. split; [exact B4|]. split; [exact B5|]. split; [rewrite B6, T3; tauto|].
      unfold cost in B8. rewrite T2 in B8. assert (a = 0)%nat by lia. subst a. exists 1%nat, (l ++ l2)%list.
      split; [rewrite B7, FS; lia|]. split; [unfold cost; rewrite T1; lia|]. split; [rewrite B9, T4; cbn [repeat]; rewrite app_nil_r; reflexivity|].
      split; [rewrite B10, El, app_assoc; reflexivity|]. rewrite app_length. nia.
  - injection H as <-. exists 0%nat, w, h, rej, w', hh, hn, tn, yn, en, K. split; [exact ET|]. split; [reflexivity|]. split; [exact HW|]. split; [exact Hh|].
    split; [cbn [pow]; lra|]. split; [split; [auto|intros [Hr|Hr]; [exact Hr|lia]]|]. exists 0%nat, []. cbn [repeat]. rewrite !app_nil_r.
    split; [lia|]. split; [lia|]. split; [reflexivity|]. split; [reflexivity|]. cbn [length]. lia.
Qed.

(** ** one step *)
Definition step_lo (r : econst) (s : ES RX) (h : R) : R := emin r (tval s) h.
Theorem estep_done m c r k s s' : la_ok m c -> egood c r -> einv m c s -> tval s <> ctb r -> estep_impl m c k s = IDone s' ->
  einv m c s' /\ exists h0 ha j h1 hn hh, e_habs s = Fin h0 /\ 0 < ha <= Rabs (ctb r - tval s) /\
    (forall M, x_max_step c = Fin M -> ha < 101/100 * M) /\ (ha = Rabs (ctb r - tval s) \/ (101/100 * ha <= Rabs (ctb r - tval s) /\ xleb (Fin ha) (x_max_step c) = true)) /\
    ha * (1/5) ^ j <= h1 <= ha * eshrink r ^ j /\ emin r (tval s) h0 <= h1 /\
    e_t s' = Fin (tval s + h1 * cd r) /\ e_hprev s' = Some (Fin (h1 * cd r)) /\
    e_habs s' = Fin (h1 * hn) /\ 0 < hn <= 10 /\ ((0 < j)%nat -> hn <= 1) /\
    hh = j /\
    exists a b l, w_fails (e_w s') = (w_fails (e_w s) + j + a)%nat /\ (a + b <= 2)%nat /\ (a <= 1)%nat /\
      w_jcalls (e_w s') = (w_jcalls (e_w s) ++ repeat (e_t s, e_y s) (a + b))%list /\
      w_calls (e_w s') = (w_calls (e_w s) ++ l)%list /\ (length l <= NEWTON_MAXITER * (em_stages m - 1) * (1 + j + a))%nat.
Proof.
  intros HA HG HI Ht H. pose proof HI as (I1 & I2 & I3 & I4 & I5 & I6 & I7 & I8 & I9 & I10).
  destruct I1 as (t & Et). destruct I2 as (h0 & Eh & Hh0). assert (Tv : tval s = t) by (unfold tval; rewrite Et; reflexivity). rewrite Tv in *.
  unfold estep_impl in H. rewrite Et, Eh in H.
  destruct (ereassess_real c r t h0 (w_std (e_w s)) HG Hh0 Ht) as (ha & std' & ER & Hstd & Hha & HM & HL). rewrite ER in H.
  destruct (preemptive_ok m c r s ha std' HA HG HI Hstd) as (w & EP & HW & P1 & P2 & P3 & P4). rewrite EP in H.
  destruct (eloop_done m c r s (emin r t h0) HA HG I3 I4 k w ha false s' HW ltac:(lra) H) as (j & w1 & h1 & rej1 & w2 & hh & hn & tn & yn & en & K & B1 & B2 & B3 & B4 & B5 & B6 & a & l & B7 & B8 & B9 & B10 & B11).
  pose proof (fin_trial m c r s w1 h1 (emin r t h0) rej1 HA HG B3 I3 I4 B4) as HT. pose proof (etrial_inv m c s w1 (Fin h1) (Fin (emin r t h0)) rej1 (proj1 (proj2 B3)) (proj1 (proj2 (proj2 B3)))) as HV.
  rewrite B1 in HT, HV. destruct HT as (T0 & (T1 & T2 & T3 & T4) & -> & -> & (q & -> & Hq & Hq1) & T5 & T6 & T7 & T8 & T9 & T10 & T11).
  destruct HV as (_ & _ & _ & _ & _ & _ & _ & _ & _ & V1 & V2 & (l2 & V3 & V4) & _).
  assert (Hcd : cd r = 1 \/ cd r = -1) by (destruct HG as (_ & _ & Hcd & _); exact Hcd).
  assert (H2 : (2 <= em_stages m)%nat) by (destruct HA; assumption).
  split.
  - subst s'. unfold efinish, einv. cbn [e_t e_habs e_y e_yp e_hprev e_errold e_w w_cur w_J w_maxf w_LU w_Sc w_rate w_std w_hLU].
    split; [rewrite Et; cbn [xadd]; eauto|]. split; [eexists; split; [reflexivity|nra]|]. split; [exact T5|].
    split. { destruct K as [|k0 K'] using rev_ind; [cbn [length] in T7; lia|]. rewrite last_last. apply Forall_app in T6. destruct T6 as [_ T6]. inversion T6; subst. assumption. }
    split; [exact T4|]. split; [exact T1|]. split; [destruct T2 as [T2a T2b]; split; [exact T2a|exact T2b]|].
    split; [intros EL; exact EL|]. split; [exact T9|]. split; [eexists; split; [reflexivity|destruct Hcd as [-> | ->]; lra]|]. split; [exact T8|eexists; reflexivity].
  - assert (J2 : exists b, (a + b <= 2)%nat /\ w_jcalls w2 = (w_jcalls (e_w s) ++ repeat (e_t s, e_y s) (a + b))%list).
    { rewrite T11, B9. unfold cost in B8. destruct P4 as [(-> & _)|[(_ & -> & E)|(_ & -> & E & _)]].
      - exists 0%nat. rewrite Nat.add_0_r. split; [destruct (w_curJ w); lia|reflexivity].
      - rewrite E in B8. assert (a = 0)%nat by lia. subst a. exists 1%nat. split; [lia|]. cbn [repeat Nat.add]. rewrite app_nil_r. reflexivity.
      - exists 1%nat. split; [destruct (w_curJ w); lia|]. rewrite <- app_assoc. f_equal. rewrite Nat.add_comm. reflexivity. }
    destruct J2 as (b & Hab & EJ).
    exists h0, ha, j, h1, q, j. split; [exact Eh|]. split; [exact Hha|]. split; [exact HM|]. split; [exact HL|]. split; [exact B5|]. split; [exact T0|]. subst s'.
    unfold efinish. cbn [e_t e_hprev e_habs e_w w_cur w_jcalls w_calls]. split; [rewrite Et; reflexivity|]. split; [reflexivity|]. split; [reflexivity|]. split; [exact Hq|].
    split; [intros Hj; apply Hq1, B6; right; exact Hj|]. split; [reflexivity|]. exists a, b, (l ++ l2)%list.
    split. { unfold w_fails in *. cbn [w_cur w_nfs w_nfi]. rewrite V1, V2. lia. }
    split; [exact Hab|]. split; [unfold cost in B8; destruct (w_curJ w); lia|]. split; [exact EJ|]. split; [rewrite V3, B10, P1, app_assoc; reflexivity|]. rewrite app_length. nia.
Qed.

(** with enough fuel a step returns or raises, and only lin_error *)
Theorem estep_ends m c r s : la_ok m c -> egood c r -> einv m c s -> tval s <> ctb r ->
  exists N, forall k, (N <= k)%nat -> match estep_impl m c k s with IFuel => False | IRaise e => e = lin_error | _ => True end.
Proof.
  intros HA HG HI Ht. pose proof HI as (I1 & I2 & I3 & I4 & _).
  destruct I1 as (t & Et). destruct I2 as (h0 & Eh & Hh0). assert (Tv : tval s = t) by (unfold tval; rewrite Et; reflexivity). rewrite Tv in *.
  unfold estep_impl. rewrite Et, Eh.
  destruct (ereassess_real c r t h0 (w_std (e_w s)) HG Hh0 Ht) as (ha & std' & ER & Hstd & Hha & HM & HL). rewrite ER.
  destruct (preemptive_ok m c r s ha std' HA HG HI Hstd) as (w & EP & HW & _). rewrite EP.
  assert (Hsh : 1/5 <= eshrink r < 1).
  { unfold eshrink. split; [apply Rle_trans with (1/2); [lra|apply Rmax_l]|]. apply Rmax_lub_lt; [lra|]. destruct HG as (_ & _ & _ & _ & _ & _ & _ & _ & _ & _ & Hg & _). lra. }
  assert (Hm : 0 < emin r t h0). { unfold emin. destruct HG as (_ & _ & _ & _ & _ & _ & Hb & _). apply Rlt_le_trans with (cmb r); [lra|apply Rmax_r]. }
  destruct (pow_lt_1_zero (eshrink r)) with (y := emin r t h0 / ha) as (N & HN); [rewrite Rabs_pos_eq; lra|apply Rdiv_lt_0_compat; lra|].
  specialize (HN N ltac:(lia)). rewrite Rabs_pos_eq in HN by (apply pow_le; lra).
  apply Rmult_lt_compat_l with (r := ha) in HN; [|lra]. replace (ha * (emin r t h0 / ha)) with (emin r t h0) in HN by (field; lra).
  exists (N + 1 + 3)%nat. intros k Hk. apply (eloop_ends m c r s (emin r t h0) HA HG I3 I4 N 1 k w ha false HW ltac:(lra) HN); [unfold cost; destruct (w_curJ w); lia|lia].
Qed.

(** a failed step leaves the solution alone, and the step tried was below the minimum *)
Theorem estep_fail m c r k s s' msg : la_ok m c -> egood c r -> einv m c s -> tval s <> ctb r -> estep_impl m c k s = IFail s' msg ->
  msg = too_small /\ e_t s' = e_t s /\ e_y s' = e_y s /\ e_yp s' = e_yp s.
Proof.
  intros HA HG HI Ht. unfold estep_impl. destruct (ereassess _ _ _ _) as [[ha ms] std]. destruct (preemptive _ _ _ _) as [w|e]; [|discriminate].
  generalize false. revert w ha. induction k as [|k IH]; intros w ha rej H; [discriminate H|]. cbn [eloop] in H.
  destruct (etrial m c s w ha ms rej) as [w'|e|w' ha' rej'|w' hh hn tn yn en K]; [|discriminate H|eauto|discriminate H]. injection H as <- <-. auto.
Qed.
