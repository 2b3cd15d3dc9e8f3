(** CKdisc: facts for every arithmetic. *)
From Coq Require Import String ZArith QArith Bool Lia List.
From Verif Require Import Arith Common Stiff RK RKGen HStart RKInit Tableaux Classes Dense Ode CK.
Import ListNotations.
Close Scope string_scope.
Open Scope nat_scope.

Section CKGen.
Context {A : Arith}.
Notation num := (num A).
Notation vec := (list num).
Implicit Types (c : Cfg A) (s : CKst A).

Definition ck_m (s0 : St A) : Meth A := CKdisc_meth (length (y s0)).
(** K holds the first stages of a trial of size h from the current point *)
Definition ck_ok c (s0 : St A) (h : num) (K : list vec) : Prop :=
  nth 0 K [] = f s0 /\ stage_eqs (ck_m s0) (fn c) (t s0) (y s0) h 1 (length K) K.

(** the evaluations of a trial: at most five, at nodes of the method *)
Definition ck_new_calls (s0 s0' : St A) (h : num) : Prop :=
  exists l, calls s0' = calls s0 ++ l /\ length l <= 5 /\
    Forall (fun p => exists i, 1 <= i < 6 /\ fst p = nadd A (t s0) (nmul A (nth i (lv CKdisc_C) n0) h)) l.

(** E4 of cash.py 296-297 *)
Definition ck_E4 c (y0 : vec) h K : num :=
  let x := npow A (snd (ck_cand c (lv CKdisc_B) (lv CKdisc_E) 6 y0 h K)) (lit (1#5)) in
  if neqb A x n0 then lit (1 # (10^160)) else x.

Definition ck_tw s s' : Prop :=
  (tw0 s' = tw0 s /\ tw1 s' = tw1 s) \/
  exists e0 e1, tw0 s' = ck_twiddle e0 (qt0 s) (tw0 s) /\ tw1 s' = ck_twiddle e1 (qt1 s) (tw1 s).
(** the controller attributes of the base class are untouched *)
Definition same_ctl (a b : St A) : Prop := (standard_sc b, max_factor b) = (standard_sc a, max_factor a).
Definition ck_qt s s' : Prop := qt0 s' = qt0 s /\ qt1 s' = qt1 s.

Lemma stages_more c (s0 : St A) h k K cl K' cl' : ck_ok c s0 h K -> 1 <= length K -> length K + k <= 6 ->
  stages (ck_m s0) (fn c) (t s0) (y s0) h k K cl = (K', cl') ->
  ck_ok c s0 h K' /\ length K' = length K + k /\ firstn (length K) K' = K /\
  exists l, cl' = cl ++ l /\ length l = k /\
    Forall (fun p => exists i, 1 <= i < 6 /\ fst p = nadd A (t s0) (nmul A (nth i (lv CKdisc_C) n0) h)) l.
Proof.
  intros [H0 HE] HL Hk H. destruct (stages_spec _ _ _ _ _ _ _ _ _ _ H) as (L & F & E & C).
  assert (Hn : forall i, i < length K -> nth i K' [] = nth i K []).
  { intros i Hi. apply (firstn_nth_agree K K' (length K)); auto. }
  split; [|split; [exact L|split; [exact F|]]].
  - split; [rewrite Hn by lia; exact H0|]. intros i Hi. rewrite L in Hi.
    destruct (lt_dec i (length K)) as [Hlt|Hge]; [|apply E; lia].
    rewrite Hn by auto. rewrite HE by lia.
    assert (EF : firstn i K' = firstn i K).
    { rewrite <- F. rewrite firstn_firstn. f_equal. lia. }
    rewrite EF. reflexivity.
  - exists (stage_points (ck_m s0) (t s0) (y s0) h (length K) k K'). split; [exact C|].
    split; [unfold stage_points; rewrite map_length, seq_length; reflexivity|].
    apply Forall_forall. intros p Hp. unfold stage_points in Hp. apply in_map_iff in Hp.
    destruct Hp as (i & <- & Hi). apply in_seq in Hi. exists i. split; [lia|]. reflexivity.
Qed.

Lemma ck_with_core s nf K' cl a0 a1 b0 b1 : same_core (ckb s) (ckb (ck_with s nf K' cl a0 a1 b0 b1)).
Proof. apply same_core_with_trial. Qed.

(** what one pass of the loop does *)
Lemma ck_trial_inv c s ha ms rej :
  let s0 := ckb s in
  match ck_trial c s ha ms rej with
  | CkAbort s' msg => same_core s0 (ckb s') /\ same_ctl s0 (ckb s') /\ nfs (ckb s') = nfs s0 /\ ckord s' = ckord s /\
      tw0 s' = tw0 s /\ tw1 s' = tw1 s /\ ck_qt s s' /\
      ((nltb A ha ms = true /\ msg = ck_too_small /\ s' = s) \/
       (nltb A ha ms = false /\ msg = ck_overflow /\ exists Ks, let h := nmul A ha (direction c) in
          length Ks = 6 /\ ck_ok c s0 h Ks /\
          nisnan A (ck_E4 c (y s0) h Ks) || nisinf A (ck_E4 c (y s0) h Ks) = true))
  | CkReject s' ha' => nltb A ha ms = false /\ same_core s0 (ckb s') /\ same_ctl s0 (ckb s') /\ nfs (ckb s') = S (nfs s0) /\
      ckord s' = ckord s /\
      ck_new_calls s0 (ckb s') (nmul A ha (direction c)) /\ ck_tw s s' /\ ck_qt s s' /\
      (ha' = nmul A ha (entry 0 CKdisc_C_fallback) \/
       exists est, ha' = nmul A ha (pymax (lit CKdisc_min_factor) (ndiv A CK_SAFETY est)) /\
         ((exists e, est = ndiv A e (qt0 s) /\ nltb A e (nmul A (tw0 s) (qt0 s)) = false) \/
          (exists e, est = ndiv A e (qt1 s) /\ nltb A e (nmul A (tw1 s) (qt1 s)) = false) \/
          (nltb A est n1 = false /\ nisnan A est = false /\ nisinf A est = false)))
  | CkAccept s' ord h ha' yn => nltb A ha ms = false /\ same_core s0 (ckb s') /\ same_ctl s0 (ckb s') /\ nfs (ckb s') = nfs s0 /\
      ck_new_calls s0 (ckb s') (nmul A ha (direction c)) /\ ck_tw s s' /\
      let H := nmul A ha (direction c) in
      exists Ks, K (ckb s') = Ks /\ ck_ok c s0 H Ks /\
      ((ord = 4 /\ length Ks = 6 /\ h = H /\ yn = ck_sol (lv CKdisc_B) 6 (y s0) H Ks /\
        nltb A (ck_E4 c (y s0) H Ks) n1 = true /\
        (let fac := pymin (lit CKdisc_max_factor) (ndiv A CK_SAFETY (ck_E4 c (y s0) H Ks)) in
         ha' = nmul A ha (if rej then pymin n1 fac else fac)) /\
        exists q0 q1, qt0 s' = ck_quit q0 (qt0 s) /\ qt1 s' = ck_quit q1 (qt1 s)) \/
       (ord = 2 /\ length Ks = 6 /\ ha' = nmul A ha (entry 1 CKdisc_C_fallback) /\ h = nmul A ha' (direction c) /\
        ck_qt s s' /\
        ck_cand c (row 1 CKdisc_B_fallback) (row 1 CKdisc_E_fallback) 4 (y s0) H Ks
          = (yn, snd (ck_cand c (row 1 CKdisc_B_fallback) (row 1 CKdisc_E_fallback) 4 (y s0) H Ks)) /\
        nltb A (snd (ck_cand c (row 1 CKdisc_B_fallback) (row 1 CKdisc_E_fallback) 4 (y s0) H Ks)) n1 = true) \/
       (ord = 1 /\ 4 <= length Ks /\ ha' = nmul A ha (entry 0 CKdisc_C_fallback) /\ h = nmul A ha' (direction c) /\
        ck_qt s s' /\
        ck_cand c (row 0 CKdisc_B_fallback) (row 0 CKdisc_E_fallback) 2 (y s0) H Ks
          = (yn, snd (ck_cand c (row 0 CKdisc_B_fallback) (row 0 CKdisc_E_fallback) 2 (y s0) H Ks)) /\
        nltb A (snd (ck_cand c (row 0 CKdisc_B_fallback) (row 0 CKdisc_E_fallback) 2 (y s0) H Ks)) n1 = true))
  end.
Proof.
  cbv zeta. unfold ck_trial.
  destruct (nltb A ha ms) eqn:Ems.
  { repeat split; auto. }
  set (s0 := ckb s). set (h := nmul A ha (direction c)).
  change (CKdisc_meth (length (y s0))) with (ck_m s0).
  destruct (stages (ck_m s0) (fn c) (t s0) (y s0) h 1 [f s0] (calls s0)) as [K1 cl1] eqn:S1.
  assert (O0 : ck_ok c s0 h [f s0]) by (split; [reflexivity|intros i Hi; simpl in Hi; lia]).
  destruct (stages_more c s0 h 1 _ _ _ _ O0 ltac:(simpl; lia) ltac:(simpl; lia) S1) as (O1 & L1 & _ & l1 & C1 & N1 & F1).
  cbn [length] in L1.
  set (E1 := npow A (snd (ck_cand c (row 0 CKdisc_B_assess) (row 0 CKdisc_E_assess) 2 (y s0) h K1)) (lit (1#2))).
  destruct (nltb A E1 (nmul A (tw0 s) (qt0 s))) eqn:G1.
  2:{ cbv zeta. split; [reflexivity|]. split; [apply ck_with_core|]. split; [reflexivity|]. split; [reflexivity|]. split; [reflexivity|].
      split; [exists l1; split; [exact C1|split; [lia|exact F1]]|].
      split; [left; split; reflexivity|]. split; [split; reflexivity|].
      right. eexists. split; [reflexivity|]. left. exists E1. split; [reflexivity|exact G1]. }
  destruct (stages (ck_m s0) (fn c) (t s0) (y s0) h 2 K1 cl1) as [K2 cl2] eqn:S2.
  destruct (stages_more c s0 h 2 _ _ _ _ O1 ltac:(lia) ltac:(lia) S2) as (O2 & L2 & _ & l2 & C2 & N2 & F2).
  rewrite L1 in L2. cbn in L2.
  set (E2 := npow A (snd (ck_cand c (row 1 CKdisc_B_assess) (row 1 CKdisc_E_assess) 4 (y s0) h K2)) (lit (1#3))).
  assert (NC2 : ck_new_calls s0 (ckb (ck_with s 0 K2 cl2 (tw0 s) (tw0 s) (tw0 s) (tw0 s))) h).
  { exists (l1 ++ l2). split; [cbn; rewrite C2, C1, app_assoc; reflexivity|].
    split; [rewrite app_length; lia|apply Forall_app; auto]. }
  destruct (nltb A E2 (nmul A (tw1 s) (qt1 s))) eqn:G2.
  2:{ cbv zeta. destruct (nltb A E1 n1) eqn:G3.
      2:{ split; [reflexivity|]. split; [apply ck_with_core|]. split; [reflexivity|]. split; [reflexivity|]. split; [reflexivity|].
          split; [exact NC2|]. split; [left; split; reflexivity|]. split; [split; reflexivity|].
          right. eexists. split; [reflexivity|]. right. left. exists E2. split; [reflexivity|exact G2]. }
      destruct (ck_cand c (row 0 CKdisc_B_fallback) (row 0 CKdisc_E_fallback) 2 (y s0) h K2) as [yn en] eqn:EC.
      destruct (nltb A en n1) eqn:G4.
      - split; [reflexivity|]. split; [apply ck_with_core|]. split; [reflexivity|]. split; [reflexivity|]. split; [exact NC2|].
        split; [left; split; reflexivity|]. exists K2. split; [reflexivity|]. split; [exact O2|].
        right. right. split; [reflexivity|]. split; [lia|]. split; [reflexivity|]. split; [reflexivity|].
        split; [split; reflexivity|]. rewrite EC. split; [reflexivity|exact G4].
      - split; [reflexivity|]. split; [apply ck_with_core|]. split; [reflexivity|]. split; [reflexivity|]. split; [reflexivity|].
        split; [exact NC2|]. split; [left; split; reflexivity|]. split; [split; reflexivity|]. left. reflexivity. }
  destruct (stages (ck_m s0) (fn c) (t s0) (y s0) h 2 K2 cl2) as [K3 cl3] eqn:S3.
  destruct (stages_more c s0 h 2 _ _ _ _ O2 ltac:(lia) ltac:(lia) S3) as (O3 & L3 & _ & l3 & C3 & N3 & F3).
  rewrite L2 in L3. cbn in L3.
  assert (NC3 : ck_new_calls s0 (ckb (ck_with s 0 K3 cl3 (tw0 s) (tw0 s) (tw0 s) (tw0 s))) h).
  { exists (l1 ++ l2 ++ l3). split; [cbn; rewrite C3, C2, C1, !app_assoc; reflexivity|].
    split; [rewrite !app_length; lia|]. apply Forall_app; split; auto. apply Forall_app; auto. }
  destruct (ck_cand c (lv CKdisc_B) (lv CKdisc_E) 6 (y s0) h K3) as [y5 en5] eqn:E5.
  assert (EE : ck_E4 c (y s0) h K3 = if neqb A (npow A en5 (lit (1#5))) n0 then lit (1 # (10^160)) else npow A en5 (lit (1#5))).
  { unfold ck_E4. rewrite E5. reflexivity. }
  assert (EY : y5 = ck_sol (lv CKdisc_B) 6 (y s0) h K3) by (unfold ck_cand in E5; cbv zeta in E5; congruence).
  cbv zeta. rewrite <- EE.
  destruct (nltb A (ck_E4 c (y s0) h K3) n1) eqn:G3.
  { split; [reflexivity|]. split; [apply ck_with_core|]. split; [reflexivity|]. split; [reflexivity|]. split; [exact NC3|].
    split; [left; split; reflexivity|]. exists K3. split; [reflexivity|]. split; [exact O3|]. left.
    split; [reflexivity|]. split; [exact L3|]. split; [reflexivity|]. split; [exact EY|]. split; [exact G3|].
    split; [reflexivity|]. eexists _, _. split; reflexivity. }
  destruct (nisnan A (ck_E4 c (y s0) h K3) || nisinf A (ck_E4 c (y s0) h K3)) eqn:G4.
  { split; [apply ck_with_core|]. repeat (split; [reflexivity|]). split; [split; reflexivity|].
    right. split; [reflexivity|]. split; [reflexivity|]. exists K3. split; [exact L3|]. split; [exact O3|exact G4]. }
  apply orb_false_iff in G4.
  destruct (ck_cand c (row 1 CKdisc_B_fallback) (row 1 CKdisc_E_fallback) 4 (y s0) h K3) as [y3 en3] eqn:EC3.
  destruct (nltb A E2 n1 && nltb A en3 n1) eqn:G5.
  { apply andb_true_iff in G5. destruct G5 as [G5 G6].
    split; [reflexivity|]. split; [apply ck_with_core|]. split; [reflexivity|]. split; [reflexivity|]. split; [exact NC3|].
    split; [right; eexists _, _; split; reflexivity|]. exists K3. split; [reflexivity|]. split; [exact O3|]. right. left.
    split; [reflexivity|]. split; [exact L3|]. split; [reflexivity|]. split; [reflexivity|]. split; [split; reflexivity|].
    rewrite EC3. split; [reflexivity|exact G6]. }
  destruct (nltb A E1 n1) eqn:G6.
  - destruct (ck_cand c (row 0 CKdisc_B_fallback) (row 0 CKdisc_E_fallback) 2 (y s0) h K3) as [yn en] eqn:EC.
    destruct (nltb A en n1) eqn:G7.
    + split; [reflexivity|]. split; [apply ck_with_core|]. split; [reflexivity|]. split; [reflexivity|]. split; [exact NC3|].
      split; [right; eexists _, _; split; reflexivity|]. exists K3. split; [reflexivity|]. split; [exact O3|].
      right. right. split; [reflexivity|]. split; [lia|]. split; [reflexivity|]. split; [reflexivity|].
      split; [split; reflexivity|]. rewrite EC. split; [reflexivity|exact G7].
    + split; [reflexivity|]. split; [apply ck_with_core|]. split; [reflexivity|]. split; [reflexivity|]. split; [reflexivity|].
      split; [exact NC3|]. split; [right; eexists _, _; split; reflexivity|]. split; [split; reflexivity|]. left. reflexivity.
  - split; [reflexivity|]. split; [apply ck_with_core|]. split; [reflexivity|]. split; [reflexivity|]. split; [reflexivity|].
    split; [exact NC3|]. split; [right; eexists _, _; split; reflexivity|]. split; [split; reflexivity|].
    right. eexists. split; [reflexivity|]. right. right. tauto.
Qed.

(** the loop: some rejected trials, then an accepted one *)
Lemma ck_loop_done c : forall k s ha ms rej s', ck_loop k c s ha ms rej = IDone s' ->
  exists j s1 s2 ha1 rej1 ord h ha' yn, ck_trial c s1 ha1 ms rej1 = CkAccept s2 ord h ha' yn /\
    s' = ck_finish c s2 ord h ha' yn /\ same_core (ckb s) (ckb s1) /\ same_ctl (ckb s) (ckb s1) /\
    nfs (ckb s1) = nfs (ckb s) + j /\ (rej1 = true -> rej = true \/ 1 <= j) /\
    exists l, calls (ckb s1) = calls (ckb s) ++ l /\ length l <= 5 * j.
Proof.
  induction k as [|k IH]; intros s ha ms rej s' H; cbn [ck_loop] in H; [discriminate|].
  pose proof (ck_trial_inv c s ha ms rej) as HT. cbv zeta in HT.
  destruct (ck_trial c s ha ms rej) as [s1 msg|s1 h1|s1 ord h h1 yn] eqn:ET; try discriminate.
  - destruct HT as (_ & HC & Hs & Hn & _ & (l1 & C1 & N1 & _) & _).
    destruct (IH _ _ _ _ _ H) as (j & s2 & s3 & ha1 & rej1 & ord & h & ha' & yn & E1 & E2 & E3 & E4 & E5 & _ & l & E6 & E7).
    exists (S j), s2, s3, ha1, rej1, ord, h, ha', yn. split; [exact E1|]. split; [exact E2|].
    split; [eapply same_core_trans; eauto|]. split; [unfold same_ctl in *; congruence|]. split; [lia|]. split; [intros; right; lia|].
    exists (l1 ++ l). split; [rewrite E6, C1, app_assoc; reflexivity|]. rewrite app_length. lia.
  - injection H as <-. exists 0, s, s1, ha, rej, ord, h, h1, yn. split; [exact ET|]. split; [reflexivity|].
    split; [apply same_core_refl|]. split; [reflexivity|]. split; [lia|]. split; [auto|]. exists []. split; [rewrite app_nil_r; reflexivity|simpl; lia].
Qed.

Lemma ck_loop_fail c : forall k s ha ms rej s' msg, ck_loop k c s ha ms rej = IFail s' msg ->
  same_core (ckb s) (ckb s') /\ same_ctl (ckb s) (ckb s') /\ ckord s' = ckord s /\
  (msg = ck_too_small \/ msg = ck_overflow) /\
  (msg = ck_too_small -> exists th, nltb A th ms = true).
Proof.
  induction k as [|k IH]; intros s ha ms rej s' msg H; cbn [ck_loop] in H; [discriminate|].
  pose proof (ck_trial_inv c s ha ms rej) as HT. cbv zeta in HT.
  destruct (ck_trial c s ha ms rej) as [s1 m1|s1 h1|s1 ord h h1 yn] eqn:ET; try discriminate.
  - injection H as <- <-. destruct HT as (HC & Hs & _ & Ho & _ & _ & _ & [(E & -> & _)|(E & -> & _)]).
    + split; [exact HC|]. split; [exact Hs|]. split; [exact Ho|]. split; [auto|]. intros _. exists ha. exact E.
    + split; [exact HC|]. split; [exact Hs|]. split; [exact Ho|]. split; [auto|]. intros HH. discriminate HH.
  - destruct HT as (_ & HC & Hs & _ & Ho & _). destruct (IH _ _ _ _ _ _ H) as (E1 & E2 & E3 & E4 & E5).
    split; [eapply same_core_trans; eauto|]. split; [unfold same_ctl in *; congruence|]. split; [unfold same_ctl in *; congruence|]. auto.
Qed.

Lemma ck_loop_noraise c : forall k s ha ms rej e, ck_loop k c s ha ms rej <> IRaise e.
Proof.
  induction k as [|k IH]; intros s ha ms rej e; cbn [ck_loop]; [discriminate|].
  destruct (ck_trial c s ha ms rej); try discriminate. apply IH.
Qed.
Lemma ck_loop_fuel c : forall k s ha ms rej, ck_loop k c s ha ms rej <> IFuel ->
  forall k', k <= k' -> ck_loop k' c s ha ms rej = ck_loop k c s ha ms rej.
Proof.
  induction k as [|k IH]; intros s ha ms rej H k' Hk; [simpl in H; congruence|].
  destruct k' as [|k']; [lia|]. cbn [ck_loop] in *. destruct (ck_trial c s ha ms rej); auto. apply IH; auto. lia.
Qed.
End CKGen.
