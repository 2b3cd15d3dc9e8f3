(** ESDIRK, any arithmetic: the Jacobian and the factorisation in use, in every history. *)
From Coq Require Import String ZArith QArith Bool Lia List.
From Verif Require Import Arith Common Stiff RK HStart RKInit Tableaux Classes Dense Ode ESDIRK ESDGen.
Import ListNotations.

Section I.
Context {A : Arith}.
Notation num := (num A).
Notation vec := (list num).
Notation mat := (list (list num)).

(** the Jacobian in use is the latest evaluation, made at (t, y) of this step if current_J;
    or the constant matrix J0 *)
Definition jfresh (c : ECfg A) (J0 : mat) (t : num) (y : vec) (w : EWk A) : Prop :=
  match x_jac c with
  | None => w_J w = J0
  | Some jac => exists l t1 y1, w_jcalls w = (l ++ [(t1, y1)])%list /\ w_J w = jac (length l) t1 y1 /\
                  (w_curJ w = true -> t1 = t /\ y1 = y)
  end.
Definition ginv m c J0 (s : ES A) (w : EWk A) : Prop := lu_ok m c w /\ lin_ok c w /\ jfresh c J0 (e_t s) (e_y s) w.

Lemma etrial_ginv m c J0 s w ha ms rej : ginv m c J0 s w ->
  match etrial m c s w ha ms rej with
  | EtAgain w' _ _ => ginv m c J0 s w'
  | EtAccept w' _ _ _ _ _ _ => ginv m c J0 s w'
  | _ => True
  end.
Proof.
  intros (HL & HN & HJ). pose proof (etrial_inv m c s w ha ms rej HL HN) as HT.
  destruct (etrial m c s w ha ms rej) as [w'|e|w' ha' rej'|w' hh hn tn yn en K]; [exact I|exact I| |].
  - destruct HT as (_ & T1 & T2 & _ & _ & HT). split; [exact T1|]. split; [exact T2|]. unfold jfresh in *.
    destruct HT as [((A1 & A2 & A3 & A4 & A5 & A6 & A7 & (jac & EJ & A8)) & _)|[((A1 & A2 & A3 & _) & _)|((A1 & A2 & A3 & _) & _)]].
    + rewrite EJ. exists (w_jcalls w), (e_t s), (e_y s). auto.
    + rewrite A1, A2, A3. exact HJ.
    + rewrite A1, A2, A3. exact HJ.
  - destruct HT as (_ & T1 & T2 & _ & _ & _ & _ & _ & _ & _ & _ & _ & (L & w1 & psi & z & w2 & w3 & U1 & U2 & U3 & U4 & U5 & _)).
    split; [exact T1|]. split; [exact T2|].
    pose proof (factorise_ok m c w hh L w1 HL U1) as (_ & _ & F3 & F4 & F5 & _).
    pose proof (estages_core _ _ _ _ _ _ _ _ _ _ _ _ _ _ U2) as (G1 & _).
    unfold core in G1, U5. cbn [w_rates w_J w_curJ w_LU w_hLU w_Sc w_std w_maxf w_nfs w_nfi w_nlu w_jcalls] in G1.
    injection G1 as K1 K2 K3 K4 K5 K6 K7 K8 K9 K10 K11. injection U5 as M1 M2 M3 M4 M5 M6 M7 M8 M9 M10 M11.
    pose proof (eassess_core _ _ _ _ _ _ _ _ _ U4) as ((J1 & J2 & J3 & J4 & J5 & J6 & J7 & J8 & J9 & J10) & _).
    unfold jfresh in *. rewrite J1, J2, J9, M1, M2, M11, K1, K2, K11, F3, F4, F5. exact HJ.
Qed.

Lemma tries_ginv m c J0 s ms w0 ha0 j w ha rej : ginv m c J0 s w0 -> tries m c s ms w0 ha0 j w ha rej -> ginv m c J0 s w.
Proof.
  intros H0 H. induction H as [|j w ha rej w' ha' rej' H IH E]; [exact H0|].
  pose proof (etrial_ginv m c J0 s w ha ms rej IH) as HT. rewrite E in HT. exact HT.
Qed.

Lemma preemptive_ginv m c J0 s w ha w' : ginv m c J0 s w -> preemptive c s w ha = inl w' -> ginv m c J0 s w'.
Proof.
  intros (HL & HN & HJ) H.
  assert (HL0 : x_dae c = None -> w_Sc w = None) by (destruct HL; assumption).
  unfold preemptive in H.
  assert (NJ : forall jac b, x_jac c = Some jac -> (b = true -> True) ->
      ginv m c J0 s (w_newJ w (jac (length (w_jcalls w)) (e_t s) (e_y s)) b (e_t s, e_y s))).
  { intros jac b EJ _. split; [split; [exact HL0|exact I]|]. split.
    - intros EL. unfold x_linear in EL. rewrite EJ in EL. discriminate EL.
    - unfold jfresh. rewrite EJ. exists (w_jcalls w), (e_t s), (e_y s). auto. }
  destruct (x_jac_each c && negb (w_curJ w))%bool.
  { destruct (x_jac c) as [jac|] eqn:EJ; [|discriminate]. injection H as <-. apply NJ; auto. }
  destruct (nltb A n0 (w_rate w)); [|injection H as <-; split; [exact HL|split; [exact HN|exact HJ]]].
  destruct (e_hprev s); [|discriminate]. destruct (w_hLU w) eqn:EH; [|discriminate].
  destruct (_ && _)%bool.
  { destruct (x_jac c) as [jac|] eqn:EJ; [|discriminate]. injection H as <-. apply NJ; auto. }
  destruct (nltb A _ _); injection H as <-; [|split; [exact HL|split; [exact HN|exact HJ]]].
  split; [split; [exact HL0|exact I]|]. split; [exact HN|exact HJ].
Qed.

Lemma start_ginv m c J0 s ha ms w : ginv m c J0 s (e_w s) -> start c s = ((ha, ms), inl w) -> ginv m c J0 s w.
Proof.
  intros H E. unfold start in E. destruct (ereassess _ _ _ _) as [[ha0 ms0] std]. injection E as _ _ E.
  eapply preemptive_ginv; [|exact E]. exact H.
Qed.

Lemma estep_ginv m c J0 k s s' : ginv m c J0 s (e_w s) -> estep_impl m c k s = IDone s' -> ginv m c J0 s' (e_w s').
Proof.
  intros H E. rewrite estep_start in E. destruct (start c s) as [[ha ms] [w|e]] eqn:ES; [|discriminate].
  pose proof (start_ginv m c J0 s ha ms w H ES) as HW.
  pose proof (eloop_tries m c s ms w ha k 0 w ha false (tr0 _ _ _ _ _ _)) as HT. rewrite E in HT.
  destruct HT as (j & w1 & ha1 & rej1 & w2 & h & hn & tn & yn & en & K & T1 & T2 & ->).
  pose proof (tries_ginv m c J0 s ms w ha j w1 ha1 rej1 HW T1) as H1.
  pose proof (etrial_ginv m c J0 s w1 ha1 ms rej1 H1) as H2. rewrite T2 in H2. destruct H2 as ([L1 L2] & HN & HJ).
  split; [split; [exact L1|exact L2]|]. split; [intros EL; exact EL|].
  unfold jfresh, efinish in *. cbn [e_w w_cur w_J w_jcalls w_curJ e_t e_y]. destruct (x_jac c) as [jac|] eqn:EJ; [|exact HJ].
  destruct HJ as (l & t1 & y1 & J1 & J2 & _). exists l, t1, y1. split; [exact J1|]. split; [exact J2|]. unfold x_linear. rewrite EJ. discriminate.
Qed.

Lemma ohist_ginv m c J0 tb dir n v v' : ohist eview tb dir (fun k => estep_impl m c k) v n v' -> ginv m c J0 (ost v) (e_w (ost v)) ->
  (ostat v' = ORunning -> ginv m c J0 (ost v') (e_w (ost v'))).
Proof.
  intros H H0. induction H as [v|v n v1 v2 k H IH HS]; [auto|]. intros Hr. specialize (IH H0).
  unfold ostep in HS. destruct (ostat v1) eqn:E1; try discriminate. specialize (IH eq_refl).
  destruct (_ || _)%bool; [injection HS as <-; discriminate Hr|].
  destruct (estep_impl m c k (ost v1)) as [s'|s' msg|e|] eqn:EI; try discriminate; injection HS as <-; [|discriminate Hr].
  cbn [ost]. eapply estep_ginv; eassumption.
Qed.

(** yp_old, error_norm_old etc. of an accepted step *)
Lemma estep_ypold m c k (s s' : ES A) : estep_impl m c k s = IDone s' -> e_ypold s' = Some (x_f0 c) /\ e_yold s' = Some (e_y s).
Proof.
  intros E. rewrite estep_start in E. destruct (start c s) as [[ha ms] [w|e]] eqn:ES; [|discriminate].
  pose proof (eloop_tries m c s ms w ha k 0 w ha false (tr0 _ _ _ _ _ _)) as HT. rewrite E in HT.
  destruct HT as (j & w1 & ha1 & rej1 & w2 & h & hn & tn & yn & en & K & T1 & T2 & ->). split; reflexivity.
Qed.
End I.
