(** Property C60 for SSV2stab: where it evaluates fun.
    [rkc_real] (Prop_RKC.v): the constructor accepted the arguments and n step() calls returned,
    leading to v; [rs_calls] lists the calls of fun, [rs_rcalls] those of the power method. *)
From Coq Require Import String ZArith Reals Lra Bool Lia List.
From Verif Require Import Arith Common HStart RKInit SpecRK Ode RX Rkc Cheb RkcReal RkcGen RkcRho RkcStep RkcTop EvalTimesRkc Prop_RKC.
Import ListNotations.
Close Scope string_scope. Open Scope nat_scope. Open Scope R_scope.

(** the times of the stages: c_j in [0,1] for every number of stages *)
Theorem C60_ssv2stab_nodes m j : (2 <= m)%nat -> (j <= m)%nat -> 0 <= cc m j <= 1.
Proof. apply cc_range. Qed.

(** no probe for the first step size in the wrong direction or beyond t_bound: first_step is
    given, or the run is forward and not shorter than the smallest step of the constructor *)
Definition probe_inside (o : RkcOpts RX) (c : RkcCfg RX) (t0 tb : R) : Prop :=
  ro_first_step o <> None \/ (t0 < tb /\ forall hm, rc_hmin c = Fin hm -> hm <= tb - t0).
Theorem C60_ssv2stab o f t0 tb d F y0 c n v : rkc_real o f t0 tb d F y0 c n v -> probe_inside o c t0 tb ->
  exists s l lr, rkc_init ELX o f (Fin t0 : num RX) (map Fin y0) (Fin tb : num RX) = inl (c, s) /\
    rs_calls (ost v) = (rs_calls s ++ l)%list /\ rs_rcalls (ost v) = (rs_rcalls s ++ lr)%list /\
    Forall (fun p => exists x, fst p = Fin x /\ within t0 tb x) (l ++ lr)%list.
Proof.
  intros [H1 H2 H3 H4 H5 H6 (s & E & H)] HP.
  destruct (init_real o f t0 (map Fin y0) tb c s d F y0 E H1 H2 eq_refl H3 H4 H5 H6) as (dir & mx & rt & hm & al & lo & C & Hdir & S & LO & I0 & M1 & _ & EA).
  unfold rkc_hist in H. rewrite (cf_tb _ _ _ _ _ _ _ _ _ C), (cf_dir _ _ _ _ _ _ _ _ _ C) in H.
  pose proof (cf_dir1 _ _ _ _ _ _ _ _ _ C) as D1.
  assert (PR : probe_ok tb dir mx hm t0 (rs_absh s)).
  { intros N. destruct HP as [HP|[HP1 HP2]]; [exfalso; apply HP; change (num RX) with xr in *; congruence|].
    destruct D1 as [-> | ->]; [|lra]. split; [reflexivity|]. apply Rmax_lub; [rewrite Rabs_right in M1 by lra; exact M1|apply HP2, C]. }
  assert (I1 : rinv d F (fun _ => True) lo s) by (destruct I0 as (t & yy & sp & Q1 & _ & Q2); exists t, yy, sp; auto).
  destruct (hist_times c d F tb dir mx rt hm al C t0 y0 s lo n v LO S I1 Hdir PR H) as [(l & E1 & F1) (lr & E2 & F2)].
  exists s, l, lr. split; [exact E|]. split; [exact E1|]. split; [exact E2|]. apply Forall_app.
  assert (Q : forall l, rk_calls_in t0 dir (dir * (tb - t0)) l -> Forall (fun p : num RX * list (num RX) => exists x, fst p = Fin x /\ within t0 tb x) l).
  { intros l' X. eapply Forall_impl; [|exact X]. intros p (x & Ex & Hx). exists x. split; [exact Ex|]. unfold within. destruct D1 as [E0|E0]; rewrite E0 in *; [left|right]; lra. }
  split; apply Q; assumption.
Qed.
(** without first_step a backward run does probe on the wrong side of t0 *)
Theorem C60_ssv2stab_backward_refuted : exists o f t0 tb d F y0 c s v x u, rkc_real o f t0 tb d F y0 c 0 (onew s) /\
  rkc_step ELX c 1 (onew s) = OOk v /\ In (Fin x : num RX, u) (rs_calls (ost v)) /\ ~ within t0 tb x.
Proof.
  destruct C39_backward_call_refuted as (c & s & v & b & u & H1 & H2 & H3 & H4). do 7 eexists. exists c, s, v, b, u.
  split; [exact H1|]. split; [exact H2|]. split; [exact H4|]. unfold within. lra.
Qed.
(** the hypotheses are met *)
Example C60_ssv2stab_case : exists o f d F y0 c s, rkc_real o f 0 (21/20) d F y0 c 0 (onew s) /\ probe_inside o c 0 (21/20).
Proof. destruct C39_case as (c & s & H & _). do 7 eexists. split; [exact H|]. left. discriminate. Qed.
