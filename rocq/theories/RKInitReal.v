(** Solvers built by the constructors satisfy the invariants of RKReal.v. *)
From Coq Require Import String ZArith Reals Lra Psatz QArith Qreals Bool Lia List.
From Verif Require Import Arith Common Stiff RK RKGen RX RKReal HStart HStartReal RKInit.
Import ListNotations.
Open Scope R_scope.

Lemma inl_pair_inj {X Y E} (a c : X) (b d : Y) : @inl (X * Y) E (a, b) = inl (c, d) -> a = c /\ b = d.
Proof. intros H. inversion H. auto. Qed.

(** all entries finite *)
Definition allfin (l : list (num RX)) : Prop := Forall (fun x => exists r, x = Fin r) l.

Lemma cdiff_ok C : allfin C -> exists d, @cdiff RX C = Fin d /\ 1/1000 <= d <= 1.
Proof.
  intros HC. unfold cdiff.
  assert (Hin : forall (C1 : list (num RX)) (x acc : num RX), allfin C1 -> (exists r, x = Fin r) ->
     (exists d, acc = Fin d /\ 0 < d <= 1) ->
     exists d, fold_left (fun acc c2 =>
               if neqb RX (nabs RX (nsub RX x c2)) n0 then acc
               else pymin acc (nabs RX (nsub RX x c2))) C1 acc = Fin d /\ 0 < d <= 1).
  { induction C1 as [|c C1 IH]; intros x acc HF Hx Ha; [exact Ha|].
    inversion HF as [|? ? [rc Hc] HF']; subst. cbn [fold_left]. apply IH; auto.
    destruct Hx as [rx ->]. destruct Ha as (d & -> & Hd).
    rewrite n0_RX. cbn [nabs nsub neqb RX]. unfold xsub. cbn [xopp xadd xabs xeqb].
    destruct (Reqb_spec (Rabs (rx + - rc)) 0); [eauto|].
    rewrite pymin_fin. eexists; split; [reflexivity|].
    assert (0 < Rabs (rx + - rc)) by (pose proof (Rabs_pos (rx + - rc)); lra).
    split; [apply Rmin_case; lra|]. eapply Rle_trans; [apply Rmin_l|lra]. }
  assert (Hout : forall (C1 : list (num RX)) (acc : num RX), allfin C1 ->
     (exists d, acc = Fin d /\ 0 < d <= 1) ->
     exists d, fold_left (fun acc c1 => fold_left (fun acc c2 =>
               if neqb RX (nabs RX (nsub RX c1 c2)) n0 then acc
               else pymin acc (nabs RX (nsub RX c1 c2))) C acc) C1 acc = Fin d /\ 0 < d <= 1).
  { induction C1 as [|c C1 IH]; intros acc HF Ha; [exact Ha|].
    inversion HF; subst. cbn [fold_left]. apply IH; auto. }
  destruct (Hout C n1 HC) as (d & -> & Hd).
  { exists 1. rewrite n1_RX. split; [reflexivity|lra]. }
  rewrite lit_RX. replace (Q2R (1#1000)) with (1/1000) by (unfold Q2R; simpl; lra).
  cbn [nltb RX xltb]. destruct (Rltb_spec d (1/1000)).
  - exists (1/1000). split; [reflexivity|lra].
  - exists d. split; [reflexivity|lra].
Qed.

Lemma nofnat_RX n : @nofnat RX n = Fin (INR n).
Proof.
  unfold nofnat. rewrite lit_RX. f_equal. unfold Q2R, inject_Z; simpl.
  rewrite <- INR_IZR_INZ. lra.
Qed.

(** controllers with 0 < g < 1 and finite parameters; the built-in names qualify *)
Definition sc_ok (a : sc_arg RX) : Prop :=
  match @sc_coefs RX a with
  | inl (kb1, kb2, al, g) =>
      fin kb1 /\ fin kb2 /\ fin al /\ exists gg, g = Fin gg /\ 0 < gg < 1
  | inr _ => False
  end.

Lemma sc_names_ok n : n = "G"%string \/ n = "S"%string \/ n = "standard"%string -> sc_ok (ScName n).
Proof.
  intros [-> | [-> | ->]]; unfold sc_ok; simpl;
  (split; [eexists; reflexivity|]); (split; [eexists; reflexivity|]);
  (split; [eexists; reflexivity|]); eexists; (split; [reflexivity|]);
  unfold Q2R; simpl; lra.
Qed.

Lemma hminb_RX : exists b, @h_min_b0 RX = Fin b /\ 0 < b < 1.
Proof.
  unfold h_min_b0. cbn [nsqrt n_tiny RX xsqrt].
  assert (Hp : 0 < / 2 ^ 1022) by (apply Rinv_0_lt_compat, pow_lt; lra).
  assert (Hl : / 2 ^ 1022 < 1).
  { rewrite <- Rinv_1. apply Rinv_lt_contravar.
    - rewrite Rmult_1_l. apply pow_lt; lra.
    - apply Rlt_pow_R1; [lra|lia]. }
  destruct (Rlt_dec (/ 2 ^ 1022) 0); [lra|].
  eexists; split; [reflexivity|]. split; [apply sqrt_lt_R0; exact Hp|].
  rewrite <- sqrt_1. apply sqrt_lt_1; lra.
Qed.

Lemma hmina_RX C : allfin C -> exists a, @h_min_a0 RX C = Fin a /\ 0 < a.
Proof.
  intros HC. unfold h_min_a0. destruct (cdiff_ok C HC) as (d & -> & Hd).
  rewrite lit_RX. cbn [n_epsneg RX nmul ndiv xmul xdiv].
  destruct (Req_EM_T d 0); [lra|]. eexists; split; [reflexivity|].
  apply Rdiv_lt_0_compat; [|lra].
  apply Rmult_lt_0_compat; [unfold Q2R; simpl; lra|apply Rinv_0_lt_compat, pow_lt; lra].
Qed.

Lemma direction0_RX t0 tb : t0 <> tb ->
  exists d, @direction0 RX (Fin t0) (Fin tb) = Fin d /\ (d = 1 \/ d = -1) /\ 0 < d * (tb - t0).
Proof.
  intros Hne. unfold direction0. rewrite n0_RX, n1_RX, lit_RX.
  cbn [nsub RX nltb]. unfold xsub. cbn [xopp xadd xltb].
  destruct (Rltb_spec 0 (tb + - t0)).
  - exists 1. split; [reflexivity|]. split; [auto|lra].
  - destruct (Rltb_spec (tb + - t0) 0).
    + exists (-1). split; [f_equal; unfold Q2R; simpl; lra|]. split; [auto|lra].
    + lra.
Qed.

Theorem rk_init_good (k : Cls RX) (o : Opts RX) fun_ (t0 tb : R) (y0 : list (num RX)) c s :
  rk_init k o fun_ (Fin t0) y0 (Fin tb) = inl (c, s) ->
  t0 <> tb -> y0 <> [] -> allfin (k_C k) -> sc_ok (sc_or (o_sc o) (k_sc k)) ->
  o_max_step o <> NaN -> o_first_step o <> Some NaN ->
  exists r, good_cfg c r /\ good_st r s /\ RKReal.tb r = tb /\ mf r = 1/5 /\
    t s = Fin t0 /\ y s = y0 /\ f s = fn c (Fin t0) y0 /\ max_step c = o_max_step o /\
    fn c = fun_ /\ h_previous s = None /\ standard_sc s = true.
Proof.
  intros H Hne Hy HC Hsc Hms Hfs.
  unfold rk_init in H.
  destruct (nleb RX (o_max_step o) n0) eqn:Emax; [discriminate|].
  destruct (validate_tol (o_rtol_is_float o) (o_rtol o) (o_atol o) y0) as [[rt at_]|]; [|discriminate].
  destruct (init_stiff (k_stab k) (o_stiff o)) as [nsd|]; [|discriminate].
  unfold sc_ok in Hsc.
  destruct (sc_coefs (sc_or (o_sc o) (k_sc k))) as [[[[kb1 kb2] al] gg]|]; [|discriminate].
  destruct Hsc as ([k1 ->] & [k2 ->] & [al1 ->] & (g1 & -> & Hg)).
  destruct (direction0_RX t0 tb Hne) as (d & Hd & Hd1 & Hd2).
  set (dirx := direction0 (Fin t0) (Fin tb)) in *.
  set (ms := o_max_step o) in *.
  assert (HMS : ms = PInf \/ exists M, ms = Fin M /\ 0 < M).
  { rewrite n0_RX in Emax. cbn [nleb RX] in Emax.
    destruct ms as [M| | |]; simpl in Emax; try discriminate; auto.
    - apply Rleb_false in Emax. eauto.
    - congruence. }
  cbv zeta in H.
  match type of H with (match ?X with inl _ => _ | inr _ => _ end = _) =>
    assert (HF : (exists h cl, X = inl (Fin h, cl) /\ 0 < h) \/ exists e, X = inr e) end.
  { destruct (o_first_step o) as [h0|].
    - rewrite n0_RX. cbn [nabs nsub nleb nltb RX]. unfold xsub. cbn [xopp xadd xabs].
      destruct h0 as [h0| | |]; [| | |exfalso; apply Hfs; reflexivity]; simpl.
      + destruct (Rleb_spec h0 0); [right; eauto|].
        destruct (Rltb_spec (Rabs (tb + - t0)) h0); [right; eauto|].
        left. exists h0, []. split; [reflexivity|lra].
      + right; eauto.
      + right; eauto.
    - left. rewrite Hd.
      assert (Hb : exists b, nadd RX (Fin t0) (nmul RX (Fin d) (pymin (nabs RX (nsub RX (Fin tb) (Fin t0))) ms)) = Fin b /\ t0 <> b).
      { cbn [nabs nsub RX]. unfold xsub. cbn [xopp xadd xabs].
        assert (0 < Rabs (tb + - t0)) by (apply Rabs_pos_lt; lra).
        destruct HMS as [-> | (M & -> & HM)].
        - unfold pymin. cbn [nltb RX xltb nadd nmul xmul xadd].
          eexists; split; [reflexivity|]. destruct Hd1; subst d; lra.
        - rewrite pymin_fin. cbn [nadd nmul RX xmul xadd].
          eexists; split; [reflexivity|].
          assert (0 < Rmin (Rabs (tb + - t0)) M) by (apply Rmin_case; lra).
          destruct Hd1; subst d; lra. }
      destruct Hb as (b & -> & Hb). cbv zeta.
      destruct (h_start_spec fun_ t0 b y0 (fun_ (Fin t0) y0) (k_order2 k) rt at_ None None Hb Hy)
        as (h & cl & -> & Hh & _).
      exists (Rabs h), cl. split; [reflexivity|]. apply Rabs_pos_lt. intros ->. lra. }
  destruct HF as [(h & cl & HF1 & Hh)|[e HF1]]; rewrite HF1 in H; [|discriminate].
  clear HF1.
  apply inl_pair_inj in H. destruct H as [Hc Hs].
  destruct (hmina_RX (k_C k) HC) as (a & Ha & Ha0).
  destruct hminb_RX as (b & Hb & Hb0).
  set (ord := S (Nat.min (k_order2 k) (k_order k))) in *.
  assert (Hord : 0 < INR ord) by (apply lt_0_INR; unfold ord; lia).
  assert (Hee : ndiv RX (nopp RX n1) (nofnat ord) = Fin (- 1 / INR ord)).
  { rewrite n1_RX, nofnat_RX. cbn [nopp ndiv RX xopp xdiv].
    destruct (Req_EM_T (INR ord) 0); [lra|]. reflexivity. }
  destruct (xpow_fin g1 (k1 + k2)) as (gsx & Hgs & Hgs0); [lra|].
  exists {| RKReal.tb := tb; dir := d; ha := a; hb := b; te := b; g := g1; gs := gsx;
            b1 := k1 * (- 1 / INR ord); b2 := k2 * (- 1 / INR ord); RKReal.al := - al1;
            RKReal.ee := - 1 / INR ord; mf := 1/5 |}.
  assert (Hmfl : @MIN_FACTOR RX = Fin (1/5)) by (unfold MIN_FACTOR; rewrite lit_RX; f_equal; unfold Q2R; simpl; lra).
  subst c s.
  split; [split; [|split]|split; [|repeat split; auto]].
  - unfold cfg_is. cbn [t_bound direction h_min_a h_min_b tiny_err safety safety_sc minbeta1
      minbeta2 minalpha error_exponent min_factor RKReal.tb dir ha hb te g gs b1 b2 RKReal.al RKReal.ee mf].
    rewrite Ha, Hb, Hee, Hmfl. change (npow RX (Fin g1) (nadd RX (Fin k1) (Fin k2))) with (xpow (Fin g1) (Fin (k1 + k2))).
    rewrite Hgs. repeat split; auto.
  - unfold rc_ok. cbn [RKReal.tb dir ha hb te g gs b1 b2 RKReal.al RKReal.ee mf].
    split; [exact Hd1|]. split; [lra|]. split; [lra|]. split; [lra|]. split; [lra|].
    split; [lra|]. split; [|lra].
    replace (-1 / INR ord) with (- (1 / INR ord)) by (field; lra).
    apply Ropp_lt_gt_0_contravar. apply Rdiv_lt_0_compat; lra.
  - exact HMS.
  - unfold good_st. cbn [t h_abs max_factor standard_sc RKReal.tb dir].
    split; [exists t0; split; [reflexivity|lra]|]. split; [exists h; auto|].
    split; [left; apply MAXF0_RX|discriminate].
Qed.
