(** h_start over the extended reals: sign, positivity, bounds, evaluations. *)
From Coq Require Import String ZArith Reals Lra Psatz QArith Qreals Bool Lia List.
From Verif Require Import Arith Common Stiff RK RX RKReal HStart.
Import ListNotations.
Open Scope R_scope.

Notation xvec := (list (num RX)).

Lemma nneg_norm (x : xvec) : nneg (@norm RX x).
Proof. apply nneg_sqrt. Qed.

Definition small : R := / 2 ^ 53 + / 2 ^ 105.

Lemma small_pos : 0 < small < 1 / 1000.
Proof.
  unfold small. assert (0 < / 2 ^ 53) by (apply Rinv_0_lt_compat, pow_lt; lra).
  assert (0 < / 2 ^ 105) by (apply Rinv_0_lt_compat, pow_lt; lra).
  split; [lra|].
  assert (/ 2 ^ 53 < 1 / 4000).
  { unfold Rdiv. rewrite Rmult_1_l. apply Rinv_lt_contravar; [|].
    - apply Rmult_lt_0_compat; [lra|apply pow_lt; lra].
    - replace 53%nat with (12 + 41)%nat by reflexivity. rewrite pow_add.
      assert (1 <= 2 ^ 41) by (apply pow_R1_Rle; lra).
      assert (4000 < 2 ^ 12) by (simpl; lra). nra. }
  assert (/ 2 ^ 105 <= / 2 ^ 53).
  { apply Rinv_le_contravar; [apply pow_lt; lra|]. apply Rle_pow; [lra|lia]. }
  lra.
Qed.

Lemma nsmall_RX : n_small RX = Fin small.
Proof. reflexivity. Qed.

Lemma relper_RX : exists q, @hs_relper RX = Fin q /\ 0 < q < 1.
Proof.
  unfold hs_relper. cbn [npow RX]. rewrite nsmall_RX. rewrite lit_RX.
  pose proof small_pos as Hs.
  assert (He : Q2R (375#1000) = 375/1000) by (unfold Q2R; simpl; lra).
  rewrite He. unfold xpow.
  destruct (Req_EM_T (375/1000) 0); [lra|].
  destruct (Rlt_dec 0 small); [|lra].
  eexists; split; [reflexivity|]. split; [apply Rpower_pos|].
  unfold Rpower. rewrite <- exp_0. apply exp_increasing.
  assert (ln small < 0) by (rewrite <- ln_1; apply ln_increasing; lra). nra.
Qed.

Lemma big_nneg : nneg (@hs_big RX).
Proof. apply nneg_sqrt. Qed.

(** *** the Lipschitz loop *)

Lemma hs_loop_spec left : forall k df a da dely y yprime sf spy yp delf dfdub fbnd calls du fb cl,
  @hs_loop RX left k df a da dely y yprime sf spy yp delf dfdub fbnd calls = (du, fb, cl) ->
  nneg dfdub -> nneg fbnd ->
  nneg du /\ nneg fb /\
  exists l, cl = (calls ++ l)%list /\ (length l <= left)%nat /\
    Forall (fun p => fst p = a \/ fst p = xadd a da) l.
Proof.
  induction left as [|left IH]; intros k df a da dely y yprime sf spy yp delf dfdub fbnd calls du fb cl H Hd Hf;
    cbn [hs_loop] in H.
  - inversion H; subst. split; [auto|]. split; [auto|]. exists []. rewrite app_nil_r. auto.
  - set (pv := vadd y (vscale (ndiv RX dely delf) yp)) in *.
    set (tx := if Nat.eqb k 2 then nadd RX a da else a) in *.
    assert (Htx : tx = a \/ tx = xadd a da) by (unfold tx; destruct (Nat.eqb k 2); auto).
    set (yp1 := df tx pv) in *.
    set (pv1 := vsub yp1 (if Nat.eqb k 2 then sf else yprime)) in *.
    assert (Hf1 : nneg (@pymax RX fbnd (@norm RX yp1))) by (apply nneg_pymax; [auto|apply nneg_norm]).
    destruct (nleb RX (nmul RX hs_big (nabs RX dely)) (norm pv1)).
    { inversion H; subst. split; [apply big_nneg|]. split; [auto|].
      eexists. split; [reflexivity|]. split; [cbn [length]; lia|]. constructor; auto. }
    assert (Hd1 : nneg (@pymax RX dfdub (ndiv RX (norm pv1) (nabs RX dely)))).
    { apply nneg_pymax; auto. apply nneg_div; [apply nneg_norm|apply nneg_abs]. }
    destruct (Nat.eqb left 0).
    { inversion H; subst. split; [auto|]. split; [auto|].
      eexists. split; [reflexivity|]. split; [cbn [length]; lia|]. constructor; auto. }
    apply IH in H; auto. destruct H as (H1 & H2 & l & Hl & Hlen & HF).
    split; [auto|]. split; [auto|].
    exists ((tx, pv) :: l). split; [rewrite Hl, <- app_assoc; reflexivity|].
    split; [cbn [length]; lia|]. constructor; auto.
Qed.

(** *** the final selection *)

(** 10 ** x is positive, inf or nan *)
Definition posx (x : xr) : Prop := match x with Fin r => 0 < r | PInf => True | NaN => True | NInf => False end.

Lemma hs_final_spec (a b : R) (ydpb fbnd dfdub tolp : xr) :
  a <> b -> nneg ydpb -> nneg fbnd -> nneg dfdub -> nneg tolp ->
  exists h, @hs_final RX (Fin a) (Fin b) (Fin (b - a)) ydpb fbnd dfdub tolp = Fin h /\
    0 < h * (b - a) /\ Rabs h <= Rmax (Rabs (b - a)) (100 * small * Rabs a).
Proof.
  intros Hab H1 H2 H3 H4. unfold hs_final.
  pose proof small_pos as Hsm.
  set (absdx := nabs RX (Fin (b - a))).
  assert (Habs : absdx = Fin (Rabs (b - a))) by reflexivity.
  set (D := Rabs (b - a)) in *.
  assert (HD : 0 < D) by (unfold D; apply Rabs_pos_lt; lra).
  rewrite Habs.
  match goal with |- context [if neqb RX dfdub n0 then ?x else _] => set (h1 := x) end.
  assert (Hh1 : exists r, h1 = Fin r /\ 0 <= r <= D).
  { unfold h1. rewrite n0_RX, n1_RX.
    assert (HDD : exists r, Fin D = Fin r /\ 0 <= r <= D) by (exists D; split; [reflexivity|lra]).
    destruct (neqb RX ydpb (Fin 0) && neqb RX fbnd (Fin 0)) eqn:E1.
    - destruct (nltb RX tolp (Fin 1)) eqn:E2; [|exact HDD].
      cbn [nltb RX] in E2. destruct tolp as [q| | |]; simpl in E2, H4; try discriminate; try contradiction.
      apply Rltb_true in E2. change (nmul RX) with xmul. cbn [xmul].
      eexists; split; [reflexivity|]. nra.
    - destruct (neqb RX ydpb (Fin 0)) eqn:E3.
      + destruct (nltb RX tolp (nmul RX fbnd (Fin D))) eqn:E2; [|exact HDD].
        cbn [nltb nmul ndiv RX] in *.
        destruct fbnd as [fb| | |]; simpl in H2, E1; try contradiction.
        * rewrite Reqb_false in E1. cbn [xmul] in E2.
          destruct tolp as [q| | |]; simpl in E2, H4; try discriminate; try contradiction.
          apply Rltb_true in E2. cbn [xdiv]. destruct (Req_EM_T fb 0); [contradiction|].
          eexists; split; [reflexivity|].
          assert (0 < fb) by lra. split.
          { apply Rmult_le_pos; [lra|]. left. now apply Rinv_0_lt_compat. }
          apply Rmult_le_reg_r with fb; [lra|]. unfold Rdiv. rewrite Rmult_assoc, Rinv_l by lra. lra.
        * destruct tolp as [q| | |]; simpl in E2, H4; try contradiction; try discriminate.
          -- cbn [xdiv]. exists 0. split; [reflexivity|lra].
          -- exfalso. cbn in E2. unfold inf_of_sign in E2.
             repeat (destruct (Rlt_dec _ _) in E2; simpl in E2; try discriminate; try lra).
        * cbn in E2. destruct tolp; discriminate.
      + set (sr := nsqrt RX (nmul RX (lit (1 # 2)) ydpb)).
        assert (Hsr : nneg sr) by apply nneg_sqrt.
        destruct (nltb RX tolp (nmul RX sr (Fin D))) eqn:E2; [|exact HDD].
        cbn [nltb nmul ndiv RX] in *.
        destruct sr as [fb| | |]; simpl in Hsr; try contradiction.
        * cbn [xmul] in E2.
          destruct tolp as [q| | |]; simpl in E2, H4; try discriminate; try contradiction.
          apply Rltb_true in E2. cbn [xdiv].
          assert (0 < fb) by (destruct (Rle_lt_or_eq_dec 0 fb Hsr); auto; subst; lra).
          destruct (Req_EM_T fb 0); [lra|].
          eexists; split; [reflexivity|]. split.
          { apply Rmult_le_pos; [lra|]. left. now apply Rinv_0_lt_compat. }
          apply Rmult_le_reg_r with fb; [lra|]. unfold Rdiv. rewrite Rmult_assoc, Rinv_l by lra. lra.
        * destruct tolp as [q| | |]; simpl in E2, H4; try contradiction; try discriminate.
          -- cbn [xdiv]. exists 0. split; [reflexivity|lra].
          -- exfalso. cbn in E2. unfold inf_of_sign in E2.
             repeat (destruct (Rlt_dec _ _) in E2; simpl in E2; try discriminate; try lra).
        * cbn in E2. destruct tolp; discriminate. }
  destruct Hh1 as (r1 & -> & Hr1).
  match goal with |- context [@pymax RX ?x _] => set (h2 := x) end.
  assert (Hh2 : exists r, h2 = Fin r /\ 0 <= r <= D).
  { unfold h2. destruct (neqb RX dfdub n0) eqn:E; [eauto|].
    rewrite n1_RX. cbn [ndiv neqb RX] in *. rewrite n0_RX in E.
    destruct dfdub as [q| | |]; simpl in H3, E; try contradiction.
    - rewrite Reqb_false in E. cbn [xdiv]. destruct (Req_EM_T q 0); [contradiction|].
      rewrite pymin_fin. eexists; split; [reflexivity|].
      assert (0 < 1 / q) by (apply Rdiv_lt_0_compat; lra).
      split; [apply Rmin_case; lra|]. eapply Rle_trans; [apply Rmin_l|lra].
    - cbn [xdiv]. rewrite pymin_fin. eexists; split; [reflexivity|].
      split; [apply Rmin_case; lra|]. eapply Rle_trans; [apply Rmin_l|lra].
    - cbn [xdiv]. unfold pymin. cbn [nltb RX xltb]. eauto. }
  destruct Hh2 as (r2 & -> & Hr2).
  rewrite nsmall_RX.
  assert (Hlow : nmul RX (nmul RX (lit 100) (Fin small)) (nabs RX (Fin a)) = Fin (100 * small * Rabs a)).
  { rewrite lit_RX. cbn. f_equal. unfold Q2R; simpl. lra. }
  rewrite Hlow, pymax_fin.
  set (h3 := Rmax r2 (100 * small * Rabs a)).
  assert (Hh3 : 0 <= h3 <= Rmax D (100 * small * Rabs a)).
  { unfold h3. split; [eapply Rle_trans; [|apply Rmax_l]; lra|].
    apply Rle_max_compat_r. lra. }
  assert (Hpor : exists h4 : R, @por RX (Fin h3) (nmul RX (Fin small) (nabs RX (Fin b))) = Fin h4 /\
      0 < h4 <= Rmax D (100 * small * Rabs a)).
  { unfold por. rewrite n0_RX. cbn [neqb RX xeqb].
    destruct (Reqb_spec h3 0) as [E|E].
    - cbn. eexists; split; [reflexivity|].
      assert (Ha : Rabs a = 0).
      { assert (100 * small * Rabs a <= h3) by (unfold h3; apply Rmax_r).
        assert (0 <= Rabs a) by apply Rabs_pos. nra. }
      assert (a = 0) by (destruct (Req_dec a 0); auto; exfalso; apply Rabs_no_R0 in H; lra).
      subst a. unfold D in *. rewrite Rminus_0_r in *.
      split; [nra|]. eapply Rle_trans; [|apply Rmax_l]. nra.
    - eexists; split; [reflexivity|]. lra. }
  destruct Hpor as (h4 & -> & Hh4).
  cbn [ncopysign RX xcopysign xabs xopp].
  destruct (Rlt_dec (b - a) 0).
  - eexists; split; [reflexivity|]. rewrite (Rabs_right h4) by lra.
    split; [nra|]. rewrite Rabs_Ropp, Rabs_right by lra. lra.
  - eexists; split; [reflexivity|]. rewrite (Rabs_right h4) by lra.
    split; [nra|]. rewrite Rabs_right by lra. lra.
Qed.

Lemma tolp_nneg etol k : nneg (@hs_tolp RX etol k).
Proof.
  unfold hs_tolp. rewrite lit_RX. cbn [npow RX].
  replace (Q2R 10) with 10 by (unfold Q2R; simpl; lra).
  match goal with |- nneg (xpow _ ?e) => generalize e end.
  intros [e| | |]; simpl; auto.
  - destruct (Req_EM_T e 0); simpl; [lra|]. destruct (Rlt_dec 0 10); [|lra].
    simpl. left. apply Rpower_pos.
  - destruct (Rlt_dec 1 10); simpl; auto; lra.
  - destruct (Rlt_dec 1 10); simpl; auto; lra.
Qed.

Theorem h_start_spec df (a b : R) (y yprime : xvec) morder (rtol : xr) atol J T :
  a <> b -> y <> [] ->
  exists h cl, @h_start RX df (Fin a) (Fin b) y yprime morder rtol atol J T = (Fin h, cl) /\
    0 < h * (b - a) /\ Rabs h <= Rmax (Rabs (b - a)) (100 * small * Rabs a) /\
    (length cl <= 4)%nat /\
    Forall (fun p => fst p = Fin a \/ fst p = xadd (Fin a) (@hs_da RX (Fin a) (Fin (b - a)))) cl.
Proof.
  intros Hab Hy. unfold h_start.
  assert (length y <> 0%nat) by (destruct y; simpl; congruence).
  apply Nat.eqb_neq in H. rewrite H.
  replace (nsub RX (Fin b) (Fin a)) with (Fin (b - a)) by reflexivity.
  set (da := @hs_da RX (Fin a) (Fin (b - a))).
  set (sfc := match T with
     | Some T0 => (vadd yprime (vscale da T0), [])
     | None => (df (nadd RX (Fin a) da) y, [(nadd RX (Fin a) da, y)]) end).
  assert (Hsf : exists sf c0, sfc = (sf, c0) /\ (length c0 <= 1)%nat /\
     Forall (fun p => fst p = Fin a \/ fst p = xadd (Fin a) da) c0).
  { unfold sfc. destruct T; eexists _, _; (split; [reflexivity|]); simpl; split; auto. }
  destruct Hsf as (sf & c0 & -> & Hc0 & HF0).
  set (dfdxb := if nltb RX _ _ then _ else _).
  assert (Hdx : nneg dfdxb).
  { unfold dfdxb. match goal with |- nneg (if ?x then _ else _) => destruct x end.
    - apply nneg_div; [apply nneg_norm|apply nneg_abs].
    - apply big_nneg. }
  set (trip := match J with Some _ => _ | None => _ end).
  assert (Htr : exists du fb cl, trip = (du, fb, cl) /\ nneg du /\ nneg fb /\
     (length cl <= 4)%nat /\ Forall (fun p => fst p = Fin a \/ fst p = xadd (Fin a) da) cl).
  { unfold trip. destruct J as [J|].
    - eexists _, _, _. split; [reflexivity|]. split; [apply nneg_sqrt|].
      split; [apply nneg_norm|]. split; [lia|auto].
    - match goal with |- context [if ?x then ?p else ?q] =>
        destruct (if x then p else q) as [[spy yp] delf1] end.
      match goal with |- context [@hs_loop RX ?l ?k ?d ?a1 ?b1 ?c1 ?e ?f ?g ?h ?i ?j ?k1 ?m ?n] =>
        destruct (@hs_loop RX l k d a1 b1 c1 e f g h i j k1 m n) as [[du fb] cl] eqn:HL end.
      apply hs_loop_spec in HL.
      + destruct HL as (N1 & N2 & l & -> & Hlen & HFl).
        eexists _, _, _. split; [reflexivity|]. split; [auto|]. split; [auto|].
        rewrite app_length. split; [lia|].
        apply Forall_app; split; auto.
      + rewrite n0_RX. simpl. lra.
      + apply nneg_pymax; apply nneg_norm. }
  destruct Htr as (du & fb & cl & -> & N1 & N2 & Hlen & HF).
  set (ydpb := nadd RX dfdxb (nmul RX du fb)).
  assert (Hyd : nneg ydpb) by (apply nneg_add; [exact Hdx|apply nneg_mul; auto]).
  match goal with |- context [@hs_tolp RX ?e ?k] => set (tolp := @hs_tolp RX e k) end.
  destruct (hs_final_spec a b ydpb fb du tolp Hab Hyd N2 N1 (tolp_nneg _ _))
    as (h & Hh & Hs & Hb).
  exists h, cl. rewrite Hh. auto.
Qed.
