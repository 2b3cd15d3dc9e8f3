(** SSV2stab over the extended reals: the coefficients of the stages are
    Chebyshev polynomials and the stages a recursion on real vectors. *)
From Coq Require Import String ZArith Reals Lra Psatz QArith Qreals Bool Lia List Arith.
From Coquelicot Require Import Coquelicot.
From Verif Require Import Arith Common Stiff RK RX HStart RKInit RKReal RKInitReal NormReal Ode Dense Series OrderRK OrderModel SwagArr Rkc Cheb.
Import ListNotations.
Close Scope string_scope. Open Scope nat_scope. Open Scope R_scope.

(** ** int(x), round, log, sinh, cosh on extended reals *)
Definition trunc (r : R) : Z := if Rle_dec 0 r then Int_part r else (- Int_part (- r))%Z.
(** round half to even *)
Definition round_he (r : R) : Z :=
  let n := Int_part r in
  if Rlt_dec (r - IZR n) (1/2) then n else if Rlt_dec (1/2) (r - IZR n) then (n + 1)%Z else if Z.even n then n else (n + 1)%Z.
Definition to_int (f : R -> Z) (x : xr) : Z + exn :=
  match x with
  | Fin r => inl (f r)
  | NaN => inr (ValueError "cannot convert float NaN to integer")
  | _ => inr (OverflowError "cannot convert float infinity to integer")
  end.
(** the code only takes the log of numbers above 1 and sinh, cosh of moderate
    finite numbers; the values elsewhere are a choice *)
Definition ELX : Elem RX := {|
  el_log := fun x : xr => match x with Fin r => if Rlt_dec 0 r then Fin (ln r) else NaN | PInf => PInf | _ => NaN end;
  el_sinh := fun x : xr => match x with Fin r => Fin (sinh r) | _ => x end;
  el_cosh := fun x : xr => match x with Fin r => Fin (cosh r) | NaN => NaN | _ => PInf end;
  el_int := fun x : xr => to_int trunc x;
  el_round := fun x : xr => to_int round_he x |}.

Lemma zlit_RX z : @zlit RX z = Fin (IZR z).
Proof. unfold zlit, lit. cbn [nofQ RX]. f_equal. unfold inject_Z, Q2R. cbn. lra. Qed.
Lemma msqrt_fin x : 0 <= x -> @msqrt RX (Fin x) = inl (Fin (sqrt x)).
Proof.
  intros H. unfold msqrt. rewrite n0_RX. change (nltb RX (Fin x) (Fin 0)) with (Rltb x 0). destruct (Rltb_spec x 0); [lra|].
  cbn [nsqrt RX xsqrt]. destruct (Rlt_dec x 0); [lra|]. reflexivity.
Qed.
Lemma pdiv_fin a b : b <> 0 -> @pdiv RX (Fin a) (Fin b) = inl (Fin (a / b)).
Proof.
  intros H. unfold pdiv. rewrite n0_RX. change (neqb RX (Fin b) (Fin 0)) with (Reqb b 0). destruct (Reqb_spec b 0); [contradiction|].
  cbn [ndiv RX xdiv]. destruct (Req_EM_T b 0); [contradiction|]. reflexivity.
Qed.
Lemma xdiv_fin a b : b <> 0 -> ndiv RX (Fin a) (Fin b) = Fin (a / b).
Proof. intros H. cbn [ndiv RX xdiv]. destruct (Req_EM_T b 0); [contradiction|]. reflexivity. Qed.

(** ** the coefficients *)
Section Coeffs.
Variable m : nat.
Hypothesis Hm : (2 <= m)%nat.
Notation w := (w0T m).
Notation v1 := (w1T m w).
(** b_j: the first two are those of the code, 1/(2 w0)^2 *)
Definition bb (j : nat) : R := match j with O | S O => 1 / (2 * w0T m * (2 * w0T m)) | _ => bT j (w0T m) end.
Definition cc (j : nat) : R := bb j * v1 * dT j w.
Definition aa (j : nat) : R := 1 - cT j w * bb j.
Definition mu_ (j : nat) : R := 2 * w * bb j / bb (j - 1).
Definition nu_ (j : nat) : R := - bb j / bb (j - 2).
Definition mus_ (j : nat) : R := mu_ j * v1 / w.

Lemma w_gt : 1 < w. Proof. apply w0T_gt. lia. Qed.
Lemma bb_pos j : 0 < bb j.
Proof.
  pose proof w_gt. unfold bb. destruct j as [|[|j]]; try (apply Rdiv_lt_0_compat; nra). apply bT_bound; [assumption|lia].
Qed.
Lemma w1_pos : 0 < v1.
Proof. pose proof w_gt. unfold w1T. apply Rdiv_lt_0_compat; [apply dT_pos; [lra|lia]|apply d2T_pos; [lra|lia]]. Qed.
Lemma cc_0 : cc 0 = 0. Proof. unfold cc. cbn [dT]. ring. Qed.
Lemma cc_m : cc m = 1.
Proof.
  pose proof w_gt. unfold cc, bb, w1T. destruct m as [|[|k]] eqn:E; [lia|lia|]. rewrite <- E in *. unfold bT.
  pose proof (dT_pos m w ltac:(lra) ltac:(lia)). pose proof (d2T_pos m w ltac:(lra) Hm). field. lra.
Qed.
Lemma cc_next j : cc (S (S j)) = mu_ (S (S j)) * cc (S j) + nu_ (S (S j)) * cc j + mus_ (S (S j)) * (1 - aa (S j)).
Proof.
  pose proof w_gt. pose proof (bb_pos j). pose proof (bb_pos (S j)). unfold mus_, mu_, nu_, aa, cc. replace (S (S j) - 1)%nat with (S j) by lia. replace (S (S j) - 2)%nat with j by lia.
  rewrite dT_SS. field. lra.
Qed.

Lemma IZR_of_nat n : IZR (Z.of_nat n) = INR n. Proof. symmetry. apply INR_IZR_INZ. Qed.
Lemma w0_real : @rkc_w0 RX (Z.of_nat m) = Fin w.
Proof.
  unfold rkc_w0. rewrite zlit_RX, mult_IZR, IZR_of_nat. unfold w0T, n1. rewrite !lit_RX. assert (2 <= INR m) by (apply (le_INR 2) in Hm; exact Hm).
  cbn [nmul RX xmul]. rewrite xdiv_fin by (rewrite <- (RMicromega.Q2R_0); unfold Q2R; cbn; nra). cbn [nadd RX xadd]. f_equal. unfold Q2R; cbn. field. lra.
Qed.
Lemma w1_real : @rkc_w1 RX ELX (Z.of_nat m) = inl (Fin v1).
Proof.
  pose proof w_gt as W. unfold rkc_w1. rewrite w0_real, zlit_RX, IZR_of_nat. cbv zeta. rewrite n1_RX.
  cbn [nmul nsub nadd RX xmul]. unfold xsub. cbn [xopp xadd]. rewrite msqrt_fin by nra.
  destruct (acosh_spec w ltac:(lra)) as (C & Sh & P). set (a := acosh w) in *.
  replace (w * w + - (1)) with (w * w - 1) by ring. rewrite <- Sh.
  cbn [el_log ELX xadd].
  assert (SP : 0 < sinh a) by (rewrite Sh; apply sqrt_lt_R0; nra).
  destruct (Rlt_dec 0 (w + sinh a)); [|lra].
  assert (La : ln (w + sinh a) = a) by (rewrite Sh; reflexivity). rewrite La.
  cbn [xmul el_sinh el_cosh ELX xopp xadd].
  pose proof (dT_cosh m a) as D1. pose proof (d2T_cosh m a) as D2. rewrite C in D1, D2.
  pose proof (dT_pos m w ltac:(lra) ltac:(lia)) as P1. pose proof (d2T_pos m w ltac:(lra) Hm) as P2.
  assert (HN : 0 < INR m) by (apply lt_0_INR; lia).
  assert (E : cosh (INR m * a) * INR m * sinh a + - (w * sinh (INR m * a)) = d2T m w * (sinh a * sinh a) * sinh a / INR m).
  { rewrite D2. replace ((INR m * INR m * cosh (INR m * a) - w * dT m w) * sinh a) with (INR m * (INR m * cosh (INR m * a) * sinh a) - w * (dT m w * sinh a)) by ring. rewrite D1. field. lra. }
  rewrite E. assert (S2 : w * w - 1 = sinh a * sinh a) by (rewrite <- C; rewrite cosh2_sinh2; ring). rewrite S2.
  assert (N0 : 0 < d2T m w * (sinh a * sinh a) * sinh a / INR m) by (apply Rdiv_lt_0_compat; [|lra]; apply Rmult_lt_0_compat; [apply Rmult_lt_0_compat; [exact P2|nra]|exact SP]).
  rewrite pdiv_fin by lra. do 2 f_equal. unfold w1T.
  replace (sinh (INR m * a)) with (dT m w * sinh a / INR m) by (rewrite D1; field; lra). field. repeat split; lra.
Qed.
Lemma b1_real : @rkc_b1 RX (Z.of_nat m) = Fin (bb 1).
Proof.
  pose proof w_gt. unfold rkc_b1. rewrite w0_real. rewrite lit_RX, n1_RX. replace (Q2R 2) with 2 by (unfold Q2R; cbn; lra). cbn [nmul RX xmul].
  rewrite xdiv_fin by nra. reflexivity.
Qed.

(** the scalars of the code before stage j + 1 *)
Definition cf (j : nat) : @Coef RX :=
  @mkCoef RX (Fin (cc j)) (Fin (cc (j - 1))) (Fin (cT j w)) (Fin (cT (j - 1) w)) (Fin (dT j w)) (Fin (dT (j - 1) w))
          (Fin (d2T j w)) (Fin (d2T (j - 1) w)) (Fin (bb j)) (Fin (bb (j - 1))).
Lemma coef1_real : @coef1 RX (Z.of_nat m) (Fin v1) = cf 1.
Proof.
  unfold coef1, cf. rewrite b1_real, w0_real, n1_RX, n0_RX. cbn [Nat.sub cT dT d2T nmul RX xmul]. f_equal; f_equal; unfold cc; cbn [dT]; ring.
Qed.
Lemma coef_next_real j : coef_next (Fin w) (Fin v1) (cf (S j)) =
  inl (Fin (mu_ (S (S j))), Fin (nu_ (S (S j))), Fin (mus_ (S (S j))), Fin (aa (S j)), cf (S (S j))).
Proof.
  pose proof w_gt as W. unfold coef_next, cf. cbn [zjm1 zjm2 dzjm1 dzjm2 d2zjm1 d2zjm2 bjm1 bjm2 thjm1 thjm2].
  replace (S j - 1)%nat with j by lia. replace (S (S j) - 1)%nat with (S j) by lia.
  rewrite !lit_RX, n1_RX. replace (Q2R 2) with 2 by (unfold Q2R; cbn; lra). replace (Q2R 4) with 4 by (unfold Q2R; cbn; lra).
  cbn [nmul nsub nadd nopp RX xmul]. unfold xsub. cbn [xopp xadd xmul].
  pose proof (dT_pos (S (S j)) w ltac:(lra) ltac:(lia)) as P1.
  replace (2 * w * cT (S j) w + - cT j w) with (cT (S (S j)) w) by (rewrite cT_SS; ring).
  replace (2 * w * dT (S j) w + - dT j w + 2 * cT (S j) w) with (dT (S (S j)) w) by (rewrite dT_SS; ring).
  replace (2 * w * d2T (S j) w + - d2T j w + 4 * dT (S j) w) with (d2T (S (S j)) w) by (rewrite d2T_SS; ring).
  rewrite pdiv_fin by nra. change (d2T (S (S j)) w / (dT (S (S j)) w * dT (S (S j)) w)) with (bb (S (S j))).
  pose proof (bb_pos j) as B0. pose proof (bb_pos (S j)) as B1.
  do 3 (cbn [nmul nsub nadd nopp RX xmul xopp xadd]; rewrite pdiv_fin by lra). cbn [nmul nsub nadd nopp RX xmul xopp xadd].
  assert (E1 : 2 * w * bb (S (S j)) / bb (S j) = mu_ (S (S j))) by (unfold mu_; replace (S (S j) - 1)%nat with (S j) by lia; reflexivity).
  assert (E2 : - bb (S (S j)) / bb j = nu_ (S (S j))) by (unfold nu_; replace (S (S j) - 2)%nat with j by lia; reflexivity).
  rewrite E1, E2. fold (mus_ (S (S j))). replace (1 + - (cT (S j) w * bb (S j))) with (aa (S j)) by (unfold aa; ring).
  do 3 f_equal. change (Fin (mu_ (S (S j)) * cc (S j) + nu_ (S (S j)) * cc j + mus_ (S (S j)) * (1 + - aa (S j))) = Fin (cc (S (S j)))). f_equal. rewrite cc_next. ring.
Qed.
End Coeffs.

(** ** the stages *)
Definition radd (a b : list R) : list R := map2 Rplus a b.
Definition rsub (a b : list R) : list R := map2 Rminus a b.
Definition rscal (c : R) (a : list R) : list R := map (Rmult c) a.
Lemma vadd_map2 a b : @vadd RX (map Fin a) (map Fin b) = map Fin (radd a b).
Proof. unfold vadd, radd. revert b. induction a as [|x a IH]; intros [|y b]; cbn; try reflexivity. f_equal. apply IH. Qed.
Lemma vsub_map2 a b : @vsub RX (map Fin a) (map Fin b) = map Fin (rsub a b).
Proof. unfold vsub, rsub. revert b. induction a as [|x a IH]; intros [|y b]; cbn [map map2]; try reflexivity. f_equal. apply IH. Qed.
Lemma vscale_map c a : @vscale RX (Fin c) (map Fin a) = map Fin (rscal c a).
Proof. unfold vscale, rscal. rewrite !map_map. reflexivity. Qed.
Lemma radd_len a b : length a = length b -> length (radd a b) = length a.
Proof. intros H. unfold radd. apply len_map2; exact H. Qed.
Lemma rsub_len a b : length a = length b -> length (rsub a b) = length a.
Proof. intros H. unfold rsub. apply len_map2; exact H. Qed.
Lemma rscal_len c a : length (rscal c a) = length a. Proof. apply map_length. Qed.
Lemma radd_nth a b q : length a = length b -> nth q (radd a b) 0 = nth q a 0 + nth q b 0.
Proof.
  revert b q. induction a as [|x a IH]; intros [|y b] q H; try discriminate; [destruct q; cbn; ring|]. destruct q; cbn; [reflexivity|]. apply IH. cbn in H. lia.
Qed.
Lemma rsub_nth a b q : length a = length b -> nth q (rsub a b) 0 = nth q a 0 - nth q b 0.
Proof.
  revert b q. induction a as [|x a IH]; intros [|y b] q H; try discriminate; [destruct q; cbn; ring|]. destruct q; cbn; [reflexivity|]. apply IH. cbn in H. lia.
Qed.
Lemma rscal_nth c a q : nth q (rscal c a) 0 = c * nth q a 0.
Proof. revert q. induction a as [|x a IH]; intros [|q]; cbn; try ring. apply IH. Qed.

Section Stages.
Variable m : nat.
Hypothesis Hm : (2 <= m)%nat.
Variable F : R -> list R -> list R.
Variables (t h : R) (y f : list R).
Definition rstage (mu nu mus a th : R) (u1 u2 : list R) : list R :=
  radd (radd (radd (rscal mu u1) (rscal nu u2)) (rscal (1 - mu - nu) y)) (rscal (h * mus) (rsub (F (t + h * th) u1) (rscal a f))).
(** the intermediate values of the step *)
Fixpoint rkY (j : nat) : list R :=
  match j with
  | O => y
  | S i => match i with
           | O => radd y (rscal (h * (w1T m (w0T m) * bb m 1)) f)
           | S k => rstage (mu_ m j) (nu_ m j) (mus_ m j) (aa m i) (cc m i) (rkY i) (rkY k)
           end
  end.
Lemma rkY_SS j : rkY (S (S j)) = rstage (mu_ m (S (S j))) (nu_ m (S (S j))) (mus_ m (S (S j))) (aa m (S j)) (cc m (S j)) (rkY (S j)) (rkY j).
Proof. reflexivity. Qed.

Variable d : nat.
Variable g : num RX -> list (num RX) -> list (num RX).
Hypothesis HL : lifts d F g.
Hypothesis Hy : length y = d.
Hypothesis Hf : length f = d.
Lemma rstage_len mu nu mus a th u1 u2 : length u1 = d -> length u2 = d -> length (rstage mu nu mus a th u1 u2) = d.
Proof.
  intros H1 H2. unfold rstage. pose proof (proj1 (HL (t + h * th) u1 H1)).
  assert (A2 : forall a b, length a = d -> length b = d -> length (radd a b) = d) by (intros; rewrite radd_len; congruence).
  assert (A3 : forall c a, length a = d -> length (rscal c a) = d) by (intros; rewrite rscal_len; congruence).
  repeat apply A2; apply A3; auto. rewrite rsub_len; rewrite ?rscal_len; congruence.
Qed.
Lemma rkY_len j : length (rkY j) = d.
Proof.
  revert j. apply (two_step (fun j => length (rkY j) = d)).
  - exact Hy.
  - cbn [rkY]. rewrite radd_len; rewrite ?rscal_len; congruence.
  - intros n A B. rewrite rkY_SS. apply rstage_len; assumption.
Qed.
Lemma stage_real mu nu mus a th u1 u2 : length u1 = d -> length u2 = d ->
  @rkc_stage RX g (Fin t) (map Fin y) (map Fin f) (Fin h) (Fin mu) (Fin nu) (Fin mus) (Fin a) (Fin th) (map Fin u1) (map Fin u2)
  = map Fin (rstage mu nu mus a th u1 u2).
Proof.
  intros H1 H2. unfold rkc_stage, rstage. rewrite n1_RX. cbn [nmul nadd nsub RX xmul xadd]. unfold xsub. cbn [xopp xadd].
  rewrite (proj2 (HL (t + h * th) u1 H1)). rewrite !vscale_map, vsub_map2, vscale_map, !vadd_map2. do 4 f_equal.
Qed.
Definition scalls (a n : nat) : list (num RX * list (num RX)) := map (fun j => (Fin (t + h * cc m j), map Fin (rkY j))) (seq a n).
Lemma stage_loop_real left : forall j y0 cl,
  stage_loop (S left) g (Fin t) (map Fin y) (map Fin f) (Fin h) (Fin (w0T m)) (Fin (w1T m (w0T m))) (cf m (S j))
     y0 (map Fin (rkY (S j))) (map Fin (rkY j)) cl =
  inl (map Fin (rkY (S (j + S left))), map Fin (rkY (j + S left)), map Fin (rkY (j + left)), cl ++ scalls (S j) (S left)).
Proof.
  induction left as [|left IH]; intros j y0 cl; cbn [stage_loop]; rewrite (coef_next_real m Hm j); change (thjm1 (cf m (S j))) with (Fin (cc m (S j))).
  - rewrite stage_real by apply rkY_len. rewrite <- rkY_SS. replace (j + 1)%nat with (S j) by lia. rewrite Nat.add_0_r. reflexivity.
  - rewrite stage_real by apply rkY_len. rewrite <- rkY_SS.
    specialize (IH (S j) (map Fin (rkY (S (S j)))) (cl ++ [(nadd RX (Fin t) (nmul RX (Fin h) (Fin (cc m (S j)))), map Fin (rkY (S j)))])).
    cbn [stage_loop] in IH. etransitivity; [exact IH|]. rewrite <- app_assoc. replace (S j + S left)%nat with (j + S (S left))%nat by lia.
    replace (S j + left)%nat with (j + S left)%nat by lia. reflexivity.
Qed.

Theorem stages_real y0 cl : @rkc_stages RX ELX g (Fin t) (map Fin y) (map Fin f) (Fin h) (Z.of_nat m) y0 cl =
  inl (map Fin (rkY m), map Fin (rkY (m - 1)), map Fin (rkY (m - 2)), cl ++ scalls 1 (m - 1)).
Proof.
  unfold rkc_stages. rewrite (w1_real m Hm), (w0_real m Hm), (b1_real m Hm), (coef1_real m Hm).
  replace (Z.to_nat (Z.of_nat m - 1)) with (S (m - 2)) by lia.
  assert (E : @vadd RX (map Fin y) (map (fun x => nmul RX (nmul RX (Fin h) (nmul RX (Fin (w1T m (w0T m))) (Fin (bb m 1)))) x) (map Fin f)) = map Fin (rkY 1)).
  { cbn [rkY]. rewrite <- vadd_map2. f_equal. unfold rscal. rewrite !map_map. reflexivity. }
  rewrite E. change (map Fin y) with (map Fin (rkY 0)) at 2. etransitivity; [exact (stage_loop_real (m - 2) 0 y0 cl)|].
  cbn [Nat.add]. replace (S (S (m - 2))) with m by lia. replace (S (m - 2)) with (m - 1)%nat by lia. reflexivity.
Qed.
End Stages.
