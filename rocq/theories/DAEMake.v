(** The constructor of the implicit classes with a mass matrix: which branch is taken, what the
    DAE branch returns. *)
From Coq Require Import String Reals Lra QArith Qreals Bool Lia List Arith.
From Verif Require Import Arith Common Stiff RK HStart RKInit RX Tableaux Classes Dense Ode RKReal HStartReal RKInitReal Series OrderRK OrderModel RKSpecProofs OrderPairN StiffReal GlobalAccept
  ESDIRK ESDCls ESDGen ESDReal ESDTop ESDInv ESDLin ESDLin2 Prop_ESDLin DAE DAEReal DAETop.
Import ListNotations.
Close Scope string_scope. Open Scope nat_scope. Open Scope R_scope.

(** the real diagonal matrix *)
Definition rdiag (v : list R) : list (list R) :=
  map (fun i => map (fun j => if Nat.eqb i j then nth i v 0 else 0) (seq 0 (length v))) (seq 0 (length v)).
(** the argument M stands for the matrix X *)
Definition mass_is (M : mass_arg RX) (X : list (list R)) : Prop := M = Mass2 (FM X) \/ exists v, M = Mass1 (FV v) /\ X = rdiag v.

Lemma diag_fin (v : list R) : @diag RX (FV v) = FM (rdiag v).
Proof.
  unfold diag, rdiag. rewrite map_length, map_map. apply map_ext. intros i. rewrite map_map. apply map_ext. intros j. rewrite n0_RX.
  destruct (Nat.eqb i j); [|reflexivity]. exact (map_nth Fin v 0 i).
Qed.
Lemma rdiag_shape v : rshape (length v) (rdiag v).
Proof. unfold rdiag. split; [rewrite map_length, seq_length; reflexivity|]. apply Forall_forall. intros r Hr. apply in_map_iff in Hr. destruct Hr as (i & <- & _). rewrite map_length, seq_length. reflexivity. Qed.

Definition cond_lim (d : nat) (s : list R) : R := nth 0 s 0 * INR (d * d) * / 2 ^ 52.
Definition small_values (d : nat) (s : list R) : nat := length (filter (fun x => nltb RX x (Fin (cond_lim d s))) (FV s)).

Lemma handle_M_real (L : Lin RX) d M X U s V : mass_is M X -> rshape d X -> l_svd L (FM X) = (FM U, FV s, FM V) ->
  handle_M L d M = inl (Some (FM X), if Nat.ltb 0 (small_values d s) then Some (FM U, FV s, FM V, small_values d s) else None).
Proof.
  intros HM HX ES.
  assert (A : (let '(U, s, Vh) := l_svd L (FM X) in
    let cl := nmul RX (nmul RX (nth 0 s (@n0 RX)) (nofnat (d * d))) (n_eps RX) in
    let nAE := length (filter (fun x => nltb RX x cl) s) in
    (@inl (option (list (list xr)) * option (list (list xr) * list xr * list (list xr) * nat)) exn (Some (FM X), if Nat.ltb 0 nAE then Some (U, s, Vh, nAE) else None))) =
    inl (Some (FM X), if Nat.ltb 0 (small_values d s) then Some (FM U, FV s, FM V, small_values d s) else None)).
  { rewrite ES. cbv zeta. rewrite n0_RX, nofnat_RX. pose proof (map_nth Fin s 0 0%nat) as E. change (num RX) with xr in *. rewrite E. reflexivity. }
  unfold handle_M. cbv zeta. destruct HM as [-> | (v & -> & ->)].
  - assert (E : Nat.eqb (length (FM X)) d && forallb (fun r : list xr => Nat.eqb (length r) d) (FM X) = true).
    { destruct HX as [Lx Hr]. rewrite map_length, Lx, Nat.eqb_refl. cbn [andb]. apply forallb_forall. intros r Hin. apply in_map_iff in Hin. destruct Hin as (x & <- & Hx).
      rewrite Forall_forall in Hr. rewrite map_length, (Hr x Hx). apply Nat.eqb_refl. }
    change (num RX) with xr in *. rewrite E. exact A.
  - assert (Lv : length v = d) by (destruct HX as [Lx _]; unfold rdiag in Lx; rewrite map_length, seq_length in Lx; exact Lx).
    rewrite map_length, Lv, Nat.eqb_refl. pose proof (diag_fin v) as E. change (num RX) with xr in *. rewrite E. exact A.
Qed.

Lemma hs_JT_fin a b u udot k rtol (atol : tol_arg RX) J T h : a <> b -> u <> [] ->
  @hs_JT RX (Fin a) (Fin b) u udot k rtol atol J T = inl h -> exists h', h = Fin h' /\ h' <> 0.
Proof.
  intros Hab Hu H. unfold hs_JT in H.
  assert (P : exists h', fst (h_start (fun _ _ => []) (Fin a) (Fin b) u udot k rtol atol (Some J) (Some T)) = Fin h' /\ h' <> 0).
  { destruct (h_start_spec (fun _ _ => []) a b u udot k rtol atol (Some J) (Some T) Hab Hu) as (h0 & cl & E & B & _). change (num RX) with xr in *. rewrite E. exists h0. split; [reflexivity|]. intros ->. lra. }
  destruct P as (h0 & P1 & P2). destruct atol as [a0|l].
  - cbv zeta in H. change (num RX) with xr in *. rewrite P1 in H. injection H as <-. eauto.
  - cbv zeta in H. match type of H with (if ?c then _ else _) = _ => destruct c end.
    + change (num RX) with xr in *. rewrite P1 in H. injection H as <-. eauto.
    + destruct u as [|u0 [|u1 u]]; try discriminate H.
      replace (nsub RX (Fin b) (Fin a)) with (Fin (b - a)) in H by reflexivity.
      match type of H with inl (hs_final _ _ _ (nadd RX ?dfx (nmul RX ?du ?fb)) _ _ ?tp) = _ => set (dfdxb := dfx) in H; set (dfdub := du) in H; set (fbnd := fb) in H; set (tolp := tp) in H end.
      assert (N1 : nneg dfdxb). { unfold dfdxb. match goal with |- nneg (if ?x then _ else _) => destruct x end; [apply nneg_div; [apply nneg_norm|apply nneg_abs]|apply big_nneg]. }
      assert (N2 : nneg dfdub) by apply nneg_sqrt. assert (N3 : nneg fbnd) by apply nneg_norm.
      assert (N4 : nneg tolp).
      { unfold tolp. rewrite lit_RX. cbn [npow RX]. replace (Q2R 10) with 10 by (unfold Q2R; simpl; lra). match goal with |- nneg (xpow _ ?e) => generalize e end.
        intros [e| | |]; simpl; auto; [|destruct (Rlt_dec 1 10); simpl; auto; lra|destruct (Rlt_dec 1 10); simpl; auto; lra].
        destruct (Req_EM_T e 0); simpl; [lra|]. destruct (Rlt_dec 0 10); [|lra]. simpl. left. apply Rpower_pos. }
      assert (N5 : nneg (nadd RX dfdxb (nmul RX dfdub fbnd))) by (apply nneg_add; [exact N1|apply nneg_mul; auto]).
      destruct (hs_final_spec a b _ fbnd dfdub tolp Hab N5 N3 N2 N4) as (h' & Eh & B & _). change (num RX) with xr in *. rewrite Eh in H. injection H as <-.
      exists h'. split; [reflexivity|]. intros ->. lra.
Qed.

(** the point where h_start looks *)
Lemma look_ahead t0 tb dr ms : t0 <> tb -> (dr = 1 \/ dr = -1) -> 0 < dr * (tb - t0) -> (ms = PInf \/ exists M, ms = Fin M /\ 0 < M) ->
  exists b, nadd RX (Fin t0) (nmul RX (Fin dr) (pymin (nabs RX (nsub RX (Fin tb) (Fin t0))) ms)) = Fin b /\ 0 < dr * (b - t0).
Proof.
  intros Hne Hd Hdir HMS. cbn [nabs nsub RX]. unfold xsub. cbn [xopp xadd xabs]. assert (0 < Rabs (tb + - t0)) by (apply Rabs_pos_lt; lra).
  destruct HMS as [-> | (Mx & -> & HM)].
  - unfold pymin. cbn [nltb RX xltb nadd nmul xmul xadd]. eexists; split; [reflexivity|]. destruct Hd; subst dr; lra.
  - rewrite pymin_fin. cbn [nadd nmul RX xmul xadd]. eexists; split; [reflexivity|].
    assert (0 < Rmin (Rabs (tb + - t0)) Mx) by (apply Rmin_case; lra). destruct Hd; subst dr; lra.
Qed.

(** the numerical time derivative *)
Lemma h_start_T_real d F f t0 b y : lifts d F f -> length y = d -> b <> t0 ->
  exists da, 0 < da * (b - t0) /\ @h_start_T RX f (Fin t0) (Fin b) (FV y) (FV (F t0 y)) = FV (rvec d (fun q => (nth q (F (t0 + da) y) 0 - nth q (F t0 y) 0) / da)).
Proof.
  intros HF Ly Hb. destruct (hs_da_RX t0 (b - t0)) as (da & Eda & Hda); [lra|]. exists da. split; [exact Hda|].
  unfold h_start_T. replace (nsub RX (Fin b) (Fin t0)) with (Fin (b - t0)) by reflexivity. change (num RX) with xr in *. rewrite Eda. cbv zeta.
  change (nadd RX (Fin t0) (Fin da)) with (Fin (t0 + da)). destruct (HF (t0 + da) y Ly) as (L1 & E1). destruct (HF t0 y Ly) as (L0 & _). change (num RX) with xr in *. rewrite E1.
  destruct (map2_fin (nsub RX) Rminus (fun a b => eq_refl) (F (t0 + da) y) (F t0 y)) as (r & Er & Lr & Nr); [congruence|]. unfold vsub. change (num RX) with xr in *. rewrite Er.
  assert (Hd0 : da <> 0) by (intros ->; lra).
  rewrite map_map. rewrite (map_ext (fun x => ndiv RX (Fin x) (Fin da)) (fun x => Fin (x / da))) by (intros x; cbn [ndiv RX xdiv]; destruct (Req_EM_T da 0); [contradiction|reflexivity]).
  rewrite <- (map_map (fun x => x / da) Fin). f_equal. apply nth_eq_list; [rewrite map_length, rvec_len; congruence|]. intros q Hq. rewrite map_length in Hq.
  rewrite rvec_nth by congruence. rewrite <- Nr by congruence. rewrite (nth_indep _ 0 (0 / da)) by (rewrite map_length; exact Hq). rewrite (map_nth (fun x => x / da)). reflexivity.
Qed.
