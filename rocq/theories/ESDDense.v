(** Dense output of the implicit (ESDIRK) classes: scipy OdeSolver.dense_output around
    common.py 2234-2244 and hosea.py 15-44. *)
From Coquelicot Require Import Coquelicot.
From Coq Require Import String ZArith Reals Lra Psatz QArith Qreals Bool Lia List Arith.
From Verif Require Import Arith Common Stiff RK HStart RKInit Ode RX RKReal RKInitReal NormReal Series OrderThm OrderCheck GOrder OrderRK OrderModel OrderIRK Tableaux Classes
  Dense DenseReal DenseStep DenseJoin DenseJoin2 Prop_Dense ESDIRK ESDCls ESDGen ESDReal ESDStep ESDTop ESDLin ESDLin2 ESDLin3 ESDAcc.
Import ListNotations.
Close Scope string_scope. Open Scope nat_scope. Open Scope R_scope.

(** ** model *)
Section Model.
Context {A : Arith}.
Notation num := (num A).
(** the class attribute P (kennedy.py 12-20, kvaerno.py 144-177 via KC.__init__), or the
    overriding method of hosea.py 15-25 *)
Inductive esd_interp : Type := IPoly (P : list (list num)) | IPiecewise.
Inductive esd_dense := EDPoly (d : dense A) | EDPiece (d : hs_dense A).
(** scipy OdeSolver.dense_output; [dir] is self.direction *)
Definition esd_dense_output (m : EMeth A) (ip : esd_interp) (dir : num) (v : OSolver A (ES A)) : esd_dense + exn :=
  match ot_old v with
  | None => inr (RuntimeError "Dense output is available after a successful step was made.")
  | Some to =>
    if Nat.eqb (length (e_y (ost v))) 0 || neqb A (e_t (ost v)) to then inl (EDPoly (DConst to (e_t (ost v)) (e_y (ost v))))
    else match ip with
         | IPoly P => match esd_dense_P P to (ost v) with Some d => inl (EDPoly d) | None => inr (AttributeError "y_old") end
         | IPiecewise => match esd_dense_hs m dir to (ost v) with Some d => inl (EDPiece d) | None => inr (AttributeError "y_old") end
         end
  end.
(** the classes with the argument interpolant, and the class attributes P0 and P1
    (kennedy.py 194-231, 407-431, 616-640, kvaerno.py 165-177) *)
Definition kc_classes : list (EMeth A * list (list num) * list (list num)) :=
  [(KC3I_m, lm2 KC3I_P0, lm2 KC3I_P1); (KC4I_m, lm2 KC4I_P0, lm2 KC4I_P1); (KC4Ia_m, lm KC4Ia_P0, lm KC4Ia_P1); (Kv3I_m, lm Kv3I_P0, lm Kv3I_P1)].
(** DenseOutput.__call__ for a scalar time *)
Definition esd_call (d : esd_dense) (t : num) : list num :=
  match d with EDPoly d => call d t | EDPiece d => hs_call d t end.
End Model.
Arguments esd_interp : clear implicits.
Arguments esd_dense : clear implicits.

(** ** polynomial interpolants over Q(sqrt 2) *)
Definition pe (P : list (list (Q * Q))) (i j : nat) : R := q2v (nth j (nth i P []) p0).
Definition pcols (P : list (list (Q * Q))) : nat := match P with [] => 0%nat | r :: _ => length r end.
(** weight of stage i at relative time th, and its derivative *)
Definition pwt (P : list (list (Q * Q))) (th : R) (i : nat) : R := rsum (pcols P) (fun j => pe P i j * th ^ S j).
Definition dpwt (P : list (list (Q * Q))) (th : R) (i : nat) : R := rsum (pcols P) (fun j => pe P i j * (INR (S j) * th ^ j)).
Definition pmat (P : list (list (Q * Q))) : list (list xr) := map (map Fin) (map (map q2v) P).

Lemma dlim_pwt P i th : derivable_pt_lim (fun x => pwt P x i) th (dpwt P th i).
Proof. unfold pwt, dpwt. apply (dlim_rsum (pcols P) (fun j x => pe P i j * x ^ S j) (fun j => pe P i j * (INR (S j) * th ^ j))). intros j _. apply dlim_scal, dlim_pow_n. Qed.

Lemma KtP_pmat d P K k : realsK d K k ->
  length (KtP d K (pmat P)) = pcols P /\ realsK d (KtP d K (pmat P)) (fun j q => rsum (length K) (fun i => pe P i j * k i q)).
Proof.
  intros HK. unfold KtP. assert (EN : @ncols RX (pmat P) = pcols P) by (destruct P as [|r P]; [reflexivity|]; cbn [pmat map ncols pcols]; rewrite !map_length; reflexivity).
  change (num RX) with xr in *. rewrite EN. split; [rewrite map_length, seq_length; auto|].
  intros j Hj. rewrite map_length, seq_length in Hj.
  rewrite (nth_map_seq_gen (fun j => lincomb d (column j (pmat P)) K)) by auto. rewrite Nat.add_0_l.
  assert (EC : @column RX j (pmat P) = map Fin (map (fun r => q2v (nth j r p0)) P)).
  { unfold column, pmat. rewrite !map_map. apply map_ext. intros row. rewrite map_map. unfold n0, lit. cbn [nofQ RX].
    destruct (lt_dec j (length row)) as [H|H].
    - rewrite (nth_indep _ _ (Fin (q2v p0))) by (rewrite map_length; exact H). apply (map_nth (fun x => Fin (q2v x))).
    - rewrite !nth_overflow by (try rewrite map_length; lia). rewrite q2v_0. f_equal. apply RMicromega.Q2R_0. }
  change (num RX) with xr in *. rewrite EC.
  eapply reals_ext; [apply lincomb_reals; eassumption|]. intros q Hq. cbn beta. apply rsum_ext. intros i Hi. f_equal. unfold pe.
  rewrite <- (map_nth (fun r => q2v (nth j r p0)) P []). cbn [nth]. destruct (lt_dec i (length P)) as [Hl|Hl].
  - apply nth_indep. rewrite map_length. exact Hl.
  - rewrite !nth_overflow by (rewrite map_length; lia). destruct j; symmetry; apply q2v_0.
Qed.

(** the conditions on P: shape; row sums near B; for C1: the derivative weights at 0 pick the
    first stage and those at 1 nearly pick the last stage *)
Definition padd (a b : Q * Q) : Q * Q := (fst a + fst b, snd a + snd b)%Q.
Definition psub (a b : Q * Q) : Q * Q := (fst a - fst b, snd a - snd b)%Q.
Definition pscal (k : Q) (a : Q * Q) : Q * Q := (k * fst a, k * snd a)%Q.
Definition psum (l : list (Q * Q)) : Q * Q := fold_right padd p0 l.
Fixpoint pdsum (k : positive) (l : list (Q * Q)) : Q * Q := match l with [] => p0 | a :: l => padd (pscal (Zpos k # 1) a) (pdsum (Pos.succ k) l) end.
Definition pdelta (a i : nat) : Q * Q := if Nat.eqb i a then (1, 0)%Q else p0.
Definition esd_join_ok (c1 : bool) (e : Q) (s : nat) (B : list (Q * Q)) (P : list (list (Q * Q))) : bool :=
  Nat.leb 1 (pcols P) && forallb (fun r => Nat.eqb (length r) (pcols P)) P && Nat.eqb (length P) s && Nat.leb 1 s &&
  forallb (fun i => q2small (psub (psum (nth i P [])) (nth i B p0)) e &&
    (negb c1 || (peq (nth 0 (nth i P []) p0) (pdelta 0 i) && q2small (psub (pdsum 1 (nth i P [])) (pdelta (s - 1) i)) e))) (seq 0 s).

Lemma padd_v a b : q2v (padd a b) = q2v a + q2v b.
Proof. unfold q2v, padd. cbn [fst snd]. rewrite !Q2R_plus. ring. Qed.
Lemma psub_v a b : q2v (psub a b) = q2v a - q2v b.
Proof. unfold q2v, psub. cbn [fst snd]. rewrite !Q2R_minus. ring. Qed.
Lemma pscal_v k a : q2v (pscal k a) = Q2R k * q2v a.
Proof. unfold q2v, pscal. cbn [fst snd]. rewrite !Q2R_mult. ring. Qed.
Lemma psum_v l : forall n, length l = n -> rsum n (fun j => q2v (nth j l p0)) = q2v (psum l).
Proof.
  induction l as [|a l IH]; intros n <-; cbn [length psum fold_right]; [symmetry; apply q2v_0|].
  rewrite rsum_split, padd_v. cbn [nth]. fold (psum l). rewrite <- (IH _ eq_refl). ring.
Qed.
Lemma pdsum_v l : forall n k, length l = n -> rsum n (fun j => q2v (nth j l p0) * INR (j + Pos.to_nat k)) = q2v (pdsum k l).
Proof.
  induction l as [|a l IH]; intros n k <-; cbn [length pdsum]; [symmetry; apply q2v_0|].
  rewrite rsum_split, padd_v, pscal_v. cbn [nth]. rewrite <- (IH _ (Pos.succ k) eq_refl).
  replace (Q2R (Z.pos k # 1)) with (INR (0 + Pos.to_nat k)) by (cbn [Nat.add]; unfold Q2R; cbn [Qnum Qden]; rewrite INR_IZR_INZ, positive_nat_Z; field).
  rewrite Rmult_comm. apply Rplus_eq_compat_l. apply rsum_ext. intros j _. f_equal. f_equal. rewrite Pos2Nat.inj_succ. lia.
Qed.
Lemma pdelta_v a i : q2v (pdelta a i) = delta a i.
Proof. unfold pdelta, delta. destruct (Nat.eqb i a); [|apply q2v_0]. unfold q2v. cbn [fst snd]. rewrite RMicromega.Q2R_1, RMicromega.Q2R_0. ring. Qed.

Lemma esd_join_spec c1 e s B P : esd_join_ok c1 e s B P = true -> (1 <= pcols P)%nat /\ (1 <= s)%nat /\ forall i, (i < s)%nat ->
  pwt P 0 i = 0 /\ Rabs (pwt P 1 i - q2v (nth i B p0)) <= Q2R e /\
  (c1 = true -> dpwt P 0 i = delta 0 i /\ Rabs (dpwt P 1 i - delta (s - 1) i) <= Q2R e).
Proof.
  unfold esd_join_ok. rewrite !andb_true_iff. intros ((((H1 & H2) & H3) & H4) & H5). apply Nat.leb_le in H1, H4. apply Nat.eqb_eq in H3. rewrite forallb_forall in H2, H5.
  split; [exact H1|]. split; [exact H4|]. intros i Hi. specialize (H5 i ltac:(apply in_seq; lia)). rewrite andb_true_iff in H5. destruct H5 as [C1 C2].
  assert (Lr : length (nth i P []) = pcols P) by (apply Nat.eqb_eq, H2, nth_In; lia).
  split; [|split].
  - unfold pwt. apply rsum_zero. intros j _. rewrite pow_ne_zero by lia. ring.
  - apply q2small_ok in C1. change (Rabs (q2v (psub (psum (nth i P [])) (nth i B p0))) <= Q2R e) in C1. rewrite psub_v, <- (psum_v _ _ Lr) in C1.
    unfold pwt. rewrite (rsum_ext _ _ (fun j => q2v (nth j (nth i P []) p0))) by (intros; rewrite pow1; unfold pe; ring). exact C1.
  - intros ->. cbn [negb orb] in C2. rewrite andb_true_iff in C2. destruct C2 as [C2 C3]. split.
    + unfold dpwt. destruct (pcols P) as [|n] eqn:EQ; [lia|]. rewrite rsum_split, rsum_zero.
      * apply peq_val in C2. unfold pe. rewrite C2, pdelta_v. cbn [INR pow]. ring.
      * intros j _. rewrite (pow_ne_zero (S j)) by lia. ring.
    + apply q2small_ok in C3. change (Rabs (q2v (psub (pdsum 1 (nth i P [])) (pdelta (s - 1) i))) <= Q2R e) in C3. rewrite psub_v, pdelta_v, <- (pdsum_v _ _ 1 Lr) in C3.
      unfold dpwt. rewrite (rsum_ext _ _ (fun j => q2v (nth j (nth i P []) p0) * INR (j + Pos.to_nat 1))); [exact C3|].
      intros j _. rewrite pow1. unfold pe. replace (j + Pos.to_nat 1)%nat with (S j) by (change (Pos.to_nat 1) with 1%nat; lia). ring.
Qed.

(** value of the interpolant *)
Definition esd_poly_val (s : nat) (P : list (list (Q * Q))) (y : list R) (ks : list (list R)) (t0 h x : R) (q : nat) : R :=
  wval s (pwt P) (fun q => nth q y 0) (fun i q => nth q (nth i ks []) 0) t0 h x q.
Lemma call_poly d P y ks t0 h x : (1 <= pcols P)%nat -> h <> 0 -> length y = d -> Forall (fun k => length k = d) ks ->
  call (mk_horner (Fin t0 : num RX) (Fin (t0 + h)) (map Fin y) (KtP d (map (map Fin) ks) (pmat P))) (Fin x) = map Fin (ind d (esd_poly_val (length ks) P y ks t0 h x)).
Proof.
  intros HP Hh Ly Lk. destruct (KtP_pmat d P _ _ (realsK_fin d ks Lk)) as [L1 HK].
  pose proof (call_mk_horner d t0 h ((x - t0) / h) (map Fin y) _ (KtP d (map (map Fin) ks) (pmat P)) _ Hh ltac:(rewrite L1; lia) (reals_intro d y Ly) HK) as (r & Er & Lr & Nr).
  replace (t0 + (x - t0) / h * h) with x in Er by (field; exact Hh). rewrite Er. f_equal. apply nth_eq_list; [rewrite ind_len; auto|].
  intros q Hq. rewrite ind_nth by congruence. rewrite Nr by congruence. rewrite L1, map_length. unfold esd_poly_val, wval, pwt. f_equal. f_equal.
  set (th := (x - t0) / h). rewrite (rsum_ext (pcols P) _ (fun j => rsum (length ks) (fun i => pe P i j * th ^ S j * nth q (nth i ks []) 0))).
  - rewrite rsum_swap. apply rsum_ext. intros i Hi. rewrite (Rmult_comm (rsum _ _)), <- rsum_scal. apply rsum_ext. intros j Hj. ring.
  - intros j _. rewrite (Rmult_comm (rsum _ _)), <- rsum_scal. apply rsum_ext. intros i Hi. ring.
Qed.

(** ** piecewise cubics *)
Definition dcubic (t0 h y0 f0 y1 f1 x : R) : R :=
  let s := (x - t0) / h in (6 * s ^ 2 - 6 * s) / h * y0 + (1 - 4 * s + 3 * s ^ 2) * f0 + (6 * s - 6 * s ^ 2) / h * y1 + (3 * s ^ 2 - 2 * s) * f1.
Lemma cubic_lim t0 h y0 f0 y1 f1 x : h <> 0 -> derivable_pt_lim (cubic t0 h y0 f0 y1 f1) x (dcubic t0 h y0 f0 y1 f1 x).
Proof. intros Hh. apply is_derive_Reals. unfold cubic, dcubic. auto_derive; [exact I|]. field. exact Hh. Qed.
Lemma dcubic_cont t0 h y0 f0 y1 f1 x : h <> 0 -> continuity_pt (dcubic t0 h y0 f0 y1 f1) x.
Proof.
  intros Hh. apply derivable_continuous_pt. exists ((12 * ((x - t0) / h) - 6) / h / h * y0 + (6 * ((x - t0) / h) - 4) / h * f0 + (6 - 12 * ((x - t0) / h)) / h / h * y1 + (6 * ((x - t0) / h) - 2) / h * f1).
  apply is_derive_Reals. unfold dcubic. auto_derive; [exact I|]. field. exact Hh.
Qed.
Lemma cubic_0 t0 h y0 f0 y1 f1 : h <> 0 -> cubic t0 h y0 f0 y1 f1 t0 = y0.
Proof. intros Hh. unfold cubic. field. exact Hh. Qed.
Lemma cubic_1 t0 h y0 f0 y1 f1 x : h <> 0 -> x = t0 + h -> cubic t0 h y0 f0 y1 f1 x = y1.
Proof. intros Hh ->. unfold cubic. field. exact Hh. Qed.
Lemma dcubic_0 t0 h y0 f0 y1 f1 : h <> 0 -> dcubic t0 h y0 f0 y1 f1 t0 = f0.
Proof. intros Hh. unfold dcubic. field. exact Hh. Qed.
Lemma dcubic_1 t0 h y0 f0 y1 f1 x : h <> 0 -> x = t0 + h -> dcubic t0 h y0 f0 y1 f1 x = f1.
Proof. intros Hh ->. unfold dcubic. field. exact Hh. Qed.

Definition glue (m : R) (p1 p2 : R -> R) (x : R) : R := if Rlt_dec x m then p1 x else p2 x.
Lemma glue_cont m p1 p2 x : (forall z, continuity_pt p1 z) -> (forall z, continuity_pt p2 z) -> p1 m = p2 m -> continuity_pt (glue m p1 p2) x.
Proof.
  intros H1 H2 Em. destruct (Req_dec x m) as [->|Hx].
  - intros eps He. destruct (H1 m eps He) as (d1 & D1 & K1). destruct (H2 m eps He) as (d2 & D2 & K2). exists (Rmin d1 d2). split; [apply Rmin_Rgt_r; split; assumption|].
    intros z ((_ & Hz) & Hd). unfold glue at 2. destruct (Rlt_dec m m) as [C|_]; [lra|]. unfold glue. destruct (Rlt_dec z m).
    + rewrite <- Em. apply K1. split; [split; [exact I|exact Hz]|]. eapply Rlt_le_trans; [exact Hd|apply Rmin_l].
    + apply K2. split; [split; [exact I|exact Hz]|]. eapply Rlt_le_trans; [exact Hd|apply Rmin_r].
  - destruct (Rlt_dec x m) as [L|L].
    + apply (continuity_pt_ext_loc p1); [|apply H1]. assert (P : 0 < m - x) by lra. exists (mkposreal _ P). intros z Hz. unfold ball in Hz. cbn in Hz. unfold AbsRing_ball, abs, minus, plus, opp in Hz. cbn in Hz.
      apply Rabs_def2 in Hz. unfold glue. destruct (Rlt_dec z m); [reflexivity|lra].
    + apply (continuity_pt_ext_loc p2); [|apply H2]. assert (P : 0 < x - m) by lra. exists (mkposreal _ P). intros z Hz. unfold ball in Hz. cbn in Hz. unfold AbsRing_ball, abs, minus, plus, opp in Hz. cbn in Hz.
      apply Rabs_def2 in Hz. unfold glue. destruct (Rlt_dec z m); [lra|reflexivity].
Qed.
Lemma glue_lim m p1 p2 d1 d2 x : (forall z, derivable_pt_lim p1 z (d1 z)) -> (forall z, derivable_pt_lim p2 z (d2 z)) -> p1 m = p2 m -> d1 m = d2 m ->
  derivable_pt_lim (glue m p1 p2) x (glue m d1 d2 x).
Proof.
  intros H1 H2 Em Ed. destruct (Req_dec x m) as [->|Hx].
  - intros eps He. destruct (H1 m eps He) as (a1 & K1). destruct (H2 m eps He) as (a2 & K2).
    assert (P : 0 < Rmin a1 a2) by (apply Rmin_Rgt_r; split; [exact (cond_pos a1)|exact (cond_pos a2)]). exists (mkposreal _ P). intros h Hh Hl. cbn in Hl.
    assert (G : glue m p1 p2 m = p2 m) by (unfold glue; destruct (Rlt_dec m m); [lra|reflexivity]). assert (G' : glue m d1 d2 m = d2 m) by (unfold glue; destruct (Rlt_dec m m); [lra|reflexivity]).
    rewrite G, G'. unfold glue. destruct (Rlt_dec (m + h) m).
    + rewrite <- Em, <- Ed. apply K1; [exact Hh|]. eapply Rlt_le_trans; [exact Hl|apply Rmin_l].
    + apply K2; [exact Hh|]. eapply Rlt_le_trans; [exact Hl|apply Rmin_r].
  - apply is_derive_Reals. destruct (Rlt_dec x m) as [L|L].
    + replace (glue m d1 d2 x) with (d1 x) by (unfold glue; destruct (Rlt_dec x m); [reflexivity|lra]). apply (is_derive_ext_loc p1); [|apply is_derive_Reals, H1].
      assert (P : 0 < m - x) by lra. exists (mkposreal _ P). intros z Hz. unfold ball in Hz. cbn in Hz. unfold AbsRing_ball, abs, minus, plus, opp in Hz. cbn in Hz.
      apply Rabs_def2 in Hz. unfold glue. destruct (Rlt_dec z m); [reflexivity|lra].
    + replace (glue m d1 d2 x) with (d2 x) by (unfold glue; destruct (Rlt_dec x m); [lra|reflexivity]). apply (is_derive_ext_loc p2); [|apply is_derive_Reals, H2].
      assert (P : 0 < x - m) by lra. exists (mkposreal _ P). intros z Hz. unfold ball in Hz. cbn in Hz. unfold AbsRing_ball, abs, minus, plus, opp in Hz. cbn in Hz.
      apply Rabs_def2 in Hz. unfold glue. destruct (Rlt_dec z m); [lra|reflexivity].
Qed.

(** value and slope of the piecewise interpolant through (ta, a), (tm, m), (tb, b) *)
Definition hs_val (ta tm tb a fa m fm b fb x : R) : R := glue tm (cubic ta (tm - ta) a fa m fm) (cubic tm (tb - tm) m fm b fb) x.
Definition hs_slope (ta tm tb a fa m fm b fb x : R) : R := glue tm (dcubic ta (tm - ta) a fa m fm) (dcubic tm (tb - tm) m fm b fb) x.
Lemma hs_facts ta tm tb a fa m fm b fb : ta < tm < tb ->
  hs_val ta tm tb a fa m fm b fb ta = a /\ hs_val ta tm tb a fa m fm b fb tm = m /\ hs_val ta tm tb a fa m fm b fb tb = b /\
  hs_slope ta tm tb a fa m fm b fb ta = fa /\ hs_slope ta tm tb a fa m fm b fb tm = fm /\ hs_slope ta tm tb a fa m fm b fb tb = fb /\
  forall x, derivable_pt_lim (hs_val ta tm tb a fa m fm b fb) x (hs_slope ta tm tb a fa m fm b fb x) /\ continuity_pt (hs_slope ta tm tb a fa m fm b fb) x.
Proof.
  intros [H1 H2]. assert (N1 : tm - ta <> 0) by lra. assert (N2 : tb - tm <> 0) by lra.
  assert (J : cubic ta (tm - ta) a fa m fm tm = cubic tm (tb - tm) m fm b fb tm) by (rewrite cubic_0 by exact N2; apply cubic_1; [exact N1|ring]).
  assert (J' : dcubic ta (tm - ta) a fa m fm tm = dcubic tm (tb - tm) m fm b fb tm) by (rewrite dcubic_0 by exact N2; apply dcubic_1; [exact N1|ring]).
  unfold hs_val, hs_slope. repeat split.
  - unfold glue. destruct (Rlt_dec ta tm); [|lra]. apply cubic_0; exact N1.
  - unfold glue. destruct (Rlt_dec tm tm); [lra|]. apply cubic_0; exact N2.
  - unfold glue. destruct (Rlt_dec tb tm); [lra|]. apply cubic_1; [exact N2|ring].
  - unfold glue. destruct (Rlt_dec ta tm); [|lra]. apply dcubic_0; exact N1.
  - unfold glue. destruct (Rlt_dec tm tm); [lra|]. apply dcubic_0; exact N2.
  - unfold glue. destruct (Rlt_dec tb tm); [lra|]. apply dcubic_1; [exact N2|ring].
  - apply glue_lim; [intros z; apply cubic_lim; exact N1|intros z; apply cubic_lim; exact N2|exact J|exact J'].
  - apply glue_cont; [intros z; apply dcubic_cont; exact N1|intros z; apply dcubic_cont; exact N2|exact J'].
Qed.
Lemma call_hs d ta tm tb a fa m fm b fb x : ta < tm < tb -> length a = d -> length fa = d -> length m = d -> length fm = d -> length b = d -> length fb = d ->
  hs_call {| hs_mid := Fin tm : num RX; hs_lo := mk_cubic (Fin ta) (Fin tm) (map Fin a) (map Fin m) (map Fin fa) (map Fin fm);
             hs_hi := mk_cubic (Fin tm) (Fin tb) (map Fin m) (map Fin b) (map Fin fm) (map Fin fb) |} (Fin x) =
  map Fin (ind d (fun q => hs_val ta tm tb (nth q a 0) (nth q fa 0) (nth q m 0) (nth q fm 0) (nth q b 0) (nth q fb 0) x)).
Proof.
  intros [H1 H2] La Lfa Lm Lfm Lb Lfb. unfold hs_call. cbn [hs_mid hs_lo hs_hi nltb RX xltb]. unfold Rltb. unfold hs_val, glue. destruct (Rlt_dec x tm).
  - destruct (call_cubic d ta tm _ _ _ _ _ _ _ _ x ltac:(lra) (reals_intro d a La) (reals_intro d m Lm) (reals_intro d fa Lfa) (reals_intro d fm Lfm)) as (r0 & E & L & N).
    rewrite E. f_equal. apply nth_eq_list; [rewrite ind_len; auto|]. intros q Hq. rewrite ind_nth by congruence. rewrite N by congruence. reflexivity.
  - destruct (call_cubic d tm tb _ _ _ _ _ _ _ _ x ltac:(lra) (reals_intro d m Lm) (reals_intro d b Lb) (reals_intro d fm Lfm) (reals_intro d fb Lfb)) as (r0 & E & L & N).
    rewrite E. f_equal. apply nth_eq_list; [rewrite ind_len; auto|]. intros q Hq. rewrite ind_nth by congruence. rewrite N by congruence. reflexivity.
Qed.
