(** The dense outputs take the values y_old and y at the ends of the step, with the
    derivatives given by the right-hand side. *)
From Coq Require Import String Reals Lra Psatz QArith Qreals Lia List Arith Bool.
From Verif Require Import Arith Common RK RKGen RKHist RX SpecRK RKSpecProofs RKTop Classes Tableaux Series Trees OrderThm OrderCheck
  OrderRK OrderRKN OrderModel OrderPair OrderPairN Dense DenseReal DenseStep DenseAcc DenseAccN.
Import ListNotations.
Close Scope string_scope.
Open Scope nat_scope.
Open Scope R_scope.

(** D, a function of time with values in R^d, passes through y0 at t0 and y1 at t1
    with slopes f0 and f1 *)
Definition joins (d : nat) (D : dense RX) (t0 : R) (y0 f0 : list R) (t1 : R) (y1 f1 : list R) : Prop :=
  exists r : R -> list R, (forall x, call D (Fin x) = map Fin (r x) /\ length (r x) = d) /\
    r t0 = y0 /\ r t1 = y1 /\
    forall q, (q < d)%nat -> derivable_pt_lim (fun x => nth q (r x) 0) t0 (nth q f0 0) /\
                             derivable_pt_lim (fun x => nth q (r x) 0) t1 (nth q f1 0).

Definition dense_joins (T : Tab RX) (impl : dimpl RX) (d : nat) : Prop :=
  forall F g m c v v' t0 y0 t1, lifts d F g -> uses_tab m T d -> made_step m c v v' -> fn c = g ->
    length y0 = d -> t (st v) = Fin t0 -> y (st v) = map Fin y0 -> t (st v') = Fin t1 -> t1 <> t0 ->
    exists D s' y1, dense_output impl c v' = DenseOk D s' /\ y (st v') = map Fin y1 /\ y s' = y (st v') /\
      joins d D t0 y0 (F t0 y0) t1 y1 (F t1 y1).

(** ** derivatives of sums *)
Lemma dlim_rsum N (f : nat -> R -> R) (f' : nat -> R) x : (forall i, (i < N)%nat -> derivable_pt_lim (f i) x (f' i)) ->
  derivable_pt_lim (fun x => rsum N (fun i => f i x)) x (rsum N f').
Proof.
  induction N as [|N IH]; intros H; cbn [rsum]; [apply derivable_pt_lim_const|].
  apply (derivable_pt_lim_plus (fun x => rsum N (fun i => f i x)) (f N)); [apply IH; intros; apply H; lia|apply H; lia].
Qed.
Lemma dlim_scal c f x l : derivable_pt_lim f x l -> derivable_pt_lim (fun x => c * f x) x (c * l).
Proof. intros H. exact (derivable_pt_lim_scal f c x l H). Qed.
Lemma dlim_scal_r c f x l : derivable_pt_lim f x l -> derivable_pt_lim (fun x => f x * c) x (l * c).
Proof. intros H. rewrite Rmult_comm. eapply derivable_pt_lim_ext; [|apply (dlim_scal c f x l H)]. intros; simpl; ring. Qed.
Lemma dlim_shift c f x l : derivable_pt_lim f x l -> derivable_pt_lim (fun x => c + f x) x l.
Proof. intros H. replace l with (0 + l) by ring. apply (derivable_pt_lim_plus (fct_cte c) f); [apply derivable_pt_lim_const|exact H]. Qed.
Lemma dlim_pow_n n x : derivable_pt_lim (fun x => x ^ S n) x (INR (S n) * x ^ n).
Proof. exact (derivable_pt_lim_pow x (S n)). Qed.
Lemma dlim_lin f t0 h th l : h <> 0 -> derivable_pt_lim f th l -> derivable_pt_lim (fun x => f ((x - t0) / h)) (t0 + th * h) (l / h).
Proof.
  intros Hh H. assert (G : derivable_pt_lim (fun x => (x - t0) / h) (t0 + th * h) (/ h)).
  { replace (/ h) with ((1 - 0) * / h) by ring. eapply derivable_pt_lim_ext; [|apply dlim_scal_r; apply (derivable_pt_lim_minus id (fct_cte t0)); [apply derivable_pt_lim_id|apply derivable_pt_lim_const]].
    intros x. reflexivity. }
  assert (E : (t0 + th * h - t0) / h = th) by (field; auto). unfold Rdiv at 1.
  apply (derivable_pt_lim_comp (fun x => (x - t0) / h) f); [exact G|rewrite E; exact H].
Qed.

(** ** weights that are polynomials of theta *)
Definition dpw (a cols : nat) (P : list (list Q)) (th : R) (i : nat) : R := rsum cols (fun j => mq P i j * (INR (j + a) * th ^ (j + a - 1))).
Lemma dlim_pw a cols P i th : (1 <= a)%nat -> derivable_pt_lim (fun x => pw QN a cols P x i) th (dpw a cols P th i).
Proof.
  intros Ha. unfold pw, dpw. apply (dlim_rsum cols (fun j x => mR QN P i j * x ^ (j + a)) (fun j => mq P i j * (INR (j + a) * th ^ (j + a - 1)))).
  intros j _. apply dlim_scal. assert (E : exists n, (j + a = S n)%nat) by (exists (j + a - 1)%nat; lia). destruct E as (n & ->). replace (S n - 1)%nat with n by lia. apply dlim_pow_n.
Qed.

(** the value of the dense output as weighted sum of stage vectors *)
Definition wval (N : nat) (W : R -> nat -> R) (y0 : nat -> R) (k : nat -> nat -> R) (t0 h x : R) (q : nat) : R :=
  y0 q + h * rsum N (fun i => W ((x - t0) / h) i * k i q).
Lemma wval_lim N W dW y0 k t0 h th q : h <> 0 -> (forall i, (i < N)%nat -> derivable_pt_lim (fun x => W x i) th (dW i)) ->
  derivable_pt_lim (fun x => wval N W y0 k t0 h x q) (t0 + th * h) (rsum N (fun i => dW i * k i q)).
Proof.
  intros Hh H. unfold wval. apply dlim_shift. replace (rsum N (fun i => dW i * k i q)) with (h * (rsum N (fun i => dW i * k i q) / h)) by (field; auto).
  apply dlim_scal. apply (dlim_lin (fun x => rsum N (fun i => W x i * k i q)) t0 h th); auto.
  apply (dlim_rsum N (fun i x => W x i * k i q) (fun i => dW i * k i q)). intros i Hi. apply dlim_scal_r. auto.
Qed.

Definition delta (a i : nat) : R := if Nat.eqb i a then 1 else 0.
Lemma rsum_delta N a f : (a < N)%nat -> rsum N (fun i => delta a i * f i) = f a.
Proof.
  induction N as [|N IH]; intros H; [lia|]. cbn [rsum]. unfold delta at 2. destruct (Nat.eqb_spec N a) as [->|].
  - rewrite rsum_zero; [ring|]. intros k Hk. unfold delta. destruct (Nat.eqb_spec k a); [lia|ring].
  - rewrite IH by lia. ring.
Qed.

Definition ind (d : nat) (f : nat -> R) : list R := map f (seq 0 d).
Lemma ind_nth d f q : (q < d)%nat -> nth q (ind d f) 0 = f q.
Proof. intros H. unfold ind. rewrite (nth_indep _ 0 (f 0%nat)) by (rewrite map_length, seq_length; auto). rewrite map_nth, seq_nth by auto. reflexivity. Qed.
Lemma ind_len d f : length (ind d f) = d.
Proof. unfold ind. rewrite map_length, seq_length. reflexivity. Qed.

Lemma joins_wval d D N W dW0 dW1 y0 k t0 t1 y1 f0 f1 a0 a1 : t1 <> t0 -> length y0 = d -> length y1 = d ->
  (forall x, exists r, call D (Fin x) = map Fin r /\ length r = d /\ forall q, (q < d)%nat -> nth q r 0 = wval N W (fun q => nth q y0 0) k t0 (t1 - t0) x q) ->
  (forall i, (i < N)%nat -> W 0 i = 0) ->
  (forall q, (q < d)%nat -> nth q y0 0 + (t1 - t0) * rsum N (fun i => W 1 i * k i q) = nth q y1 0) ->
  (forall i, (i < N)%nat -> derivable_pt_lim (fun x => W x i) 0 (dW0 i)) -> (forall i, (i < N)%nat -> derivable_pt_lim (fun x => W x i) 1 (dW1 i)) ->
  (forall i, (i < N)%nat -> dW0 i = delta a0 i) -> (forall i, (i < N)%nat -> dW1 i = delta a1 i) -> (a0 < N)%nat -> (a1 < N)%nat ->
  (forall q, (q < d)%nat -> k a0 q = nth q f0 0) -> (forall q, (q < d)%nat -> k a1 q = nth q f1 0) ->
  joins d D t0 y0 f0 t1 y1 f1.
Proof.
  intros Hne L0 L1 HD W0 W1 D0 D1 E0 E1 Ha0 Ha1 K0 K1. set (h := t1 - t0) in *. assert (Hh : h <> 0) by (unfold h; lra).
  exists (fun x => ind d (wval N W (fun q => nth q y0 0) k t0 h x)).
  assert (Hr : forall x, call D (Fin x) = map Fin (ind d (wval N W (fun q => nth q y0 0) k t0 h x))).
  { intros x. destruct (HD x) as (r & E & L & Nr). rewrite E. f_equal. apply nth_eq_list; [rewrite ind_len; auto|]. intros q Hq. rewrite ind_nth by congruence. apply Nr. congruence. }
  split; [intros x; split; [apply Hr|apply ind_len]|]. split; [|split].
  - apply nth_eq_list; [rewrite ind_len; auto|]. intros q Hq. rewrite ind_len in Hq. rewrite ind_nth by auto. unfold wval.
    replace ((t0 - t0) / h) with 0 by (field; auto). rewrite rsum_zero; [ring|]. intros i Hi. rewrite W0 by auto. ring.
  - apply nth_eq_list; [rewrite ind_len; auto|]. intros q Hq. rewrite ind_len in Hq. rewrite ind_nth by auto. unfold wval.
    replace ((t1 - t0) / h) with 1 by (unfold h; field; unfold h in Hh; auto). apply W1. auto.
  - intros q Hq. split.
    + apply (derivable_pt_lim_ext (fun x => wval N W (fun q => nth q y0 0) k t0 h x q)); [intros x; symmetry; apply ind_nth; auto|].
      replace (nth q f0 0) with (rsum N (fun i => dW0 i * k i q)).
      2:{ rewrite (rsum_ext N _ (fun i => delta a0 i * k i q)) by (intros; rewrite E0 by auto; reflexivity). rewrite (rsum_delta N a0 (fun i => k i q)) by auto. auto. }
      pose proof (wval_lim N W dW0 (fun q => nth q y0 0) k t0 h 0 q Hh D0) as L. rewrite Rmult_0_l, Rplus_0_r in L. exact L.
    + apply (derivable_pt_lim_ext (fun x => wval N W (fun q => nth q y0 0) k t0 h x q)); [intros x; symmetry; apply ind_nth; auto|].
      replace (nth q f1 0) with (rsum N (fun i => dW1 i * k i q)).
      2:{ rewrite (rsum_ext N _ (fun i => delta a1 i * k i q)) by (intros; rewrite E1 by auto; reflexivity). rewrite (rsum_delta N a1 (fun i => k i q)) by auto. auto. }
      pose proof (wval_lim N W dW1 (fun q => nth q y0 0) k t0 h 1 q Hh D1) as L. replace (t0 + 1 * h) with t1 in L by (unfold h; ring). exact L.
Qed.

(** ** Horner interpolants *)
Definition horner_impl (impl : dimpl RX) (n : nat) (X : list (list Q)) (x : list Q) (P : list (list Q)) : Prop :=
  forall c to s yo h, y_old s = Some yo -> h_previous s = Some h -> exists s',
    impl c to s = Some (mk_horner to (t s) yo (KtP n (fst (extra_stages (fn c) n to yo h (lm X) (lv x) (K s) (calls s))) (lm P)), s') /\ y s' = y s.
Lemma horner_impl_rk n P : horner_impl (dense_rk n (lm P)) n [] [] P.
Proof. intros c to s yo h Hy Hh. unfold dense_rk. rewrite Hy. eexists. split; reflexivity. Qed.
Lemma horner_impl_xrk n X x P : horner_impl (dense_xrk n X x P) n X x P.
Proof. intros c to s yo h Hy Hh. unfold dense_xrk. rewrite Hy, Hh. destruct (extra_stages _ _ _ _ _ _ _ _ _) as [K' cl]. eexists. split; reflexivity. Qed.

Definition qsum (l : list Q) : Q := fold_right Qplus 0%Q l.
Fixpoint qdsum (k : positive) (l : list Q) : Q := match l with [] => 0%Q | a :: l' => ((Z.pos k # 1) * a + qdsum (Pos.succ k) l')%Q end.
Definition qdelta (a i : nat) : Q := if Nat.eqb i a then 1%Q else 0%Q.
Definition join_ok (s : nat) (A : list (list Q)) (b c : list Q) (X : list (list Q)) (x : list Q) (P : list (list Q)) : bool :=
  ext_ok s A b c X x && Nat.leb 1 (qcols P) && forallb (fun r => Nat.eqb (length r) (qcols P)) P && Nat.eqb (length P) (S s + length X) && Nat.leb 1 s &&
  forallb (fun i => Qeq_bool (qsum (nth i P [])) (nth i b 0%Q) && Qeq_bool (nth 0 (nth i P []) 0%Q) (qdelta 0 i) && Qeq_bool (qdsum 1 (nth i P [])) (qdelta s i))
    (seq 0 (S s + length X)).

Lemma qsum_rsum l n : length l = n -> rsum n (fun j => Q2R (nth j l 0%Q)) = Q2R (qsum l).
Proof.
  revert n. induction l as [|a l IH]; intros n <-; [simpl; symmetry; apply Q2R_0'|]. cbn [length]. rewrite rsum_split. cbn [nth qsum fold_right]. rewrite Q2R_plus, (IH (length l) eq_refl). reflexivity.
Qed.
Lemma qdsum_rsum l : forall n k, length l = n -> rsum n (fun j => Q2R (nth j l 0%Q) * (INR (j + Pos.to_nat k))) = Q2R (qdsum k l).
Proof.
  induction l as [|a l IH]; intros n k <-; [simpl; symmetry; apply Q2R_0'|]. cbn [length]. rewrite rsum_split. cbn [nth qdsum]. rewrite Q2R_plus, Q2R_mult.
  rewrite <- (IH (length l) (Pos.succ k) eq_refl). f_equal.
  - cbn [Nat.add]. rewrite Rmult_comm. f_equal. rewrite INR_IZR_INZ, positive_nat_Z. unfold Q2R. cbn [Qnum Qden]. rewrite Rinv_1, Rmult_1_r. reflexivity.
  - apply rsum_ext. intros j _. f_equal. f_equal. lia.
Qed.
Lemma qdelta_delta a i : Q2R (qdelta a i) = delta a i.
Proof. unfold qdelta, delta. destruct (Nat.eqb i a); [apply Q2R_1'|apply Q2R_0']. Qed.

Lemma join_spec s A b c X x P : join_ok s A b c X x P = true ->
  ext_ok s A b c X x = true /\ (1 <= qcols P)%nat /\ (1 <= s)%nat /\ forall i, (i < S s + length X)%nat ->
    pw QN 1 (qcols P) P 0 i = 0 /\ pw QN 1 (qcols P) P 1 i = vq b i /\ dpw 1 (qcols P) P 0 i = delta 0 i /\ dpw 1 (qcols P) P 1 i = delta s i.
Proof.
  intros H. unfold join_ok in H. rewrite !andb_true_iff in H. destruct H as (((((He & Hc) & HR) & HL) & Hs) & HC).
  apply Nat.leb_le in Hc, Hs. apply Nat.eqb_eq in HL. split; [auto|]. split; [auto|]. split; [auto|]. intros i Hi.
  rewrite forallb_forall in HC. specialize (HC i ltac:(apply in_seq; lia)). rewrite !andb_true_iff in HC. destruct HC as ((C1 & C2) & C3).
  apply Qeq_bool_eq in C1, C2, C3. apply Qeq_eqR in C1, C2, C3.
  rewrite forallb_forall in HR. assert (Lr : length (nth i P []) = qcols P) by (apply Nat.eqb_eq, HR, nth_In; lia).
  assert (EM : forall j, mR QN P i j = Q2R (nth j (nth i P []) 0%Q)) by reflexivity.
  split; [|split; [|split]].
  - unfold pw. apply rsum_zero. intros j _. rewrite pow_ne_zero by lia. ring.
  - unfold pw. rewrite (rsum_ext _ _ (fun j => Q2R (nth j (nth i P []) 0%Q))) by (intros; rewrite pow1, EM; ring).
    rewrite (qsum_rsum _ _ Lr), C1. reflexivity.
  - unfold dpw. destruct (qcols P) as [|n] eqn:EQ; [lia|]. rewrite rsum_split. rewrite rsum_zero.
    2:{ intros j _. replace (S j + 1 - 1)%nat with (S j) by lia. rewrite pow_ne_zero by lia. ring. }
    cbn [Nat.add Nat.sub pow]. unfold mq. rewrite EM, C2, qdelta_delta. simpl. ring.
  - unfold dpw. rewrite <- qdelta_delta, <- C3, <- (qdsum_rsum _ _ 1 Lr). apply rsum_ext. intros j _. rewrite pow1. change (mq P i j) with (Q2R (nth j (nth i P []) 0%Q)). rewrite Rmult_1_r. reflexivity.
Qed.

Lemma rstages_nth0 F A c t y h n : (1 <= n)%nat -> c 0%nat = 0 -> nth 0 (rstages F A c t y h n) [] = F t y.
Proof.
  intros Hn Hc. rewrite rstages_nth by lia. rewrite Hc. replace (t + 0 * h) with t by ring. f_equal.
  cbn [rstages]. apply nth_eq_list; [apply rpoint_len|]. rewrite rpoint_len. intros q Hq. rewrite rpoint_nth by auto. unfold lcomb. simpl. ring.
Qed.

Theorem horner_joins s A b c e X x P d impl : join_ok s A b c X x P = true -> horner_impl impl d X x P ->
  dense_joins (mk_tab s A b c e) impl d.
Proof.
  intros HOK HI F g m cf v v' t0 y0 t1 HL HU HM Hg Hy E0 Ey E1 Hne.
  destruct (join_spec _ _ _ _ _ _ _ HOK) as (He & Hc & Hs & HW).
  destruct (ext_ok_spec s A b c X x He) as (LA & LB & LC & Lx & C0 & _ & _ & _).
  assert (Hd : (0 < d)%nat) by (apply (y0_pos y0 d Hy); rewrite <- Ey; apply (made_step_ne m cf v v' HM)).
  destruct (made_step_real d F g s A b c e m cf v v' t0 y0 t1 HL Hy Hd LA LB LC C0 HU HM Hg E0 Ey E1) as (ks & SF & EY & EK).
  set (h := t1 - t0) in *. set (yn := rpoint d y0 h (lcomb s (vq b) (rstages F (mq A) (vq c) t0 y0 h s))) in *.
  rewrite (dense_enter _ cf v v' _ ks t0 t1 SF E0 E1 Hne) by (rewrite EY, map_length; unfold yn; rewrite rpoint_len; lia).
  assert (SY := sf_yold _ _ _ _ _ SF). rewrite Ey in SY.
  destruct (HI cf (Fin t0) (st v') (map Fin y0) (Fin h) SY (sf_h _ _ _ _ _ SF)) as (s' & ES & EYs). rewrite ES.
  eexists. exists s', yn. split; [reflexivity|]. split; [exact EY|]. split; [exact EYs|].
  rewrite EK, Hg, E1.
  destruct (extra_all d F g A b c X x t0 y0 h s (calls (st v')) HL LA LC Hy Lx) as (cl' & EX). rewrite EX. cbn [fst].
  set (N := (S s + length X)%nat) in *. set (RSs := rstages F (mq (extA A b X)) (vq (extC c x)) t0 y0 h N) in *.
  assert (LR : length RSs = N) by apply rstages_length.
  assert (Hh : h <> 0) by (unfold h; lra).
  eapply (joins_wval d _ N (pw QN 1 (qcols P) P) (dpw 1 (qcols P) P 0) (dpw 1 (qcols P) P 1) y0 (fun i q => nth q (nth i RSs []) 0) t0 t1 yn _ _ 0 s); auto.
  - unfold yn; apply rpoint_len.
  - intros z. fold h. pose proof (call_horner d P t0 h ((z - t0) / h) (map Fin y0) _ _ _ Hh Hc (reals_intro d y0 Hy)
     (realsK_stages d F g (mq (extA A b X)) (vq (extC c x)) t0 y0 h N HL Hy)) as HR.
    replace (t0 + h) with t1 in HR by (unfold h; ring). replace (t0 + (z - t0) / h * h) with z in HR by (field; auto).
    destruct HR as (r & Er & Lr & Nr). exists r. split; [exact Er|]. split; [exact Lr|]. intros q Hq. rewrite Nr by auto. rewrite map_length. fold RSs. rewrite LR. reflexivity.
  - intros i Hi. apply HW; auto.
  - intros q Hq. unfold yn. rewrite rpoint_nth by auto. f_equal. fold h. f_equal.
    rewrite (rsum_ext N _ (fun i => vq b i * nth q (nth i RSs []) 0)) by (intros i Hi; destruct (HW i Hi) as (_ & -> & _); reflexivity).
    change (rsum N (fun i => vq b i * nth q (nth i RSs []) 0)) with (lcomb N (vq b) RSs q).
    rewrite <- (ext_stages F A b c X x t0 y0 h s LA LC). symmetry. apply lcomb_ext_zero; [unfold N; lia|]. intros l Hl. apply vq_overflow. lia.
  - intros i Hi. apply dlim_pw. lia.
  - intros i Hi. apply dlim_pw. lia.
  - intros i Hi. apply HW; auto.
  - intros i Hi. apply HW; auto.
  - unfold N; lia.
  - unfold N; lia.
  - intros q Hq. unfold RSs. rewrite rstages_nth0; [reflexivity|unfold N; lia|].
    rewrite vq_nth. unfold extC. rewrite app_nth1 by lia. rewrite C0. apply Q2R_0'.
  - intros q Hq. unfold RSs. 
    pose proof (ext_all d F g A b c t0 y0 h s HL LA LB LC Hy) as EA. cbv zeta in EA. fold yn in EA. rewrite <- (ext_prefix F A b c X x t0 y0 h s LA LC) in EA.
    rewrite (rstages_nth F (mq (extA A b X)) (vq (extC c x)) t0 y0 h N s) by (unfold N; lia).
    rewrite <- (rstages_nth F (mq (extA A b X)) (vq (extC c x)) t0 y0 h (S s) s) by lia. rewrite EA.
    rewrite app_nth2 by (rewrite rstages_length; lia). rewrite rstages_length, Nat.sub_diag. cbn [nth]. replace (t0 + h) with t1 by (unfold h; ring). reflexivity.
Qed.
