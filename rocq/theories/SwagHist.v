(** The difference table of SWAG, for right-hand sides with finite values: the
    arrays phi and psi hold the modified divided differences of the accepted
    points. *)
From Coq Require Import String ZArith Reals Lra Psatz QArith Qreals Bool Lia List Arith.
From Verif Require Import Arith Common Stiff RK HStart RKInit RX RKReal HStartReal RKInitReal RKStep Series OrderModel DenseReal DenseStep Ode Swag SwagArr SwagCo SwagGen SwagTop SwagReal Adams.
Import ListNotations.
Close Scope string_scope. Open Scope nat_scope. Open Scope R_scope.

(** accepted points, newest first *)
Notation pts_t := (list (R * list R)).
Definition pt (ps : pts_t) (j : nat) : R := fst (nth j ps (0, [])).
Definition py (ps : pts_t) (j : nat) : list R := snd (nth j ps (0, [])).
(** component q of the right-hand side at point j *)
Definition pf (F : R -> list R -> list R) (ps : pts_t) (q j : nat) : R := nth q (F (pt ps j) (py ps j)) 0.

Lemma pt_cons p ps j : pt (p :: ps) j = cons (fst p) (pt ps) j. Proof. destruct j; reflexivity. Qed.
Lemma pf_cons F p ps q j : pf F (p :: ps) q j = cons (nth q (F (fst p) (snd p)) 0) (pf F ps q) j. Proof. destruct j; reflexivity. Qed.
Lemma dd_cons F p ps q n a : dd (pt (p :: ps)) (pf F (p :: ps) q) n a = dd (cons (fst p) (pt ps)) (cons (nth q (F (fst p) (snd p)) 0) (pf F ps q)) n a.
Proof. apply dd_ext. intros j _. split; [apply pt_cons|apply pf_cons]. Qed.
Lemma nprod_ext t t' n x : (forall j, (j < n)%nat -> t j = t' j) -> nprod t n x = nprod t' n x.
Proof. induction n as [|n IH]; intros H; [reflexivity|]. cbn [nprod]. rewrite IH by (intros; apply H; lia). rewrite (H n) by lia. reflexivity. Qed.

(** product of t_0 - t_j, j = 1..i *)
Definition pback (ps : pts_t) (i : nat) : R := nprod (fun j => pt ps (S j)) i (pt ps 0).
Lemma pback_cons p ps i : pback (p :: ps) i = nprod (pt ps) i (fst p).
Proof. unfold pback. apply nprod_ext. intros; reflexivity. Qed.

Lemma reals_unique d v v' r : reals d v r -> reals d v' r -> v = v'.
Proof. intros (l & -> & L & N) H. symmetry. apply (reals_eq d v' r l H L N). Qed.
Lemma reals_sub d u v r r' : reals d u r -> reals d v r' -> reals d (vsub u v) (fun q => r q - r' q).
Proof.
  intros (l & -> & L & N) (l' & -> & L' & N'). destruct (map2_fin (nsub RX) Rminus) with (u := l) (v := l') as (m & E & Lm & Nm); [reflexivity|congruence|].
  exists m. split; [exact E|]. split; [congruence|]. intros q Hq. rewrite Nm, N, N' by congruence. reflexivity.
Qed.

Notation cellx l i := (nth i l (@n0 RX)).
Notation colx l i := (nth i l (@nil (num RX))).

(** *** real values of the coefficient arrays *)
(** cc equal steps hd *)
Record eqs (co : Co RX) (ps : pts_t) (hd : R) (cc : nat) : Prop := {
  eq_m : (cc < length ps)%nat;
  eq_t : forall i, (i <= cc)%nat -> pt ps 0 - pt ps i = hd * INR i;
  eq_arr : forall i, (i < cc)%nat -> cellx (psi co) i = Fin (hd * INR (i + 1)) /\ cellx (beta co) i = Fin 1 /\ cellx (alpha co) i = Fin (1 / INR (i + 1)) }.

Definition ns_next (n kold : nat) : nat := if (n <=? kold)%nat then S n else n.

(** the values a trial with step h to t1 must find *)
Definition bratio (ps : pts_t) (t1 : R) (i : nat) : R := nprod (pt ps) i t1 / pback ps i.
Record coreal (co : Co RX) (ps : pts_t) (h : R) (k : nat) : Prop := {
  cr_psi : forall j, (j < k)%nat -> cellx (psi co) j = Fin (pt ps 0 + h - pt ps j);
  cr_alpha : forall j, (j < k)%nat -> cellx (alpha co) j = Fin (h / (pt ps 0 + h - pt ps j));
  cr_beta : forall j, (j < k)%nat -> cellx (beta co) j = Fin (bratio ps (pt ps 0 + h) j);
  cr_one : forall j, (j < k)%nat -> (j < ns co)%nat -> bratio ps (pt ps 0 + h) j = 1;
  cr_ns : (1 <= ns co)%nat }.

Definition decr (d : R) (ps : pts_t) : Prop := forall j, (S j < length ps)%nat -> 0 < d * (pt ps j - pt ps (S j)).
Lemma decr_lt d ps i j : decr d ps -> (i < j)%nat -> (j < length ps)%nat -> 0 < d * (pt ps i - pt ps j).
Proof.
  intros H. induction j as [|j IH]; intros Hi Hj; [lia|]. specialize (H j Hj). destruct (Nat.eq_dec i j) as [->|N]; [exact H|]. specialize (IH ltac:(lia) ltac:(lia)). nra.
Qed.
Lemma decr_new d ps h j : decr d ps -> 0 < d * h -> (j < length ps)%nat -> 0 < d * (pt ps 0 + h - pt ps j).
Proof. intros H Hh Hj. destruct j as [|j]; [nra|]. pose proof (decr_lt d ps 0 (S j) H ltac:(lia) Hj). nra. Qed.
Lemma pback_nz d ps i : decr d ps -> (i < length ps)%nat -> pback ps i <> 0.
Proof. intros H Hi. unfold pback. apply nprod_nz. intros j Hj E. pose proof (decr_lt d ps 0 (S j) H ltac:(lia) ltac:(lia)) as L. rewrite E in L. replace (pt ps (S j) - pt ps (S j)) with 0 in L by lra. lra. Qed.
Lemma new_nz d ps h i : decr d ps -> 0 < d * h -> (i <= length ps)%nat -> nprod (pt ps) i (pt ps 0 + h) <> 0.
Proof. intros H Hh Hi. apply nprod_nz. intros j Hj E. pose proof (decr_new d ps h j H Hh ltac:(lia)) as L. rewrite E in L. replace (pt ps j - pt ps j) with 0 in L by lra. lra. Qed.
Lemma bratio_S d ps h i : decr d ps -> (S i < length ps)%nat -> bratio ps (pt ps 0 + h) (S i) = bratio ps (pt ps 0 + h) i * ((pt ps 0 + h - pt ps i) / (pt ps 0 - pt ps (S i))).
Proof.
  intros H Hi. unfold bratio, pback. cbn [nprod]. fold (pback ps i). pose proof (pback_nz d ps i H ltac:(lia)). pose proof (decr_lt d ps 0 (S i) H ltac:(lia) ltac:(lia)) as L.
  field. split; [intros E; rewrite E in L; lra|assumption].
Qed.
Lemma bratio_one d ps h cc : decr d ps -> h <> 0 -> (forall i, (i <= cc)%nat -> pt ps 0 - pt ps i = h * INR i) -> (cc < length ps)%nat -> forall i, (i <= cc)%nat -> bratio ps (pt ps 0 + h) i = 1.
Proof.
  intros H Hh E L i. induction i as [|i IH]; intros Hi; [unfold bratio, pback; cbn [nprod]; field|].
  rewrite (bratio_S d) by (try assumption; lia). rewrite IH by lia. rewrite (E (S i)) by lia. replace (pt ps 0 + h - pt ps i) with (h * INR (S i)) by (rewrite S_INR; specialize (E i ltac:(lia)); lra).
  pose proof (not_0_INR (S i) ltac:(lia)). field. split; assumption.
Qed.

Lemma finmul (a b : R) : nmul RX (Fin a) (Fin b) = Fin (a * b). Proof. reflexivity. Qed.
Lemma finadd (a b : R) : nadd RX (Fin a) (Fin b) = Fin (a + b). Proof. reflexivity. Qed.
Lemma finsub (a b : R) : nsub RX (Fin a) (Fin b) = Fin (a - b). Proof. reflexivity. Qed.
Lemma findiv (a b : R) : b <> 0 -> ndiv RX (Fin a) (Fin b) = Fin (a / b). Proof. intros H. cbn [ndiv RX xdiv]. destruct (Req_EM_T b 0); [contradiction|reflexivity]. Qed.

Lemma co_real c co co' ps d hd h k kold : decr d ps -> 0 < d * h -> (k <= length ps)%nat -> (1 <= k)%nat ->
  arrays_of co co' k (Fin h) -> ns co' = ns_trial (ns co) kold (Fin h : num RX) (Fin hd) -> 
  (forall i, (i + 1 < k)%nat -> cellx (psi co) i = Fin (pt ps 0 - pt ps (i + 1))) ->
  (ns co = 0%nat \/ eqs co ps hd (ns_next (ns co) kold - 1)) -> lens (A := RX) c co' ->
  coreal co' ps h k /\ (h = hd \/ ns co' = 1%nat) /\ ((ns co' <= k)%nat -> eqs co' ps h (ns co' - 1) /\ cellx (psi co') (ns co' - 1) = Fin (h * INR (ns co')) /\ cellx (beta co') (ns co' - 1) = Fin 1 /\ cellx (alpha co') (ns co' - 1) = Fin (1 / INR (ns co'))) /\
  ((k < ns co')%nat -> h = hd /\ eqs co' ps h (ns co' - 1) /\ (k <= ns co' - 1)%nat).
Proof.
  intros HD Hh Hk Hk1 HA Hn HP HE HL. assert (Hh0 : h <> 0) by (intros E; rewrite E in Hh; lra).
  (* the equal steps before this one *)
  assert (EQ : (h = hd \/ ns co' = 1%nat) /\ eqs co ps h (ns co' - 1) /\ (1 <= ns co')%nat).
  { unfold ns_trial in Hn. cbn [neqb RX xeqb] in Hn. assert (E0 : forall x, eqs co ps x 0). { intros x. constructor; [lia| |lia]. intros i Hi. replace i with 0%nat by lia. cbn [INR]. ring. }
    destruct (Reqb_spec h hd) as [->|N].
    - destruct HE as [E|E].
      + rewrite E in Hn. cbn in Hn. rewrite Hn. split; [auto|]. split; [apply E0|lia].
      + fold (ns_next (ns co) kold) in Hn. rewrite <- Hn in E. split; [auto|]. split; [exact E|]. unfold ns_next in Hn. destruct (Nat.leb_spec (ns co) kold); lia.
    - cbn in Hn. rewrite Hn. split; [auto|]. split; [apply E0|lia]. }
  destruct EQ as (Q0 & [Q1 Q2 Q3] & Q4).
  assert (BO : forall i, (i <= ns co' - 1)%nat -> bratio ps (pt ps 0 + h) i = 1) by (apply (bratio_one d); assumption).
  assert (TE : forall i, (i <= ns co' - 1)%nat -> pt ps 0 + h - pt ps i = h * INR (i + 1)). { intros i Hi. specialize (Q2 i Hi). rewrite plus_INR. cbn [INR]. lra. }
  assert (IN : forall i, INR (i + 1) <> 0) by (intros; apply not_0_INR; lia).
  unfold arrays_of in HA. destruct (Nat.leb_spec (ns co') k) as [Hle|Hgt].
  - destruct HA as (c1 & [S1 S2 S3 S4 S5 S6 _ _ _ _] & EP & EA & EB & _). rewrite EP, EA, EB in *. cbn [ns with_ns psi alpha beta] in *.
    set (n := ns co') in *.
    assert (P : forall j, (j < k)%nat -> cellx (psi c1) j = Fin (pt ps 0 + h - pt ps j)).
    { intros j Hj. rewrite S1. destruct (Nat.eqb_spec j (n - 1)) as [->|N1].
      - rewrite nofnat_RX, finmul. rewrite TE by lia. do 2 f_equal. f_equal. lia.
      - destruct (Nat.leb_spec n j); cbn [andb].
        + replace (j <? k)%nat with true by (symmetry; apply Nat.ltb_lt; lia). rewrite HP by lia. rewrite finadd. f_equal. replace (j - 1 + 1)%nat with j by lia. lra.
        + destruct (Q3 j ltac:(lia)) as (-> & _). rewrite TE by lia. reflexivity. }
    assert (Bt : forall j, (j < k)%nat -> cellx (beta c1) j = Fin (bratio ps (pt ps 0 + h) j)).
    { intros j. induction j as [j IH] using lt_wf_ind. intros Hj. destruct (lt_eq_lt_dec j (n - 1)) as [[L|L]|L].
      - rewrite S3 by lia. rewrite BO by lia. apply Q3. lia.
      - subst j. rewrite S4. rewrite BO by lia. apply n1_RX.
      - destruct (Nat.eq_dec j n) as [->|N].
        + rewrite S5 by lia. destruct n as [|n']; [lia|]. replace (S n' - 1)%nat with n' in * by lia. rewrite P by lia. rewrite (HP n') by lia. replace (n' + 1)%nat with (S n') by lia. pose proof (decr_lt d ps 0 (S n') HD ltac:(lia) ltac:(lia)) as X.
          rewrite findiv by (intros Z; rewrite Z in X; lra). rewrite (bratio_S d) by (try assumption; lia). rewrite BO by lia. f_equal. ring.
        + destruct j as [|j]; [lia|]. rewrite S6 by lia. rewrite IH by lia. rewrite P by lia. rewrite (HP j) by lia. replace (j + 1)%nat with (S j) by lia. pose proof (decr_lt d ps 0 (S j) HD ltac:(lia) ltac:(lia)) as X.
          rewrite findiv by (intros Z; rewrite Z in X; lra). rewrite finmul. rewrite (bratio_S d) by (try assumption; lia). reflexivity. }
    assert (Al : forall j, (j < k)%nat -> cellx (alpha c1) j = Fin (h / (pt ps 0 + h - pt ps j))).
    { intros j Hj. rewrite S2. destruct (Nat.eqb_spec j (n - 1)) as [->|N1].
      - rewrite nofnat_RX, n1_RX, findiv by (apply not_0_INR; lia). rewrite TE by lia. replace (n - 1 + 1)%nat with n by lia. f_equal. pose proof (not_0_INR n ltac:(lia)). field. split; assumption.
      - destruct (Nat.leb_spec n j); cbn [andb].
        + replace (j <? k)%nat with true by (symmetry; apply Nat.ltb_lt; lia). rewrite P by lia. pose proof (decr_new d ps h j HD Hh ltac:(lia)) as X. rewrite findiv by (intros Z; rewrite Z in X; lra). reflexivity.
        + destruct (Q3 j ltac:(lia)) as (_ & _ & ->). rewrite TE by lia. f_equal. specialize (IN j). field. split; assumption. }
    split; [constructor; rewrite ?EP, ?EA, ?EB; auto; intros; apply BO; unfold n in *; lia|]. split; [exact Q0|]. split; [|lia]. intros _.
    split; [|split; [|split]].
    + constructor; [exact Q1|exact Q2|]. intros i Hi. rewrite EP, EA, EB. split; [rewrite P by lia; rewrite TE by lia; reflexivity|]. split; [rewrite Bt by lia; rewrite BO by lia; reflexivity|].
      rewrite Al by lia. rewrite TE by lia. f_equal. specialize (IN i). field. split; assumption.
    + rewrite P by lia. rewrite TE by lia. replace (n - 1 + 1)%nat with n by lia. reflexivity.
    + rewrite Bt by lia. rewrite BO by lia. reflexivity.
    + rewrite Al by lia. rewrite TE by lia. replace (n - 1 + 1)%nat with n by lia. f_equal. pose proof (not_0_INR n ltac:(lia)). field. split; assumption.
  - destruct HA as (EP & EA & EB & _). set (n := ns co') in *.
    split; [constructor; rewrite ?EP, ?EA, ?EB|split; [exact Q0|split; [lia|]]].
    + intros j Hj. destruct (Q3 j ltac:(lia)) as (-> & _). rewrite TE by lia. reflexivity.
    + intros j Hj. destruct (Q3 j ltac:(lia)) as (_ & _ & ->). rewrite TE by lia. f_equal. specialize (IN j). field. split; assumption.
    + intros j Hj. destruct (Q3 j ltac:(lia)) as (_ & -> & _). rewrite BO by lia. reflexivity.
    + intros j Hj _. apply BO. lia.
    + exact Q4.
    + intros _. split; [destruct Q0; [assumption|lia]|]. split; [|lia]. constructor; rewrite ?EP, ?EA, ?EB; assumption.
Qed.

(** *** the coefficients g *)
Lemma W_fin al ar l i : (forall j, (1 <= j <= l)%nat -> al j = Fin (ar j)) -> W (A := RX) al l i = Fin (Wr ar l i).
Proof.
  revert i. induction l as [|l IH]; intros i H.
  - cbn [W Wr]. unfold iqq. rewrite nofnat_RX, n1_RX, finadd, finmul, findiv; [reflexivity|]. pose proof (pos_INR (i + 1)). pose proof (not_0_INR (i + 1) ltac:(lia)). nra.
  - cbn [W Wr]. rewrite !IH by (intros; apply H; lia). rewrite H by lia. rewrite finmul, finsub. reflexivity.
Qed.
Lemma gref_fin al ar l : (forall j, (1 <= j < l)%nat -> al j = Fin (ar j)) -> gref (A := RX) al l = Fin (gr ar l).
Proof. intros H. destruct l as [|[|l]]; [apply n1_RX|apply half_RX|]. cbn [gref gr]. apply W_fin. intros; apply H; lia. Qed.

(** *** the invariant *)
Definition mdd (F : R -> list R -> list R) (ps : pts_t) (i q : nat) : R := dd (pt ps) (pf F ps q) i 0 * pback ps i.
Record ghost (d : R) (n : nat) (F : R -> list R -> list R) (s : SSt RX) (ps : pts_t) : Prop := {
  gh_ne : (1 <= length ps)%nat;
  gh_t : s_t s = Fin (pt ps 0);
  gh_y : s_y s = map Fin (py ps 0) /\ length (py ps 0) = n;
  gh_decr : decr d ps;
  gh_hold : s_hold s = Fin (if (length ps =? 1)%nat then 0 else pt ps 0 - pt ps 1);
  gh_k : (s_k s <= length ps)%nat;
  gh_phi : forall i, (i < s_k s)%nat -> reals n (colx (s_phi s) i) (mdd F ps i);
  gh_psi : forall i, (i + 1 < s_k s)%nat -> cellx (psi (s_co s)) i = Fin (pt ps 0 - pt ps (i + 1));
  gh_eqs : ns (s_co s) = 0%nat \/ ((2 <= length ps)%nat /\ eqs (s_co s) ps (pt ps 0 - pt ps 1) (ns_next (ns (s_co s)) (s_kold s) - 1)) }.

(** column i of the scaled table: divided difference times the node product at t1 *)
Definition sdd (F : R -> list R -> list R) (ps : pts_t) (t1 : R) (i q : nat) : R := dd (pt ps) (pf F ps q) i 0 * nprod (pt ps) i t1.
Definition pred_real (n : nat) (F : R -> list R -> list R) (ps : pts_t) (h : R) (k q : nat) : R :=
  nth q (py ps 0) 0 + h * rsum k (fun l => gr (fun j => h / (pt ps 0 + h - pt ps j)) l * sdd F ps (pt ps 0 + h) l q).

Lemma sl_fin l k g : (k <= length l)%nat -> (forall i, (i < k)%nat -> cellx l i = Fin (g i)) -> sl l 0 k = map Fin (map g (seq 0 k)).
Proof.
  intros L H. apply (nth_ext _ _ (n0 (A := RX)) (n0 (A := RX))).
  - rewrite len_sl, !map_length, seq_length by lia. lia.
  - intros i Hi. rewrite len_sl in Hi by lia. rewrite nth_sl by lia. cbn [Nat.add]. rewrite H by lia. rewrite map_map. rewrite (nth_map_seq_gen (fun x => Fin (g x))) by lia. reflexivity.
Qed.

Lemma nth_const {X} (l : list X) q : nth q (map (fun _ => 0) l) 0 = 0. Proof. revert q. induction l; intros [|q]; cbn; auto. Qed.
Lemma trial_real c d n F s ps h co phi p yp wt e knew : ghost d n F s ps -> s_h s = Fin h -> 0 < d * h -> sinv c s -> trial_data c s co phi p yp wt e knew ->
  coreal co ps h (s_k s) /\
  (forall i, (i <= s_k s)%nat -> reals n (colx phi i) (fun q => rsum (s_k s) (fun l => sdd F ps (pt ps 0 + h) l q) - rsum i (fun l => sdd F ps (pt ps 0 + h) l q))) /\
  (forall i, (i < s_k s)%nat -> reals n (star co (s_phi s) (s_k s) i) (sdd F ps (pt ps 0 + h) i)) /\
  reals n p (pred_real n F ps h (s_k s)) /\
  (forall i, (i <= s_k s)%nat -> cellx (gg co) i = Fin (gr (fun j => h / (pt ps 0 + h - pt ps j)) i)) /\
  (forall ps' co', co' = co -> ps' = ps -> (ns co <= s_k s)%nat -> eqs co' ps' h (ns co - 1) /\ cellx (psi co) (ns co - 1) = Fin (h * INR (ns co)) /\ cellx (beta co) (ns co - 1) = Fin 1 /\ cellx (alpha co) (ns co - 1) = Fin (1 / INR (ns co))) /\
  ((s_k s < ns co)%nat -> eqs co ps h (ns co - 1)).
Proof.
  intros [G1 G2 [G3 G3'] G4 G5 G6 G7 G8 G9] Eh Hh SI TD. destruct (si_co _ _ SI) as (_ & Hk & _).
  pose proof (td_arr _ _ _ _ _ _ _ _ _ TD) as AR. rewrite Eh in AR. pose proof (td_ns _ _ _ _ _ _ _ _ _ TD) as NS. rewrite Eh in NS.
  assert (HE : exists hd, ns co = ns_trial (ns (s_co s)) (s_kold s) (Fin h : num RX) (Fin hd) /\ (ns (s_co s) = 0%nat \/ eqs (s_co s) ps hd (ns_next (ns (s_co s)) (s_kold s) - 1))).
  { rewrite G5 in NS. eexists. split; [exact NS|]. destruct G9 as [E|(E & Q)]; [left; exact E|right]. replace (length ps =? 1)%nat with false by (symmetry; apply Nat.eqb_neq; lia). exact Q. }
  destruct HE as (hd & NS' & HE). pose proof (proj1 (cd_base _ _ _ (td_done _ _ _ _ _ _ _ _ _ TD))) as L.
  destruct (co_real (s_kmax c) (s_co s) co ps d hd h (s_k s) (s_kold s) G4 Hh G6 ltac:(lia) AR NS' G8 HE L) as (CR & C2 & C3 & C4).
  set (t1 := pt ps 0 + h) in *.
  assert (ST : forall i, (i < s_k s)%nat -> reals n (star co (s_phi s) (s_k s) i) (sdd F ps t1 i)).
  { intros i Hi. unfold star. replace (i <? s_k s)%nat with true by (symmetry; apply Nat.ltb_lt; lia). rewrite andb_true_r. pose proof (pback_nz d ps i G4 ltac:(lia)) as NZ. destruct (Nat.leb_spec (ns co) i).
    - rewrite (cr_beta _ _ _ _ CR) by lia. eapply reals_ext; [apply reals_scale, (G7 i Hi)|]. intros q Hq. unfold mdd, sdd, bratio. fold t1. field. exact NZ.
    - eapply reals_ext; [apply (G7 i Hi)|]. intros q Hq. unfold mdd, sdd. pose proof (cr_one _ _ _ _ CR i Hi ltac:(lia)) as O. unfold bratio in O. fold t1 in O.
      replace (nprod (pt ps) i t1) with (pback ps i); [reflexivity|]. apply (Rmult_eq_reg_r (/ pback ps i)); [|apply Rinv_neq_0_compat; exact NZ]. rewrite Rinv_r by exact NZ. symmetry. exact O. }
  destruct (td_pred _ _ _ _ _ _ _ _ _ TD) as [PL PP _ Pk Pkm Pi _]. rewrite Eh in PP.
  assert (Z : reals n (colx phi (s_k s)) (fun _ => 0)).
  { rewrite Pk. unfold zeros. rewrite G3, map_map. exists (map (fun _ => 0) (py ps 0)). split; [rewrite map_map; apply map_ext; intros; apply n0_RX|]. split; [rewrite map_length; exact G3'|].
    intros q Hq. apply nth_const. }
  assert (PH : forall i, (i <= s_k s)%nat -> reals n (colx phi i) (fun q => rsum (s_k s) (fun l => sdd F ps t1 l q) - rsum i (fun l => sdd F ps t1 l q))).
  { intros i Hi. remember (s_k s - i)%nat as r eqn:Er. revert i Hi Er. induction r as [|r IH]; intros i Hi Er.
    - replace i with (s_k s) by lia. eapply reals_ext; [exact Z|]. intros; cbn beta; ring.
    - destruct (Nat.eq_dec (i + 1) (s_k s)) as [E|N].
      + replace i with (s_k s - 1)%nat by lia. rewrite Pkm. eapply reals_ext; [apply ST; lia|]. intros q Hq. cbn beta. replace (s_k s) with (S (s_k s - 1)) at 2 by lia. cbn [rsum]. ring.
      + rewrite Pi by lia. eapply reals_ext; [apply reals_add; [apply IH; lia|apply ST; lia]|]. intros q Hq. cbn beta. replace (i + 1)%nat with (S i) by lia. cbn [rsum]. ring. }
  assert (GG : forall i, (i <= s_k s)%nat -> cellx (gg co) i = Fin (gr (fun j => h / (t1 - pt ps j)) i)).
  { intros i Hi. rewrite (cd_g _ _ _ (td_done _ _ _ _ _ _ _ _ _ TD)) by lia. apply gref_fin. intros j Hj. apply (cr_alpha _ _ _ _ CR). lia. }
  split; [exact CR|]. split; [exact PH|]. split; [exact ST|]. split; [|split; [exact GG|split; [intros ps' co' -> ->; exact C3|intros Q; apply C4; exact Q]]].
  rewrite PP, G3. rewrite map_length, G3'.
  rewrite (sl_fin (gg co) (s_k s) _ ltac:(pose proof (len_g _ _ L); lia) (fun i Hi => GG i (Nat.lt_le_incl _ _ Hi))).
  assert (RK : realsK n (map (star co (s_phi s) (s_k s)) (seq 0 (s_k s))) (fun i => sdd F ps t1 i)).
  { intros i Hi. rewrite map_length, seq_length in Hi. rewrite (nth_map_seq_gen (star co (s_phi s) (s_k s))) by lia. cbn [Nat.add]. apply ST. lia. }
  pose proof (lincomb_reals n (map (gr (fun j => h / (t1 - pt ps j))) (seq 0 (s_k s))) _ _ RK) as LC.
  eapply reals_ext; [apply reals_add; [apply reals_scale; exact LC|apply reals_intro; exact G3']|].
  intros q Hq. cbn beta. unfold pred_real. fold t1. rewrite map_length, seq_length. rewrite Rplus_comm. do 2 f_equal. apply rsum_ext. intros l Hl. rewrite (nth_map_seq_gen (gr _)) by lia. reflexivity.
Qed.

(** a rejected trial *)
Lemma reject_ghost c d n F s ps h co phi p yp wt e knew co' phi' i : ghost d n F s ps -> s_h s = Fin h -> 0 < d * h -> sinv c s -> trial_data c s co phi p yp wt e knew ->
  restore_spec co phi (s_k s) (Fin h) co' phi' -> (retry_k (S i) knew <= s_k s)%nat -> 
  ghost d n F (rejected s co' phi' p yp wt e knew i) ps /\
  (forall j, (j < s_k s)%nat -> colx phi' j = colx (s_phi s) j) /\ (forall j, (j + 1 < s_k s)%nat -> cellx (psi co') j = cellx (psi (s_co s)) j).
Proof.
  intros GH Eh Hh SI TD RS Hk'. destruct (trial_real c d n F s ps h co phi p yp wt e knew GH Eh Hh SI TD) as (CR & PH & ST & _).
  destruct GH as [G1 G2 G3 G4 G5 G6 G7 G8 G9].
  assert (R1 : forall j, (j < s_k s)%nat -> reals n (colx phi' j) (mdd F ps j)).
  { intros j Hj. rewrite (rs_lo _ _ _ _ _ _ RS) by lia. rewrite (cr_beta _ _ _ _ CR) by lia.
    assert (NZ : bratio ps (pt ps 0 + h) j <> 0). { unfold bratio. pose proof (new_nz d ps h j G4 Hh ltac:(lia)). pose proof (pback_nz d ps j G4 ltac:(lia)). unfold Rdiv. apply Rmult_integral_contrapositive_currified; [assumption|apply Rinv_neq_0_compat; assumption]. }
    eapply reals_ext; [apply reals_divr; [exact NZ|]; apply reals_sub; [apply PH; lia|apply PH; lia]|].
    intros q Hq. cbn beta. replace (j + 1)%nat with (S j) by lia. cbn [rsum]. unfold mdd, sdd, bratio. pose proof (new_nz d ps h j G4 Hh ltac:(lia)). pose proof (pback_nz d ps j G4 ltac:(lia)). field. split; assumption. }
  assert (R2 : forall j, (j + 1 < s_k s)%nat -> cellx (psi co') j = Fin (pt ps 0 - pt ps (j + 1))).
  { intros j Hj. rewrite (rs_psi _ _ _ _ _ _ RS). replace (j + 1 <? s_k s)%nat with true by (symmetry; apply Nat.ltb_lt; lia). rewrite (cr_psi _ _ _ _ CR) by lia. rewrite finsub. f_equal. lra. }
  split; [|split].
  - constructor; cbn [rejected s_t s_y s_hold s_k s_phi s_co s_kold]; try assumption; try lia.
    + intros j Hj. apply R1. lia.
    + intros j Hj. apply R2. lia.
    + left. reflexivity.
  - intros j Hj. eapply reals_unique; [apply R1; lia|apply G7; lia].
  - intros j Hj. rewrite R2, G8 by lia. reflexivity.
Qed.

Lemma lifts_reals n F g (t : R) y r : lifts n F g -> reals n y r -> exists l, y = map Fin l /\ length l = n /\ (forall q, (q < n)%nat -> nth q l 0 = r q) /\ g (Fin t) y = map Fin (F t l) /\ length (F t l) = n.
Proof. intros HL (l & -> & L & N). destruct (HL t l L) as (L2 & E). exists l. auto. Qed.

(** an accepted step with predicted value p and new value y' *)
Definition corr_real (n : nat) (F : R -> list R -> list R) (ps : pts_t) (h : R) (k : nat) (p : list R) (q : nat) : R :=
  pred_real n F ps h k q + h * gr (fun j => h / (pt ps 0 + h - pt ps j)) k * (nth q (F (pt ps 0 + h) p) 0 - rsum k (fun l => sdd F ps (pt ps 0 + h) l q)).

Lemma accept_ghost c d n F s ps h co phi p yp wt e knew x cl s' : lifts n F (s_fn c) -> ghost d n F s ps -> s_h s = Fin h -> 0 < d * h -> sinv c s -> trial_data c s co phi p yp wt e knew ->
  x = nadd RX (s_t s) (s_h s) -> accept_spec c s co phi p yp wt (s_k s) x (s_h s) cl s' ->
  exists pr yr, p = map Fin pr /\ length pr = n /\ s_y s' = map Fin yr /\ length yr = n /\
    (forall q, (q < n)%nat -> nth q pr 0 = pred_real n F ps h (s_k s) q) /\
    (forall q, (q < n)%nat -> nth q yr 0 = corr_real n F ps h (s_k s) pr q) /\
    ghost d n F s' ((pt ps 0 + h, yr) :: ps).
Proof.
  intros HL GH Eh Hh SI TD Ex AS. destruct (trial_real c d n F s ps h co phi p yp wt e knew GH Eh Hh SI TD) as (CR & PH & ST & RP & GG & EQ1 & EQ2).
  destruct GH as [G1 G2 G3 G4 G5 G6 G7 G8 G9]. destruct (si_co _ _ SI) as (_ & Hk & _).
  set (t1 := pt ps 0 + h) in *. assert (Ex1 : x = Fin t1) by (rewrite Ex, G2, Eh; reflexivity).
  destruct AS as [A1 A2 A3 A4 A5 A6 A7 A8 A9 A10 A11 A12 A13 A14 A15].
  destruct (lifts_reals n F (s_fn c) t1 p _ HL RP) as (pr & Ep & Lp & Np & Eg & Lg).
  assert (Eyp : yp = map Fin (F t1 pr)) by (rewrite (td_yp _ _ _ _ _ _ _ _ _ TD), G2, Eh; exact Eg).
  assert (P0 := PH 0%nat ltac:(lia)).
  assert (RY : reals n (s_y s') (corr_real n F ps h (s_k s) pr)).
  { rewrite A2. unfold corrected. rewrite Eh, GG by lia. rewrite finmul, Eyp. eapply reals_ext; [apply reals_add; [apply reals_scale; apply reals_sub; [apply (reals_intro n (F t1 pr) Lg)|exact P0]|exact RP]|].
    intros q Hq. cbn beta. unfold corr_real. fold t1. cbn [rsum]. ring. }
  destruct (lifts_reals n F (s_fn c) t1 (s_y s') _ HL RY) as (yr & Ey & Ly & Ny & Egy & Lgy).
  exists pr, yr. do 4 (split; [assumption|]). split; [exact Np|]. split; [exact Ny|].
  assert (D' : decr d ((t1, yr) :: ps)).
  { intros j Hj. cbn [length] in Hj. destruct j as [|j]; [change (0 < d * (t1 - pt ps 0)); unfold t1; replace (pt ps 0 + h - pt ps 0) with h by lra; exact Hh|]. apply (G4 j). lia. }
  assert (Eyp' : s_yp s' = map Fin (F t1 yr)) by (rewrite A8, Ex1; exact Egy).
  assert (RKk : forall i, (i <= s_k s)%nat -> forall q, nth q (F t1 yr) 0 - rsum i (fun l => sdd F ps t1 l q) = mdd F ((t1, yr) :: ps) i q).
  { intros i Hi q. unfold mdd. rewrite dd_cons, pback_cons. cbn [fst snd]. symmetry. apply newton_rem. intros j Hj E. pose proof (decr_new d ps h j G4 Hh ltac:(lia)) as X. fold t1 in X. rewrite E in X. replace (pt ps j - pt ps j) with 0 in X by lra. lra. }
  assert (Ck : reals n (colx (s_phi s') (s_k s)) (mdd F ((t1, yr) :: ps) (s_k s))).
  { rewrite A10, Eyp'. eapply reals_ext; [apply reals_sub; [apply (reals_intro n (F t1 yr) Lgy)|exact P0]|]. intros q Hq. cbn beta. cbn [rsum]. rewrite <- RKk by lia. ring. }
  constructor.
  - cbn; lia.
  - rewrite A1, Ex1. reflexivity.
  - split; [exact Ey|exact Ly].
  - exact D'.
  - rewrite A4, Eh. cbn [length]. destruct ps as [|p0 ps]; [cbn in G1; lia|]. cbn [length Nat.eqb]. f_equal. unfold t1, pt. cbn. lra.
  - cbn [length]. lia.
  - intros i Hi. destruct (Nat.eq_dec i (s_k s)) as [->|N]; [exact Ck|]. rewrite A11 by lia. eapply reals_ext; [apply reals_add; [apply PH; lia|exact Ck]|]. intros q Hq. cbn beta. rewrite <- !RKk by lia. ring.
  - intros i Hi. rewrite A6. rewrite (cr_psi _ _ _ _ CR) by lia. replace (i + 1)%nat with (S i) by lia. reflexivity.
  - right. split; [cbn [length]; lia|]. rewrite A6, A5. unfold ns_next. pose proof (cr_ns _ _ _ _ CR) as N1.
    assert (EH : pt ((t1, yr) :: ps) 0 - pt ((t1, yr) :: ps) 1 = h) by (unfold t1, pt; cbn; lra). rewrite EH.
    assert (SH : forall cc, eqs co ps h cc -> (forall i, (i <= S cc)%nat -> pt ((t1, yr) :: ps) 0 - pt ((t1, yr) :: ps) i = h * INR i)).
    { intros cc [_ Q _] i Hi. destruct i as [|i]; [cbn [INR]; ring|]. specialize (Q i ltac:(lia)). rewrite S_INR. change (pt ((t1, yr) :: ps) (S i)) with (pt ps i). change (pt ((t1, yr) :: ps) 0) with t1. unfold t1. lra. }
    destruct (Nat.leb_spec (ns co) (s_k s)) as [Hle|Hgt].
    + destruct (EQ1 ps co eq_refl eq_refl Hle) as (Q & QP & QB & QA). replace (S (ns co) - 1)%nat with (ns co) by lia. constructor.
      * cbn [length]. pose proof (eq_m _ _ _ _ Q). lia.
      * intros i Hi. apply (SH _ Q). lia.
      * intros i Hi. destruct (Nat.eq_dec i (ns co - 1)) as [->|N]; [|apply (eq_arr _ _ _ _ Q); lia]. replace (ns co - 1 + 1)%nat with (ns co) by lia. auto.
    + pose proof (EQ2 Hgt) as Q. constructor.
      * cbn [length]. pose proof (eq_m _ _ _ _ Q). lia.
      * intros i Hi. apply (SH _ Q). lia.
      * apply (eq_arr _ _ _ _ Q).
Qed.

(** *** what the values mean: integrals of interpolating polynomials *)
Lemma decr_distinct d ps k : decr d ps -> (k <= length ps)%nat -> distinct (pt ps) k.
Proof. intros D L i j Hi Hj E. pose proof (decr_lt d ps i j D Hi ltac:(lia)) as X. rewrite E in X. replace (pt ps j - pt ps j) with 0 in X by lra. lra. Qed.
Lemma decr_outside d ps h k : d = 1 \/ d = -1 -> decr d ps -> 0 < d * h -> (k <= length ps)%nat -> outside (pt ps) (pt ps 0 + h) k.
Proof.
  intros Hd D Hh L j x Hj Hx E. subst x. assert (X : 0 <= d * (pt ps 0 - pt ps j)). { destruct j as [|j]; [lra|]. left. apply (decr_lt d); [exact D|lia|lia]. }
  destruct Hd as [-> | ->].
  - rewrite Rmin_left, Rmax_right in Hx by lra. lra.
  - rewrite Rmin_right, Rmax_left in Hx by lra. lra.
Qed.

(** S has degree <= deg and its derivative has the values of the right-hand side (component q) at the k newest points *)
Definition interpolates (F : R -> list R -> list R) (ps : pts_t) (q k : nat) (S : list R) : Prop :=
  forall j, (j < k)%nat -> peval (pderiv S) (pt ps j) = nth q (F (pt ps j) (py ps j)) 0.

Theorem pred_meaning d n F ps h k q S : d = 1 \/ d = -1 -> decr d ps -> 0 < d * h -> (1 <= k <= length ps)%nat ->
  (length S <= k + 1)%nat -> interpolates F ps q k S -> pred_real n F ps h k q = nth q (py ps 0) 0 + (peval S (pt ps 0 + h) - peval S (pt ps 0)).
Proof.
  intros Hd D Hh Hk HS HI. unfold pred_real. f_equal.
  assert (N : forall j, (j < k)%nat -> pt ps 0 + h <> pt ps j) by (intros j Hj E; pose proof (decr_new d ps h j D Hh ltac:(lia)) as X; rewrite E in X; replace (pt ps j - pt ps j) with 0 in X by lra; lra).
  pose proof (predictor_exact (pt ps) (pt ps 0 + h) (fun j => h / (pt ps 0 + h - pt ps j)) (pf F ps q) k S) as P.
  rewrite P; [replace (pt ps 0 + h - pt ps 0) with h by lra; reflexivity|lia|apply (decr_distinct d); [exact D|lia]|exact N|apply (decr_outside d); [exact Hd|exact D|exact Hh|lia]| |exact HS|].
  - intros j Hj. replace (pt ps 0 + h - pt ps 0) with h by lra. reflexivity.
  - intros j Hj. unfold pf. symmetry. apply HI. exact Hj.
Qed.
Theorem corr_meaning d n F ps h k q p S : d = 1 \/ d = -1 -> decr d ps -> 0 < d * h -> (1 <= k <= length ps)%nat ->
  (length S <= k + 2)%nat -> interpolates F ps q k S -> peval (pderiv S) (pt ps 0 + h) = nth q (F (pt ps 0 + h) p) 0 ->
  corr_real n F ps h k p q = nth q (py ps 0) 0 + (peval S (pt ps 0 + h) - peval S (pt ps 0)).
Proof.
  intros Hd D Hh Hk HS HI HE. unfold corr_real, pred_real. rewrite Rplus_assoc. f_equal.
  assert (N : forall j, (j < k)%nat -> pt ps 0 + h <> pt ps j) by (intros j Hj E; pose proof (decr_new d ps h j D Hh ltac:(lia)) as X; rewrite E in X; replace (pt ps j - pt ps j) with 0 in X by lra; lra).
  pose proof (corrector_exact (pt ps) (pt ps 0 + h) (fun j => h / (pt ps 0 + h - pt ps j)) (pf F ps q) (nth q (F (pt ps 0 + h) p) 0) k S) as P.
  rewrite P; [replace (pt ps 0 + h - pt ps 0) with h by lra; reflexivity|lia|apply (decr_distinct d); [exact D|lia]|exact N|apply (decr_outside d); [exact Hd|exact D|exact Hh|lia]| |exact HS| |symmetry; exact HE].
  - intros j Hj. replace (pt ps 0 + h - pt ps 0) with h by lra. reflexivity.
  - intros j Hj. unfold pf. symmetry. apply HI. exact Hj.
Qed.

(** *** rejected trials within one step *)
Lemma rejects_ghost c tb d ms n F s i s' i' t h h' ps : scfg c tb d -> rejects c (Fin ms) s i s' i' -> hinv c d s t h -> ghost d n F s ps -> s_h s' = Fin h' -> h' <> 0 ->
  ghost d n F s' ps /\ 0 < d * h' /\ (s_k s' <= s_k s)%nat /\
  (forall j, (j < s_k s')%nat -> colx (s_phi s') j = colx (s_phi s) j) /\ (forall j, (j + 1 < s_k s')%nat -> cellx (psi (s_co s')) j = cellx (psi (s_co s)) j).
Proof.
  intros C H. revert t h. induction H as [s i|s i s1 s' i' E H IH]; intros t h I G Eh' Nh'.
  - split; [exact G|]. pose proof (hi_h _ _ _ _ _ I) as Eh. rewrite Eh' in Eh. injection Eh as <-. split; [|auto]. pose proof (hi_d _ _ _ _ _ I). destruct (sc_d _ _ _ C) as [-> | ->]; lra.
  - pose proof (rejects_RX _ _ _ _ _ _ _ _ _ _ C (rjS _ _ _ _ _ _ _ E H) I) as (h2 & I2 & B & _). assert (h2 = h') as -> by (pose proof (hi_h _ _ _ _ _ I2) as Q; rewrite Eh' in Q; injection Q; auto).
    assert (Nh : h <> 0). { intros ->. rewrite Rabs_R0 in B. pose proof (Rabs_pos_lt h' Nh'). pose proof (pow_lt 2 (i' - i) ltac:(lra)). nra. }
    assert (Hh : 0 < d * h). { pose proof (hi_d _ _ _ _ _ I). destruct (sc_d _ _ _ C) as [-> | ->]; lra. }
    pose proof (hi_s _ _ _ _ _ I) as SI. pose proof (hi_h _ _ _ _ _ I) as Eh. destruct (trial_again _ _ _ _ _ (sc_kmax _ _ _ C) SI E) as (co & phi & p & yp & wt & e & knew & co' & phi' & TD & _ & RS & Es & X & _).
    rewrite Eh in RS. destruct (td_knew _ _ _ _ _ _ _ _ _ TD) as (_ & Kn & _). destruct (si_co _ _ SI) as (_ & Hk & _).
    assert (Hk' : (retry_k (S i) knew <= s_k s)%nat) by (unfold retry_k; destruct (3 <=? S i)%nat; lia).
    destruct (reject_ghost c d n F s ps h co phi p yp wt e knew co' phi' i G Eh Hh SI TD RS Hk') as (G1 & R1 & R2). rewrite <- Es in G1.
    assert (K1 : s_k s1 = retry_k (S i) knew) by (rewrite Es; reflexivity).
    assert (I1 : hinv c d s1 t (h * (match s_h s1 with Fin x => x | _ => 0 end / h))).
    { destruct (retry_h_RX (S i) (erk e) h) as (q & Eq & Hq). assert (Es1 : s_h s1 = Fin (h * q)) by (rewrite Es; cbn [rejected s_h]; rewrite Eh; exact Eq). rewrite Es1. replace (h * (h * q / h)) with (h * q) by (field; exact Nh).
      constructor; [rewrite Es; exact (hi_t _ _ _ _ _ I)|exact Es1|nra|exact X]. }
    destruct (IH _ _ I1 G1 Eh' Nh') as (G2 & D2 & K2 & R3 & R4). split; [exact G2|]. split; [exact D2|]. split; [lia|]. split.
    + intros j Hj. rewrite R3 by lia. rewrite Es. cbn [rejected s_phi]. apply R1. lia.
    + intros j Hj. rewrite R4 by lia. rewrite Es. cbn [rejected s_co with_ns psi]. apply R2. lia.
Qed.

Lemma started_ghost c d n F s ps h : ghost d n F s ps -> ghost d n F (started c s h) ps.
Proof. intros [G1 G2 G3 G4 G5 G6 G7 G8 G9]. unfold started. destruct (kle4_step c s). constructor; assumption. Qed.
Lemma started_fields (c : SCfg RX) s h : s_k (started c s h) = s_k s /\ s_phi (started c s h) = s_phi s /\ s_co (started c s h) = s_co s /\ s_y (started c s h) = s_y s /\ s_kold (started c s h) = s_kold s.
Proof. unfold started. destruct (kle4_step c s). repeat split. Qed.

(** one step *)
Lemma step_ghost c tb d n F s t h ps fuel s' t' : lifts n F (s_fn c) -> scfg c tb d -> hinv c d s t h -> 0 < d * (tb - t) -> ghost d n F s ps ->
  smin t < Rabs (tb - t) -> swag_step fuel c s = IDone s' -> s_t s' = Fin t' -> t' <> t ->
  exists k hs pr yr, t' = t + hs /\ 0 < d * hs /\ k = s_kold s' /\ (1 <= k <= length ps)%nat /\ (k <= s_k s)%nat /\ s_y s' = map Fin yr /\ length yr = n /\ length pr = n /\
    In (Fin t', map Fin pr) (s_calls s') /\
    (forall q, (q < n)%nat -> nth q pr 0 = pred_real n F ps hs k q) /\
    (forall q, (q < n)%nat -> nth q yr 0 = corr_real n F ps hs k pr q) /\
    ghost d n F s' ((t', yr) :: ps).
Proof.
  intros HL C I Ha G Hfar E Et Nt.
  pose proof (step_cases c s fuel (sc_kmax _ _ _ C) (hi_s _ _ _ _ _ I)) as SC.
  rewrite (min_step_RX s t (hi_t _ _ _ _ _ I)), (hi_t _ _ _ _ _ I), (sc_tb _ _ _ C) in SC. fold (smin t) in SC.
  change (nabs RX (nsub RX (Fin tb) (Fin t))) with (Fin (Rabs (tb + - t))) in SC. replace (tb + - t) with (tb - t) in SC by lra. cbn [nleb RX xleb] in SC.
  destruct SC as [(B & S)|(B & SC)]; [apply Rleb_true in B; lra|].
  destruct SC as [(msg & S)|(B2 & SC)]; [rewrite E in S; discriminate|].
  destruct SC as [S|[(s1 & i1 & s2 & R & T & S)|(s1 & i1 & s2 & R & T & S)]]; rewrite E in S; try discriminate. injection S as <-.
  destruct (trial_h_RX c tb d s t h C (hi_t _ _ _ _ _ I) (hi_h _ _ _ _ _ I) (hi_d _ _ _ _ _ I) Ha) as (h0 & E0 & P1 & _). rewrite E0 in *.
  pose proof (started_hinv c d s t h h0 I P1) as I0. pose proof (started_ghost c d n F s ps (Fin h0 : num RX) G) as G0.
  destruct (rejects_RX _ _ _ _ _ _ _ _ _ _ C R I0) as (h1 & I1 & _).
  pose proof (hi_s _ _ _ _ _ I1) as SI. destruct (trial_accept _ _ _ _ _ (sc_kmax _ _ _ C) SI T) as (co & phi & p & yp & wt & e & knew & TD & _ & _ & AS & _).
  assert (Et' : s_t s' = Fin (t + h1)) by (rewrite (as_t _ _ _ _ _ _ _ _ _ _ _ _ AS), (hi_t _ _ _ _ _ I1), (hi_h _ _ _ _ _ I1); reflexivity).
  assert (t' = t + h1) as -> by (rewrite Et in Et'; injection Et'; auto).
  assert (Nh : h1 <> 0) by (intros ->; apply Nt; lra).
  destruct (rejects_ghost c tb d (smin t) n F _ _ s1 i1 t h0 h1 ps C R I0 G0 (hi_h _ _ _ _ _ I1) Nh) as (G1 & D1 & K1 & _).
  destruct (accept_ghost c d n F s1 ps h1 co phi p yp wt e knew _ _ s' HL G1 (hi_h _ _ _ _ _ I1) D1 SI TD eq_refl AS) as (pr & yr & Ep & Lp & Ey & Ly & Np & Ny & G2).
  assert (Ept : pt ps 0 = t). { pose proof (gh_t _ _ _ _ _ G) as Q. rewrite (hi_t _ _ _ _ _ I) in Q. injection Q; auto. }
  rewrite Ept in G2. destruct (si_co _ _ SI) as (_ & Hk & _). rewrite (proj1 (started_fields c s (Fin h0 : num RX))) in K1.
  exists (s_k s1), h1, pr, yr. split; [reflexivity|]. split; [exact D1|]. split; [symmetry; exact (as_kold _ _ _ _ _ _ _ _ _ _ _ _ AS)|]. split; [pose proof (gh_k _ _ _ _ _ G1); lia|]. split; [exact K1|]. do 3 (split; [assumption|]). split.
  { rewrite (as_calls _ _ _ _ _ _ _ _ _ _ _ _ AS). apply in_or_app. left. apply in_or_app. right. left. rewrite <- Ep, (hi_t _ _ _ _ _ I1), (hi_h _ _ _ _ _ I1). reflexivity. }
  auto.
Qed.

(** construction *)
Lemma init_ghost o j fun_ (t0 tb d : R) y0 n F c s : lifts n F fun_ -> length y0 = n -> junk_ok (Z.to_nat (so_kmax o)) n j ->
  @swag_init RX o j fun_ (Fin t0) (map Fin y0) (Fin tb) = inl (c, s) -> ghost d n F s [(t0, y0)].
Proof.
  intros HL Hy HJ E. assert (HJ' : junk_ok (Z.to_nat (so_kmax o)) (length (map Fin y0 : list (num RX))) j) by (rewrite map_length, Hy; exact HJ).
  destruct (init_inv _ _ _ _ _ _ _ _ E HJ') as (K & I & _ & _ & _ & _ & _ & Et & Ey & Eh & Ek & Eko & _ & Ep & En & _). destruct (HL t0 y0 Hy) as (Lf & Ef).
  constructor.
  - cbn; lia.
  - exact Et.
  - split; [exact Ey|exact Hy].
  - intros i Hi. cbn in Hi. lia.
  - rewrite Eh. cbn [length Nat.eqb]. apply n0_RX.
  - rewrite Ek. cbn; lia.
  - intros i Hi. rewrite Ek in Hi. replace i with 0%nat by lia. rewrite Ep, Ef. eapply reals_ext; [apply (reals_intro n _ Lf)|]. intros q Hq. symmetry. apply Rmult_1_r.
  - intros i Hi. rewrite Ek in Hi. lia.
  - left. exact En.
Qed.
