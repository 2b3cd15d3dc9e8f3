(** Uniform order theorem: exact solutions and the error of a step (continues UOrder.v). *)
From Coq Require Import Reals Lra Psatz Lia List Arith Bool.
From Verif Require Import Series Trees OrderThm OrderRK GOrder UOrder.
Import ListNotations.
Open Scope R_scope.

(** ** elementary differentials are bounded *)
Section Mass.
Variable I : Type.
Variable hh : I -> R.
Notation Oh := (GOrder.Oh I hh).
Variables uU uV : bool.
Variables e d p : nat.
Variable T : I -> nat -> list nat -> R.
Variable ell : I -> nat -> R.
Hypothesis Hell : forall j, (j < e)%nat -> Oh 0 (fun i => ell i j).
Variables pu pv : nat -> option nat.
Hypothesis Hpu : forall j q, pu j = Some q -> (q < d)%nat.
Hypothesis Hpv : forall j q, pv j = Some q -> (q < d)%nat.
Hypothesis HT : forall q m js, (q < d)%nat -> (m < p)%nat -> In js (idx e m) -> Oh 0 (fun i => T i q js).

Lemma isize_pos x : (1 <= isize x)%nat.
Proof. destruct x; simpl; lia. Qed.
Lemma len_fsize fs : (length fs <= fsize fs)%nat.
Proof. induction fs as [|x fs IH]; [simpl; lia|]. cbn [fsize fold_right length]. fold (fsize fs). pose proof (isize_pos x). lia. Qed.
Lemma F_bounded fs : (fsize fs < p)%nat -> forall q, (q < d)%nat -> Oh 0 (fun i => F e (T i) (ell i) pu pv fs q).
Proof.
  assert (HFq : forall fs, (fsize fs < p)%nat -> (forall js, Forall (fun j => (j < e)%nat) js -> Oh 0 (fun i => prodX e (T i) (ell i) pu pv fs js)) ->
     forall q, (q < d)%nat -> Oh 0 (fun i => F e (T i) (ell i) pu pv fs q)).
  { intros gs Hs HP q Hq. unfold F. apply GOrder.Oh_lsum. intros js Hjs. apply Oh_bmul.
    - apply (HT q (length gs)); auto. pose proof (len_fsize gs). lia.
    - apply HP. apply (idx_in e) in Hjs. exact Hjs. }
  assert (G : forall fs, (fsize fs < p)%nat -> forall js, Forall (fun j => (j < e)%nat) js -> Oh 0 (fun i => prodX e (T i) (ell i) pu pv fs js)).
  { apply (forest_ind2 (fun x => (isize x <= p)%nat -> forall j, (j < e)%nat -> Oh 0 (fun i => X e (T i) (ell i) pu pv x j))
      (fun fs => (fsize fs < p)%nat -> forall js, Forall (fun j => (j < e)%nat) js -> Oh 0 (fun i => prodX e (T i) (ell i) pu pv fs js))).
    - intros _ j Hj. simpl. apply Hell; auto.
    - intros gs IH Hs j Hj. cbn [isize] in Hs. fold (fsize gs) in Hs. 
      apply (GOrder.Oh_ext _ _ 0 (fun i => inj pu (F e (T i) (ell i) pu pv gs) j)); [reflexivity|]. unfold inj.
      destruct (pu j) as [q|] eqn:E; [|apply GOrder.Oh_zero]. apply HFq; [lia|apply IH; lia|eauto].
    - intros gs IH Hs j Hj. cbn [isize] in Hs. fold (fsize gs) in Hs.
      apply (GOrder.Oh_ext _ _ 0 (fun i => inj pv (F e (T i) (ell i) pu pv gs) j)); [reflexivity|]. unfold inj.
      destruct (pv j) as [q|] eqn:E; [|apply GOrder.Oh_zero]. apply HFq; [lia|apply IH; lia|eauto].
    - intros _ js _. simpl. apply GOrder.Oh_const.
    - intros x gs HX HP Hs js Hjs. cbn [fsize fold_right] in Hs. fold (fsize gs) in Hs. pose proof (isize_pos x).
      destruct js as [|j js]; [exact (GOrder.Oh_const I hh 1)|]. cbn [prodX]. inversion Hjs; subst.
      apply Oh_bmul; [apply HX; auto; lia|]. apply HP; auto. lia. }
  intros Hs. apply HFq; auto.
Qed.
Lemma mass_bounded n q : (n < p)%nat -> (q < d)%nat -> Oh 0 (fun i => mass uU uV e (T i) (ell i) pu pv n q).
Proof.
  intros Hn Hq. unfold mass. apply GOrder.Oh_lsum. intros fs Hfs. apply FOREST_sound in Hfs. destruct Hfs as (Hs & _).
  apply (GOrder.Oh_le _ _ 0 _ (fun i => F e (T i) (ell i) pu pv fs q)); [|apply F_bounded; auto; lia].
  exists 1. split; [lra|]. intros; rewrite Rabs_Rabsolu; lra.
Qed.
End Mass.

(** ** steps of size h from base points b *)
Section Exact.
Variable B : Type.
Notation I := (B * R)%type.
Notation Oh := (GOrder.Oh I snd).
Notation uasy := (uasy I snd).

Lemma uasy_integrate n (Y g : B -> R -> R) (a : B -> nat -> R) :
  (exists d, 0 < d /\ forall b s, Rabs s < d -> derivable_pt_lim (Y b) s (g b s)) ->
  uasy n (fun i => g (fst i) (snd i)) (fun i => a (fst i)) ->
  uasy (S n) (fun i => Y (fst i) (snd i) - Y (fst i) 0) (fun i r => match r with O => 0 | S r' => a (fst i) r' / INR r end).
Proof.
  intros (d1 & Hd1 & HD) (HAb & HA). split.
  { intros [|r] Hr; [apply GOrder.Oh_zero|]. unfold Rdiv.
    apply (GOrder.Oh_ext _ _ 0 (fun i => / INR (S r) * a (fst i) r)); [intros; ring|]. apply GOrder.Oh_scal. apply HAb. lia. }
  apply GOrder.Oh_pos in HA. destruct HA as (C & d & HC & Hd & H).
  exists C, (Rmin d d1). split; [apply Rmin_case; lra|].
  intros (b & s) Hs. cbn [fst snd] in *. 
  set (P := fun s => rsum n (fun r => a b r / INR (S r) * s ^ (S r))).
  assert (HP : forall s, derivable_pt_lim P s (rsum n (fun r => a b r * s ^ r))).
  { intros x. unfold P. clear. induction n as [|n IH]; simpl rsum.
    - apply derivable_pt_lim_const.
    - apply (derivable_pt_lim_plus (fun s => rsum n (fun r => a b r / INR (S r) * s ^ S r)) (fun s => a b n / INR (S n) * s ^ S n)).
      + exact IH.
      + replace (a b n * x ^ n) with (a b n / INR (S n) * (INR (S n) * x ^ n)).
        * apply derivable_pt_lim_scal. apply (derivable_pt_lim_pow x (S n)).
        * field. apply not_0_INR. lia. }
  assert (E : forall s, rsum (S n) (fun r => match r with O => 0 | S r' => a b r' / INR r end * s ^ r) = P s).
  { intros x. rewrite rsum_split. unfold P. simpl pow at 1. rewrite Rmult_0_l, Rplus_0_l. reflexivity. }
  rewrite E.
  assert (Hsd : Rabs s < d) by (eapply Rlt_le_trans; [exact Hs|apply Rmin_l]).
  assert (Hsd1 : Rabs s < d1) by (eapply Rlt_le_trans; [exact Hs|apply Rmin_r]).
  set (G := fun s => Y b s - P s).
  assert (HG : forall x, Rabs x <= Rabs s -> derivable_pt_lim G x (g b x - rsum n (fun r => a b r * x ^ r))).
  { intros x Hx. apply derivable_pt_lim_minus; [apply HD; lra|apply HP]. }
  assert (HB : forall x, Rabs x <= Rabs s -> Rabs (g b x - rsum n (fun r => a b r * x ^ r)) <= C * Rabs s ^ n).
  { intros x Hx. eapply Rle_trans; [apply (H (b, x)); cbn [snd]; lra|]. apply Rmult_le_compat_l; auto. apply pow_incr. split; [apply Rabs_pos|auto]. }
  assert (P0 : P 0 = 0). { unfold P. apply rsum_zero. intros k _. rewrite pow_i by lia. ring. }
  replace (Y b s - Y b 0 - P s) with (G s - G 0) by (unfold G; rewrite P0; ring).
  destruct (Rtotal_order s 0) as [Hn|[->|Hp]].
  - destruct (MVT_cor2 G (fun x => g b x - rsum n (fun r => a b r * x ^ r)) s 0 Hn) as (x & Hx1 & Hx2).
    { intros x Hx. apply HG. rewrite !Rabs_left1 by lra. lra. }
    replace (G s - G 0) with (- (G 0 - G s)) by ring. rewrite Rabs_Ropp, Hx1, Rabs_mult.
    replace (Rabs (0 - s)) with (Rabs s) by (rewrite <- Rabs_Ropp; f_equal; ring).
    assert (H0 : Rabs x <= Rabs s) by (rewrite !Rabs_left1 by lra; lra).
    specialize (HB x H0). simpl pow. rewrite (Rmult_comm (Rabs s)), <- Rmult_assoc.
    apply Rmult_le_compat_r; [apply Rabs_pos|exact HB].
  - rewrite Rminus_eq_0, Rabs_R0. simpl. rewrite !Rmult_0_l, Rmult_0_r. lra.
  - destruct (MVT_cor2 G (fun x => g b x - rsum n (fun r => a b r * x ^ r)) 0 s Hp) as (x & Hx1 & Hx2).
    { intros x Hx. apply HG. rewrite !Rabs_right by lra. lra. }
    rewrite Hx1, Rabs_mult. replace (Rabs (s - 0)) with (Rabs s) by (f_equal; ring).
    assert (H0 : Rabs x <= Rabs s) by (rewrite !Rabs_right by lra; lra).
    specialize (HB x H0). simpl pow. rewrite (Rmult_comm (Rabs s)), <- Rmult_assoc.
    apply Rmult_le_compat_r; [apply Rabs_pos|exact HB].
Qed.

Variables uU uV : bool.
Variables e d p : nat.
Variable T : B -> nat -> list nat -> R.
Variable ell : B -> nat -> R.
Hypothesis Hell : forall j, (j < e)%nat -> Oh 0 (fun i => ell (fst i) j).
Variables pu pv : nat -> option nat.
Hypothesis Hpu : forall j q, pu j = Some q -> (q < d)%nat.
Hypothesis Hpv : forall j q, pv j = Some q -> (q < d)%nat.
Variable f : (nat -> R) -> nat -> R.
Variable w0 : B -> nat -> R.
Hypothesis HT : utaylor I snd e d f (fun i => w0 (fst i)) (fun i => T (fst i)) p.

Variables K YV YU : B -> R -> nat -> R.
Hypothesis HYV : exists del, 0 < del /\ forall b h, Rabs h < del -> forall q, (q < d)%nat -> derivable_pt_lim (fun x => YV b x q) h (K b h q).
Hypothesis HYU : uU = true -> exists del, 0 < del /\ forall b h, Rabs h < del -> forall q, (q < d)%nat -> derivable_pt_lim (fun x => YU b x q) h (YV b h q - YV b 0 q).
Hypothesis Hb : forall q, (q < d)%nat -> Oh 0 (fun i => K (fst i) (snd i) q).
Hypothesis Hk : exists del, 0 < del /\ forall b h, Rabs h < del -> forall q, (q < d)%nat ->
  K b h q = f (fun j => w0 b j + exact_arg uU uV (ell b) pu pv (YV b) (YU b) h j) q.
Notation Ae := (fun b q r => Acoef uU uV (fun _ => 1) ex_U ex_V e (T b) (ell b) pu pv 0%nat q r).

Lemma uYV_expand n q : (q < d)%nat -> uasy n (fun i => K (fst i) (snd i) q) (fun i r => Ae (fst i) q r) ->
  uasy (S n) (fun i => YV (fst i) (snd i) q - YV (fst i) 0 q) (fun i r => match r with O => 0 | S r' => Ae (fst i) q r' / INR r end).
Proof.
  intros Hq H. apply (uasy_integrate n (fun b h => YV b h q) (fun b h => K b h q) (fun b r => Ae b q r)); auto.
  destruct HYV as (del & Hd & H1). exists del. auto.
Qed.
Lemma uYU_expand n q : uU = true -> (q < d)%nat -> uasy n (fun i => K (fst i) (snd i) q) (fun i r => Ae (fst i) q r) ->
  uasy (S (S n)) (fun i => YU (fst i) (snd i) q - YU (fst i) 0 q)
    (fun i r => match r with O => 0 | S O => 0 | S (S r') => Ae (fst i) q r' / (INR r * INR (r - 1)) end).
Proof.
  intros Hu Hq H.
  apply (uasy_ext I snd (S (S n)) _ (fun i r => match r with O => 0 | S r' => (match r' with O => 0 | S r'' => Ae (fst i) q r'' / INR r' end) / INR r end)).
  { intros i [|[|r]] Hr; [reflexivity|unfold Rdiv; ring|].
    replace (S (S r) - 1)%nat with (S r) by lia. field. split; apply not_0_INR; lia. }
  apply (uasy_integrate (S n) (fun b h => YU b h q) (fun b h => YV b h q - YV b 0 q) (fun b r => match r with O => 0 | S r' => Ae b q r' / INR r end)).
  - destruct (HYU Hu) as (del & Hd & H1). exists del. auto.
  - apply uYV_expand; auto.
Qed.
Theorem uexact_expand q : (q < d)%nat -> uasy p (fun i => K (fst i) (snd i) q) (fun i r => Ae (fst i) q r).
Proof.
  intros Hq.
  assert (Hk' : exists del, 0 < del /\ forall i : I, Rabs (snd i) < del -> forall l q, (l < 1)%nat -> (q < d)%nat ->
    K (fst i) (snd i) q = f (fun j => w0 (fst i) j + exact_arg uU uV (ell (fst i)) pu pv (YV (fst i)) (YU (fst i)) (snd i) j) q).
  { destruct Hk as (del & Hd & H). exists del. split; auto. }
  refine (ubootstrap I snd uU uV 1 (fun _ _ => 1) (fun _ => ex_U) (fun _ => ex_V) e d p (fun i => T (fst i)) (fun i => ell (fst i)) pu pv f (fun i => w0 (fst i)) HT
    (fun _ i => K (fst i) (snd i)) (fun _ i => exact_arg uU uV (ell (fst i)) pu pv (YV (fst i)) (YU (fst i)) (snd i)) _ _ Hk' p (le_n p) 0%nat q _ Hq);
    auto using ex_U_lin, ex_V_lin.
  clear q Hq.
  intros n IH l j Hl Hj. assert (l = 0%nat) by lia. subst l. cbv beta in IH.
  assert (IHq : forall q, (q < d)%nat -> uasy n (fun i => K (fst i) (snd i) q) (fun i r => Ae (fst i) q r)) by (intros; apply (IH 0%nat); auto).
  set (aV := fun q (i : I) r => match r with O => 0 | S r' => Ae (fst i) q r' / INR r end).
  set (aU := fun q (i : I) r => match r with O => 0 | S O => 0 | S (S r') => Ae (fst i) q r' / (INR r * INR (r - 1)) end).
  apply (uasy_ext I snd (S n) _ (fun i r => (shift (fun r => match r with O => ell (fst i) j | _ => 0 end) r
     + opt0 uU (inj pu (fun q => aU q i r) j)) + opt0 uV (inj pv (fun q => aV q i r) j))).
  { intros i r Hr. destruct r as [|r].
    - rewrite Zcoef_0. unfold opt0, inj, aU, aV. simpl. destruct uU, uV, (pu j), (pv j); ring.
    - rewrite Zcoef_S by (intros; auto using ex_U_lin, ex_V_lin). unfold opt0, inj, aU, aV, ex_U, ex_V. simpl shift.
      destruct uU, uV, r, (pu j), (pv j); unfold Rdiv; ring. }
  unfold exact_arg. apply uasy_plus; [apply uasy_plus|].
  - apply (uasy_shift I snd n (fun i => ell (fst i) j) (fun i r => match r with O => ell (fst i) j | _ => 0 end)). apply uasy_const. apply Hell; auto.
  - apply uasy_opt0; intros Hu. apply (uasy_inj I snd d (S n) pu (fun i q => YU (fst i) (snd i) q - YU (fst i) 0 q) aU); auto.
    intros q0 Hq0. apply (uasy_weaken I snd (S (S n))); [lia|]. apply uYU_expand; auto.
  - apply uasy_opt0; intros Hu. apply (uasy_inj I snd d (S n) pv (fun i q => YV (fst i) (snd i) q - YV (fst i) 0 q) aV); auto.
    intros q0 Hq0. apply uYV_expand; auto.
Qed.

(** ** error of a step *)
Variable s : nat.
Variables AU AV : B -> nat -> nat -> R.
Variable c : B -> nat -> R.
Variable W : R.
Hypothesis BAU : forall b l l', (l < s)%nat -> (l' < s)%nat -> Rabs (AU b l l') <= W.
Hypothesis BAV : forall b l l', (l < s)%nat -> (l' < s)%nat -> Rabs (AV b l l') <= W.
Hypothesis Bc : forall b l, (l < s)%nat -> Rabs (c b l) <= W.
Variable k : nat -> I -> nat -> R.
Hypothesis Kb : forall l q, (l < s)%nat -> (q < d)%nat -> Oh 0 (fun i => k l i q).
Hypothesis Kk : exists del, 0 < del /\ forall i : I, Rabs (snd i) < del -> forall l q, (l < s)%nat -> (q < d)%nat ->
  k l i q = f (fun j => w0 (fst i) j + ustage_arg I snd uU uV (fun i => ell (fst i)) pu pv s (fun i => AU (fst i)) (fun i => AV (fst i)) (fun i => c (fst i)) k l i j) q.

Lemma Oh0_bd (g : B -> R) : (forall b, Rabs (g b) <= W) -> Oh 0 (fun i => g (fst i)).
Proof. intros H. apply (Oh0_of I snd _ W 1); [lra|]. intros; apply H. Qed.
Lemma stages_uasy l q : (l < s)%nat -> (q < d)%nat -> uasy p (fun i => k l i q)
  (fun i r => Acoef uU uV (c (fst i)) (st_op s (AU (fst i))) (st_op s (AV (fst i))) e (T (fst i)) (ell (fst i)) pu pv l q r).
Proof.
  intros Hl Hq. refine (ustages_expand I snd uU uV e d p (fun i => T (fst i)) (fun i => ell (fst i)) Hell pu pv Hpu Hpv f (fun i => w0 (fst i)) HT s
   (fun i => AU (fst i)) (fun i => AV (fst i)) (fun i => c (fst i)) _ _ _ k Kk Kb l q Hl Hq).
  - intros a b Ha Hb'. apply (Oh0_bd (fun x => AU x a b)). auto.
  - intros a b Ha Hb'. apply (Oh0_bd (fun x => AV x a b)). auto.
  - intros a Ha. apply (Oh0_bd (fun x => c x a)). auto.
Qed.

Variable b : B -> nat -> R.
Hypothesis Bb : forall x l, (l < s)%nat -> Rabs (b x l) <= W.
Variable eps : B -> R.
Hypothesis Heps : forall x, 0 <= eps x.
Notation Ak := (fun x l q r => Acoef uU uV (c x) (st_op s (AU x)) (st_op s (AV x)) e (T x) (ell x) pu pv l q r).

Lemma ucomb m q : (q < d)%nat -> (m <= p)%nat ->
  Oh m (fun i => rsum s (fun l => b (fst i) l * k l i q) - rsum m (fun r => rsum s (fun l => b (fst i) l * Ak (fst i) l q r) * snd i ^ r)).
Proof.
  intros Hq Hm.
  assert (H : uasy m (fun i => rsum s (fun l => b (fst i) l * k l i q)) (fun i r => rsum s (fun l => b (fst i) l * Ak (fst i) l q r))).
  { apply (uasy_rsum I snd m s (fun l i => b (fst i) l * k l i q) (fun l i r => b (fst i) l * Ak (fst i) l q r)). intros l Hl.
    apply (uasy_scal I snd m (fun i => b (fst i) l)); [apply (Oh0_bd (fun x => b x l)); auto|].
    apply (uasy_weaken I snd p m); auto. apply stages_uasy; auto. }
  exact (proj2 H).
Qed.

Theorem u_order_V m q : (q < d)%nat -> (m <= p)%nat -> (forall x, near_V uU uV s (AU x) (AV x) (c x) (eps x) (b x) m) ->
  exists C del, 0 <= C /\ 0 < del /\ forall x h, Rabs h < del ->
    Rabs (h * rsum s (fun l => b x l * k l (x, h) q) - (YV x h q - YV x 0 q)) <= C * (eps x * Rabs h + Rabs h ^ S m).
Proof.
  intros Hq Hm HO.
  destruct (GOrder.Oh_pos _ _ _ _ (ucomb m q Hq Hm)) as (C1 & d1 & HC1 & Hd1 & H1).
  destruct (uYV_expand m q Hq (uasy_weaken I snd p m _ _ Hm (uexact_expand q Hq))) as (_ & HE).
  destruct (GOrder.Oh_pos _ _ _ _ HE) as (C2 & d2 & HC2 & Hd2 & H2).
  assert (HM : Oh 0 (fun i => rsum m (fun n => mass uU uV e (T (fst i)) (ell (fst i)) pu pv n q))).
  { apply GOrder.Oh_rsum. intros n Hn. apply (mass_bounded I snd uU uV e d p (fun i => T (fst i)) (fun i => ell (fst i)) Hell pu pv Hpu Hpv); auto; [|lia].
    intros q' m' js Hq' Hm' Hjs. exact (proj1 (HT q' Hq') m' js Hm' Hjs). }
  destruct (Oh0_at _ _ _ HM) as (C3 & d3 & HC3 & Hd3 & H3).
  exists (C1 + C2 + C3), (Rmin (Rmin d1 d2) d3). split; [lra|]. split; [apply Rmin_case; [apply Rmin_case; lra|lra]|]. intros x h Hh.
  assert (A1 : Rabs h < d1) by (eapply Rlt_le_trans; [exact Hh|eapply Rle_trans; [apply Rmin_l|apply Rmin_l]]).
  assert (A2 : Rabs h < d2) by (eapply Rlt_le_trans; [exact Hh|eapply Rle_trans; [apply Rmin_l|apply Rmin_r]]).
  assert (A3 : Rabs h < d3) by (eapply Rlt_le_trans; [exact Hh|apply Rmin_r]).
  specialize (H1 (x, h) A1). specialize (H2 (x, h) A2). specialize (H3 (x, h) A3). cbn [fst snd] in *. rewrite rsum_split in H2.
  pose proof (near_poly uU uV e (T x) (ell x) pu pv s (AU x) (AV x) (c x) (eps x) (b x) m q (fun n => / INR (S n)) h
    (fun n Hn => near_coef uU uV e (T x) (ell x) pu pv s (AU x) (AV x) (c x) (eps x) (b x) q n (/ INR (S n)) (fun fs Hfs => ltac:(rewrite Rmult_comm; exact (HO x n fs Hn Hfs))))) as H4.
  rewrite (rsum_ext m (fun r => Ae x q r / INR (S r) * h ^ S r) (fun r => h * (/ INR (S r) * Ae x q r * h ^ r))) in H2.
  2:{ intros r Hr. rewrite <- tech_pow_Rmult. unfold Rdiv. ring. }
  rewrite rsum_scal in H2.
  set (S1 := rsum s (fun l => b x l * k l (x, h) q)) in *. set (S2 := rsum m (fun n => / INR (S n) * Ae x q n * h ^ n)) in *.
  set (S3 := rsum m (fun n => rsum s (fun l => b x l * Ak x l q n) * h ^ n)) in *.
  assert (He : 0 <= eps x * C3 /\ Rabs (S3 - S2) <= eps x * C3).
  { assert (Hm0 : forall n, 0 <= mass uU uV e (T x) (ell x) pu pv n q) by (intros n; unfold mass; clear; induction (FOREST uU uV n) as [|y l IH]; cbn [lsum]; [lra|pose proof (Rabs_pos (F e (T x) (ell x) pu pv y q)); lra]).
    assert (Hh1 : Rabs h <= 1) by lra. pose proof (Rabs_pos h) as Hh0.
    assert (HS4 : 0 <= rsum m (fun n => mass uU uV e (T x) (ell x) pu pv n q * Rabs h ^ n) <= C3).
    { split; [apply rsum_nonneg; intros; apply Rmult_le_pos; [apply Hm0|apply pow_le; lra]|].
      eapply Rle_trans; [|eapply Rle_trans; [apply Rle_abs|exact H3]]. apply rsum_le. intros n Hn.
      rewrite <- (Rmult_1_r (mass uU uV e (T x) (ell x) pu pv n q)) at 2. apply Rmult_le_compat_l; [apply Hm0|].
      rewrite <- (pow1 n). apply pow_incr. lra. }
    split; [apply Rmult_le_pos; auto|]. eapply Rle_trans; [exact H4|]. apply Rmult_le_compat_l; [apply Heps|lra]. }
  destruct He as (He0 & He1).
  replace (h * S1 - (YV x h q - YV x 0 q)) with ((h * (S1 - S3) + h * (S3 - S2)) - (YV x h q - YV x 0 q - (0 * h ^ 0 + h * S2))) by ring.
  eapply Rle_trans; [apply Rabs_triang|]. rewrite Rabs_Ropp. eapply Rle_trans; [apply Rplus_le_compat_r, Rabs_triang|].
  rewrite !Rabs_mult. pose proof (Rabs_pos h) as P.
  apply (Rmult_le_compat_l _ _ _ P) in H1. apply (Rmult_le_compat_l _ _ _ P) in He1.
  assert (P2 : 0 <= Rabs h ^ S m) by (apply pow_le; auto). rewrite <- (tech_pow_Rmult (Rabs h) m) in *.
  set (z := Rabs h ^ m) in *. set (y := Rabs h) in *. pose proof (Heps x) as He.
  assert (P3 : 0 <= eps x * y) by (apply Rmult_le_pos; auto).
  assert (0 <= C3 * (y * z)) by (apply Rmult_le_pos; auto). assert (0 <= (C1 + C2) * (eps x * y)) by (apply Rmult_le_pos; lra).
  replace ((C1 + C2 + C3) * (eps x * y + y * z)) with ((C1 + C2) * (eps x * y) + y * (C1 * z) + C2 * (y * z) + y * (eps x * C3) + C3 * (y * z)) by ring. lra.
Qed.
Theorem u_order_U m q : uU = true -> (q < d)%nat -> (m <= p)%nat -> (forall x, near_U uU uV s (AU x) (AV x) (c x) (eps x) (b x) m) ->
  exists C del, 0 <= C /\ 0 < del /\ forall x h, Rabs h < del ->
    Rabs (h * (h * rsum s (fun l => b x l * k l (x, h) q)) - (YU x h q - YU x 0 q)) <= C * (eps x * Rabs h + Rabs h ^ S (S m)).
Proof.
  intros Hu Hq Hm HO.
  destruct (GOrder.Oh_pos _ _ _ _ (ucomb m q Hq Hm)) as (C1 & d1 & HC1 & Hd1 & H1).
  destruct (uYU_expand m q Hu Hq (uasy_weaken I snd p m _ _ Hm (uexact_expand q Hq))) as (_ & HE).
  destruct (GOrder.Oh_pos _ _ _ _ HE) as (C2 & d2 & HC2 & Hd2 & H2).
  assert (HM : Oh 0 (fun i => rsum m (fun n => mass uU uV e (T (fst i)) (ell (fst i)) pu pv n q))).
  { apply GOrder.Oh_rsum. intros n Hn. apply (mass_bounded I snd uU uV e d p (fun i => T (fst i)) (fun i => ell (fst i)) Hell pu pv Hpu Hpv); auto; [|lia].
    intros q' m' js Hq' Hm' Hjs. exact (proj1 (HT q' Hq') m' js Hm' Hjs). }
  destruct (Oh0_at _ _ _ HM) as (C3 & d3 & HC3 & Hd3 & H3).
  exists (C1 + C2 + C3), (Rmin (Rmin d1 d2) d3). split; [lra|]. split; [apply Rmin_case; [apply Rmin_case; lra|lra]|]. intros x h Hh.
  assert (A1 : Rabs h < d1) by (eapply Rlt_le_trans; [exact Hh|eapply Rle_trans; [apply Rmin_l|apply Rmin_l]]).
  assert (A2 : Rabs h < d2) by (eapply Rlt_le_trans; [exact Hh|eapply Rle_trans; [apply Rmin_l|apply Rmin_r]]).
  assert (A3 : Rabs h < d3) by (eapply Rlt_le_trans; [exact Hh|apply Rmin_r]).
  specialize (H1 (x, h) A1). specialize (H2 (x, h) A2). specialize (H3 (x, h) A3). cbn [fst snd] in *. rewrite rsum_split, rsum_split in H2.
  pose proof (near_poly uU uV e (T x) (ell x) pu pv s (AU x) (AV x) (c x) (eps x) (b x) m q (fun n => / (INR (S (S n)) * INR (S n))) h
    (fun n Hn => near_coef uU uV e (T x) (ell x) pu pv s (AU x) (AV x) (c x) (eps x) (b x) q n (/ (INR (S (S n)) * INR (S n))) (fun fs Hfs => ltac:(rewrite (Rmult_comm (/ _)); exact (HO x n fs Hn Hfs))))) as H4.
  rewrite (rsum_ext m (fun r => Ae x q r / (INR (S (S r)) * INR (S (S r) - 1)) * h ^ S (S r)) (fun r => h * h * (/ (INR (S (S r)) * INR (S r)) * Ae x q r * h ^ r))) in H2.
  2:{ intros r Hr. replace (S (S r) - 1)%nat with (S r) by lia. rewrite <- !tech_pow_Rmult. unfold Rdiv. ring. }
  rewrite rsum_scal in H2.
  set (S1 := rsum s (fun l => b x l * k l (x, h) q)) in *. set (S2 := rsum m (fun n => / (INR (S (S n)) * INR (S n)) * Ae x q n * h ^ n)) in *.
  set (S3 := rsum m (fun n => rsum s (fun l => b x l * Ak x l q n) * h ^ n)) in *.
  assert (Hh1 : Rabs h <= 1) by lra. pose proof (Rabs_pos h) as Hh0.
  assert (He : 0 <= eps x * C3 /\ Rabs (S3 - S2) <= eps x * C3).
  { assert (Hm0 : forall n, 0 <= mass uU uV e (T x) (ell x) pu pv n q) by (intros n; unfold mass; clear; induction (FOREST uU uV n) as [|y l IH]; cbn [lsum]; [lra|pose proof (Rabs_pos (F e (T x) (ell x) pu pv y q)); lra]).
    assert (HS4 : 0 <= rsum m (fun n => mass uU uV e (T x) (ell x) pu pv n q * Rabs h ^ n) <= C3).
    { split; [apply rsum_nonneg; intros; apply Rmult_le_pos; [apply Hm0|apply pow_le; lra]|].
      eapply Rle_trans; [|eapply Rle_trans; [apply Rle_abs|exact H3]]. apply rsum_le. intros n Hn.
      rewrite <- (Rmult_1_r (mass uU uV e (T x) (ell x) pu pv n q)) at 2. apply Rmult_le_compat_l; [apply Hm0|].
      rewrite <- (pow1 n). apply pow_incr. lra. }
    split; [apply Rmult_le_pos; auto|]. eapply Rle_trans; [exact H4|]. apply Rmult_le_compat_l; [apply Heps|lra]. }
  destruct He as (He0 & He1).
  replace (h * (h * S1) - (YU x h q - YU x 0 q)) with ((h * h * (S1 - S3) + h * h * (S3 - S2)) - (YU x h q - YU x 0 q - (0 * h ^ 0 + (0 * h ^ 1 + h * h * S2)))) by ring.
  eapply Rle_trans; [apply Rabs_triang|]. rewrite Rabs_Ropp. eapply Rle_trans; [apply Rplus_le_compat_r, Rabs_triang|].
  rewrite !Rabs_mult. set (y := Rabs h) in *.
  assert (Py : 0 <= y * y) by nra. 
  apply (Rmult_le_compat_l _ _ _ Py) in H1. apply (Rmult_le_compat_l _ _ _ Py) in He1.
  assert (P2 : 0 <= y ^ m) by (apply pow_le; auto). replace (y ^ S (S m)) with (y * y * y ^ m) in * by (simpl; ring).
  set (z := y ^ m) in *. pose proof (Heps x) as He.
  assert (P3 : 0 <= eps x * y) by (apply Rmult_le_pos; auto).
  assert (0 <= C3 * (y * y * z)) by (repeat apply Rmult_le_pos; auto). assert (0 <= (C1 + C2) * (eps x * y)) by (apply Rmult_le_pos; lra).
  assert (Q : y * y * (eps x * C3) <= y * (eps x * C3)) by (apply Rmult_le_compat_r; [exact He0|]; clear - Hh0 Hh1; nra).
  replace ((C1 + C2 + C3) * (eps x * y + y * y * z)) with ((C1 + C2) * (eps x * y) + y * y * (C1 * z) + C2 * (y * y * z) + y * (eps x * C3) + C3 * (y * y * z)) by ring. lra.
Qed.
End Exact.
