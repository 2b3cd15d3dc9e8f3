(** Facts about the explicit RK stepping model that hold for every [Arith]
    (real, floating point, or any other arithmetic). *)
From Coq Require Import String ZArith QArith Bool Lia List.
From Verif Require Import Arith Common Stiff RK.
Import ListNotations.
Open Scope nat_scope.

Section Gen.
Context {A : Arith}.
Notation num := (num A).
Notation vec := (list num).
Implicit Types (m : Meth A) (c : Cfg A) (s : St A).

(** ** Stages *)

Definition stage_eqs (m : Meth A) (g : num -> vec -> vec) (t : num) (y : vec) (h : num)
           (lo hi : nat) (K : list vec) : Prop :=
  forall i, lo <= i < hi ->
    nth i K [] = g (fst (m_point m t y h (firstn i K) i)) (snd (m_point m t y h (firstn i K) i)).

Definition stage_points (m : Meth A) (t : num) (y : vec) (h : num) (lo k : nat) (K : list vec)
  : list (num * vec) :=
  map (fun i => m_point m t y h (firstn i K) i) (seq lo k).

Lemma firstn_nth_agree {X} (K1 K2 : list X) n i d :
  firstn n K2 = K1 -> length K1 = n -> i < n -> nth i K2 d = nth i K1 d.
Proof.
  intros H1 H2 Hi. subst K1. revert K2 i H2 Hi.
  induction n as [|n IH]; intros [|x K2] i H2 Hi; simpl in *; try lia.
  destruct i; simpl; auto. apply IH; lia.
Qed.

Lemma stages_spec m g t y h k : forall K cl K' cl',
  stages m g t y h k K cl = (K', cl') ->
  length K' = length K + k /\ firstn (length K) K' = K /\
  stage_eqs m g t y h (length K) (length K + k) K' /\
  cl' = cl ++ stage_points m t y h (length K) k K'.
Proof.
  induction k as [|k IH]; intros K cl K' cl' H; simpl in H.
  - inversion H; subst. repeat split; try lia.
    + apply firstn_all.
    + intros i Hi. lia.
    + unfold stage_points. simpl. now rewrite app_nil_r.
  - apply IH in H. rewrite app_length in H. simpl in H.
    destruct H as (HL & HF & HE & HC).
    assert (HF0 : firstn (length K) K' = K).
    { pose proof (f_equal (firstn (length K)) HF) as HF'.
      rewrite firstn_firstn in HF'. rewrite Nat.min_l in HF' by lia.
      rewrite HF'. rewrite firstn_app, firstn_all. rewrite Nat.sub_diag.
      simpl. apply app_nil_r. }
    split; [lia|]. split; [exact HF0|]. split.
    + intros i Hi. destruct (Nat.eq_dec i (length K)) as [->|Hne].
      * rewrite HF0.
        rewrite (firstn_nth_agree _ _ _ _ [] HF) by (rewrite ?app_length; simpl; lia).
        rewrite app_nth2 by lia. rewrite Nat.sub_diag. reflexivity.
      * apply HE. lia.
    + rewrite HC. unfold stage_points. simpl seq. cbn [map].
      rewrite HF0. rewrite <- app_assoc. simpl.
      replace (length K + 1) with (S (length K)) by lia. reflexivity.
Qed.

Lemma stages_app m g t y h k1 : forall k2 K cl,
  stages m g t y h (k1 + k2) K cl =
  let '(K1, cl1) := stages m g t y h k1 K cl in stages m g t y h k2 K1 cl1.
Proof. induction k1; intros; simpl; auto. Qed.

(** ** Accounting of one trial *)

(** the attributes that a trial never touches *)
Definition same_core (s s' : St A) : Prop :=
  t s' = t s /\ y s' = y s /\ f s' = f s /\ h_abs s' = h_abs s /\
  h_previous s' = h_previous s /\ y_old s' = y_old s /\ f_old s' = f_old s /\
  error_norm_old s' = error_norm_old s /\ okstp s' = okstp s /\ havg s' = havg s /\
  ucalls s' = ucalls s /\ notes s' = notes s.

Lemma same_core_refl s : same_core s s.
Proof. repeat split. Qed.

Lemma same_core_trans s1 s2 s3 : same_core s1 s2 -> same_core s2 s3 -> same_core s1 s3.
Proof. unfold same_core. intuition congruence. Qed.

Lemma same_core_with_trial s sc mf jf nf K' cl : same_core s (with_trial s sc mf jf nf K' cl).
Proof. repeat split. Qed.

(** [full_stages]: K holds the n_stages stages of a step of size h from (t,y) *)
Definition full_stages (m : Meth A) (c : Cfg A) (t : num) (y f0 : vec) (h : num) (K : list vec) : Prop :=
  length K = m_stages m /\ nth 0 K [] = f0 /\ stage_eqs m (fn c) t y h 1 (m_stages m) K.

Definition min_stages (m : Meth A) : Prop :=
  match m_pre m with None => 1 <= m_stages m | Some _ => 2 <= m_stages m end.

Lemma trial_inv m c s ha ms rej :
  min_stages m ->
  match trial_step m c s ha ms rej with
  | Abort s' TOO_SMALL_STEP => nltb A ha ms = true /\ s' = s
  | Abort s' OVERFLOW =>
      nltb A ha ms = false /\ same_core s s' /\
      (exists en, (nisnan A en || nisinf A en) = true /\ nltb A en n1 = false)
  | TrialExn e =>
      nltb A ha ms = false /\ standard_sc s = false /\
      (h_previous s = None \/ error_norm_old s = None)
  | Reject s' h' =>
      nltb A ha ms = false /\ same_core s s' /\ standard_sc s' = standard_sc s /\
      max_factor s' = max_factor s /\ nfs s' = S (nfs s) /\
      (exists en, h' = nmul A ha (reject_factor c en) /\
        ((m_pre m <> None /\ nltb A n1 en = true /\
            length (calls s') = length (calls s) + (m_stages m - 2))
         \/ (nltb A en n1 = false /\ nisnan A en = false /\ nisinf A en = false /\
             length (calls s') =
               length (calls s) + (m_stages m - 1) + (if m_fsal m then 1 else 0))))
  | Accept s' h h' tn yn en =>
      nltb A ha ms = false /\ same_core s s' /\ h = nmul A ha (direction c) /\
      tn = nadd A (t s) h /\ nltb A en n1 = true /\ nfs s' = nfs s /\ jflstp s' = jflstp s /\
      (exists Ks, full_stages m c (t s) (y s) (f s) h Ks /\
         yn = m_sol m (y s) h Ks /\
         K s' = (if m_fsal m then Ks ++ [fn c tn yn] else Ks) /\
         en = err_norm c (y s) yn (m_err m h (K s')) /\
         calls s' = calls s ++ stage_points m (t s) (y s) h 1 (m_stages m - 1) Ks
                    ++ (if m_fsal m then [(tn, yn)] else [])) /\
      (exists fac, accept_factor c s (standard_sc s) h en = Factor fac (standard_sc s') /\
         let fac' := if rej then pymin n1 fac else fac in
         h' = nmul A ha fac' /\
         max_factor s' = (if nltb A fac' MAX_FACTOR then MAX_FACTOR else max_factor s))
  end.
Proof.
  intros Hmin. unfold trial_step.
  destruct (nltb A ha ms) eqn:Hsmall; [auto|].
  set (h := nmul A ha (direction c)).
  set (npre := match m_pre m with None => m_stages m - 1 | Some _ => m_stages m - 2 end).
  destruct (stages m (fn c) (t s) (y s) h npre [f s] (calls s)) as [K1 cl1] eqn:HS1.
  pose proof HS1 as HS1'. apply stages_spec in HS1'. simpl length in HS1'.
  destruct HS1' as (HL1 & HF1 & HE1 & HC1).
  set (pre := match m_pre m with None => None | Some g =>
      let '(y_pre, err) := g (y s) h K1 in Some (err_norm c (y s) y_pre err) end).
  destruct (match pre with Some e => nltb A n1 e | None => false end) eqn:Hpre.
  { (* pre-rejection *)
    destruct (m_pre m) as [g|] eqn:Hm.
    2:{ unfold pre in Hpre. discriminate. }
    unfold pre in *. destruct (g (y s) h K1) as [ypre err] eqn:Hg.
    split; [reflexivity|]. split; [apply same_core_with_trial|].
    split; [reflexivity|]. split; [reflexivity|]. split; [reflexivity|].
    eexists. split; [reflexivity|]. left. split; [congruence|].
    split; [exact Hpre|]. simpl. rewrite HC1, app_length.
    unfold stage_points. rewrite map_length, seq_length. unfold npre. lia. }
  assert (HS2 : exists K2 cl2,
     (match m_pre m with None => (K1, cl1)
        | Some _ => stages m (fn c) (t s) (y s) h 1 K1 cl1 end) = (K2, cl2) /\
      full_stages m c (t s) (y s) (f s) h K2 /\
      cl2 = calls s ++ stage_points m (t s) (y s) h 1 (m_stages m - 1) K2).
  { assert (HA : stages m (fn c) (t s) (y s) h (m_stages m - 1) [f s] (calls s) =
       match m_pre m with None => (K1, cl1)
        | Some _ => stages m (fn c) (t s) (y s) h 1 K1 cl1 end).
    { unfold npre, min_stages in *. destruct (m_pre m).
      - replace (m_stages m - 1) with ((m_stages m - 2) + 1) by lia.
        rewrite stages_app. rewrite HS1. reflexivity.
      - exact HS1. }
    rewrite <- HA.
    destruct (stages m (fn c) (t s) (y s) h (m_stages m - 1) [f s] (calls s)) as [K2 cl2] eqn:HS2.
    exists K2, cl2. split; [reflexivity|].
    apply stages_spec in HS2. simpl length in HS2. destruct HS2 as (HL2 & HF2 & HE2 & HC2).
    assert (Hs : 1 <= m_stages m) by (unfold min_stages in Hmin; destruct (m_pre m); lia).
    split; [|exact HC2]. split; [lia|]. split.
    - rewrite (firstn_nth_agree [f s] K2 1 0 [] HF2); auto.
    - intros i Hi. apply HE2. lia. }
  destruct HS2 as (K2 & cl2 & -> & HFS & HC2).
  unfold comp_sol_err.
  destruct (m_fsal m) eqn:Hfsal.
  - set (yn := m_sol m (y s) h K2).
    set (K3 := K2 ++ [fn c (nadd A (t s) h) yn]).
    destruct (nltb A (err_norm c (y s) yn (m_err m h K3)) n1) eqn:Hacc.
    + destruct (accept_factor c s (standard_sc s) h (err_norm c (y s) yn (m_err m h K3)))
        as [fac sc|e] eqn:Hfac.
      * split; [reflexivity|]. split; [apply same_core_with_trial|].
        split; [reflexivity|]. split; [reflexivity|]. split; [exact Hacc|].
        split; [reflexivity|]. split; [reflexivity|]. split.
        -- exists K2. split; [exact HFS|]. split; [reflexivity|]. split; [reflexivity|].
           split; [reflexivity|]. simpl. rewrite HC2, <- app_assoc. reflexivity.
        -- exists fac. split; [exact Hfac|]. split; reflexivity.
      * split; [reflexivity|].
        unfold accept_factor in Hfac.
        destruct (nltb A _ (tiny_err c)); [discriminate|].
        destruct (standard_sc s); [discriminate|].
        split; [reflexivity|].
        destruct (h_previous s); [|auto]. destruct (error_norm_old s); [discriminate|auto].
    + destruct (nisnan A (err_norm c (y s) yn (m_err m h K3)) ||
                nisinf A (err_norm c (y s) yn (m_err m h K3))) eqn:Hbad.
      * split; [reflexivity|]. split; [apply same_core_with_trial|]. eauto.
      * split; [reflexivity|]. split; [apply same_core_with_trial|].
        split; [reflexivity|]. split; [reflexivity|]. split; [reflexivity|].
        eexists. split; [reflexivity|]. right. split; [exact Hacc|].
        apply orb_false_iff in Hbad. destruct Hbad as [Hb1 Hb2].
        split; [exact Hb1|]. split; [exact Hb2|].
        simpl. rewrite HC2, !app_length. unfold stage_points.
        rewrite map_length, seq_length. simpl. lia.
  - set (yn := m_sol m (y s) h K2).
    destruct (nltb A (err_norm c (y s) yn (m_err m h K2)) n1) eqn:Hacc.
    + destruct (accept_factor c s (standard_sc s) h (err_norm c (y s) yn (m_err m h K2)))
        as [fac sc|e] eqn:Hfac.
      * split; [reflexivity|]. split; [apply same_core_with_trial|].
        split; [reflexivity|]. split; [reflexivity|]. split; [exact Hacc|].
        split; [reflexivity|]. split; [reflexivity|]. split.
        -- exists K2. split; [exact HFS|]. split; [reflexivity|]. split; [reflexivity|].
           split; [reflexivity|]. simpl. rewrite HC2, app_nil_r. reflexivity.
        -- exists fac. split; [exact Hfac|]. split; reflexivity.
      * split; [reflexivity|].
        unfold accept_factor in Hfac.
        destruct (nltb A _ (tiny_err c)); [discriminate|].
        destruct (standard_sc s); [discriminate|].
        split; [reflexivity|].
        destruct (h_previous s); [|auto]. destruct (error_norm_old s); [discriminate|auto].
    + destruct (nisnan A (err_norm c (y s) yn (m_err m h K2)) ||
                nisinf A (err_norm c (y s) yn (m_err m h K2))) eqn:Hbad.
      * split; [reflexivity|]. split; [apply same_core_with_trial|]. eauto.
      * split; [reflexivity|]. split; [apply same_core_with_trial|].
        split; [reflexivity|]. split; [reflexivity|]. split; [reflexivity|].
        eexists. split; [reflexivity|]. right. split; [exact Hacc|].
        apply orb_false_iff in Hbad. destruct Hbad as [Hb1 Hb2].
        split; [exact Hb1|]. split; [exact Hb2|].
        simpl. rewrite HC2, !app_length. unfold stage_points.
        rewrite map_length, seq_length. simpl. lia.
Qed.

(** ** diagnose never touches the trajectory *)

Definition same_traj (s s' : St A) : Prop :=
  t s' = t s /\ y s' = y s /\ f s' = f s /\ h_abs s' = h_abs s /\
  max_factor s' = max_factor s /\ standard_sc s' = standard_sc s /\
  h_previous s' = h_previous s /\ y_old s' = y_old s /\ f_old s' = f_old s /\
  error_norm_old s' = error_norm_old s /\ K s' = K s /\ nfs s' = nfs s.

Lemma diagnose_same m c s h yo s' : diagnose m c s h yo = inl s' -> same_traj s s'.
Proof.
  unfold diagnose. intros H.
  destruct (Nat.eqb _ 0); [inversion H; subst; repeat split|].
  destruct (Nat.eqb (S (okstp s)) 20) in H;
  destruct (Nat.eqb (Nat.modulo (S (okstp s)) 40) 39) in H;
  (destruct (Nat.eqb (Nat.div _ _) 0) in H; [discriminate|]);
  (destruct (_ || _) in H;
   [ destruct (m_stab m) in H;
     [ inversion H; subst; repeat split
     | destruct (stiff_a _ _ _ _ _ _ _ _ _ _ _) in H; inversion H; subst; repeat split
     | destruct (stiff_a _ _ _ _ _ _ _ _ _ _ _) in H; inversion H; subst; repeat split ]
   | inversion H; subst; repeat split ]).
Qed.

Lemma diagnose_calls m c s h yo s' : diagnose m c s h yo = inl s' ->
  exists l, calls s' = calls s ++ l /\ (nfev_stiff_detect c = 0 -> l = []).
Proof.
  unfold diagnose. intros H.
  destruct (Nat.eqb _ 0) eqn:E0.
  { inversion H; subst; exists []; rewrite app_nil_r; auto. }
  apply Nat.eqb_neq in E0.
  destruct (Nat.eqb (S (okstp s)) 20) in H;
  destruct (Nat.eqb (Nat.modulo (S (okstp s)) 40) 39) in H;
  (destruct (Nat.eqb (Nat.div _ _) 0) in H; [discriminate|]);
  (destruct (_ || _) in H;
   [ destruct (m_stab m) in H;
     [ inversion H; subst; simpl; eexists; split; [reflexivity|congruence]
     | destruct (stiff_a _ _ _ _ _ _ _ _ _ _ _) in H; inversion H; subst; simpl;
       eexists; split; [reflexivity|congruence]
     | destruct (stiff_a _ _ _ _ _ _ _ _ _ _ _) in H; inversion H; subst; simpl;
       eexists; split; [reflexivity|congruence] ]
   | inversion H; subst; simpl; eexists; split; [reflexivity|congruence] ]).
Qed.

Lemma diagnose_exn m c s h yo e : diagnose m c s h yo = inr e ->
  e = ZeroDivisionError /\ nfev_stiff_detect c <> 0 /\ nfev_stiff_detect c / m_stages m = 0.
Proof.
  unfold diagnose. intros H.
  destruct (Nat.eqb _ 0) eqn:E0; [discriminate|].
  apply Nat.eqb_neq in E0.
  destruct (Nat.eqb (S (okstp s)) 20) in H;
  destruct (Nat.eqb (Nat.modulo (S (okstp s)) 40) 39) in H;
  (destruct (Nat.eqb (Nat.div _ _) 0) eqn:E1 in H;
   [ inversion H; subst; apply Nat.eqb_eq in E1; auto |]);
  (destruct (_ || _) in H;
   [ destruct (m_stab m) in H;
     [ discriminate
     | destruct (stiff_a _ _ _ _ _ _ _ _ _ _ _) in H; discriminate
     | destruct (stiff_a _ _ _ _ _ _ _ _ _ _ _) in H; discriminate ]
   | discriminate ]).
Qed.

Lemma diagnose_zero m c s h yo : nfev_stiff_detect c <> 0 ->
  nfev_stiff_detect c / m_stages m = 0 -> diagnose m c s h yo = inr ZeroDivisionError.
Proof.
  unfold diagnose. intros H0 H1.
  apply Nat.eqb_neq in H0. rewrite H0, H1.
  destruct (Nat.eqb (S (okstp s)) 20); destruct (Nat.eqb (Nat.modulo (S (okstp s)) 40) 39);
    reflexivity.
Qed.

(** ** A whole successful step *)

(** [accepted m c s s' h]: s' results from accepting a step of size h from s *)
Record accepted (m : Meth A) (c : Cfg A) (s s' : St A) (h : num) (Ks : list vec) (en : num) : Prop := {
  ac_stages : full_stages m c (t s) (y s) (f s) h Ks;
  ac_t : t s' = nadd A (t s) h;
  ac_y : y s' = m_sol m (y s) h Ks;
  ac_K : K s' = Ks ++ [fn c (t s') (y s')];
  ac_f : f s' = fn c (t s') (y s');
  ac_err : en = err_norm c (y s) (y s')
                 (m_err m h (if m_fsal m then K s' else Ks));
  ac_lt : nltb A en n1 = true;
  ac_enold : error_norm_old s' = Some en;
  ac_hprev : h_previous s' = Some h;
  ac_yold : y_old s' = Some (y s);
  ac_fold : f_old s' = Some (f s)
}.

Lemma finish_done m c s0 s h h' tn yn en s' Ks :
  same_core s0 s ->
  full_stages m c (t s0) (y s0) (f s0) h Ks ->
  tn = nadd A (t s0) h ->
  yn = m_sol m (y s0) h Ks ->
  K s = (if m_fsal m then Ks ++ [fn c tn yn] else Ks) ->
  en = err_norm c (y s0) yn (m_err m h (K s)) ->
  nltb A en n1 = true ->
  finish m c s h h' tn yn en = Done s' ->
  accepted m c s0 s' h Ks en /\ h_abs s' = h' /\ standard_sc s' = standard_sc s /\
  max_factor s' = max_factor s /\ nfs s' = nfs s /\
  (exists l, calls s' = calls s ++ (if m_fsal m then [] else [(tn, yn)]) ++ l /\
             (nfev_stiff_detect c = 0 -> l = [])).
Proof.
  intros HC HF Ht Hy HK He Hlt H.
  destruct HC as (Ct & Cy & Cf & _).
  unfold finish in H. destruct HF as [HL [HF0 HFe]].
  destruct (m_fsal m) eqn:Hfs.
  - match type of H with context [diagnose m c ?x h ?yo] =>
      destruct (diagnose m c x h yo) as [s2|] eqn:Hd; [|discriminate] end.
    inversion H; subst s2; clear H.
    pose proof (diagnose_calls _ _ _ _ _ _ Hd) as (l & Hl & Hl0).
    apply diagnose_same in Hd.
    unfold same_traj in Hd; simpl in Hd, Hl.
    destruct Hd as (D1&D2&D3&D4&D5&D6&D7&D8&D9&D10&D11&D12).
    split; [|split; [|split; [|split; [|split]]]]; try congruence.
    2:{ exists l. split; [|exact Hl0]. rewrite Hl. reflexivity. }
    split; rewrite ?Hfs.
    + split; [|split]; auto.
    + congruence.
    + congruence.
    + rewrite D11, D1, D2. exact HK.
    + rewrite D3, D1, D2. rewrite HK. rewrite app_nth2 by lia.
      rewrite HL, Nat.sub_diag. reflexivity.
    + rewrite D2, D11. exact He.
    + exact Hlt.
    + exact D10.
    + exact D7.
    + rewrite D8. congruence.
    + rewrite D9. congruence.
  - match type of H with context [diagnose m c ?x h ?yo] =>
      destruct (diagnose m c x h yo) as [s2|] eqn:Hd; [|discriminate] end.
    inversion H; subst s2; clear H.
    pose proof (diagnose_calls _ _ _ _ _ _ Hd) as (l & Hl & Hl0).
    apply diagnose_same in Hd.
    unfold same_traj in Hd; simpl in Hd, Hl.
    destruct Hd as (D1&D2&D3&D4&D5&D6&D7&D8&D9&D10&D11&D12).
    assert (Htn : nadd A (t s) h = tn) by (rewrite Ct; auto).
    split; [|split; [|split; [|split; [|split]]]]; try congruence.
    2:{ exists l. split; [|exact Hl0]. rewrite Hl, Htn.
        rewrite <- app_assoc. reflexivity. }
    split; rewrite ?Hfs.
    + split; [|split]; auto.
    + congruence.
    + congruence.
    + rewrite D11, D1, D2, HK, Htn. reflexivity.
    + rewrite D3, D1, D2, HK, Htn. rewrite app_nth2 by lia.
      rewrite HL, Nat.sub_diag. reflexivity.
    + rewrite D2. rewrite HK in He. exact He.
    + exact Hlt.
    + exact D10.
    + exact D7.
    + rewrite D8. congruence.
    + rewrite D9. congruence.
Qed.

(** cost of [k1] pre-rejected, [k2] rejected and one accepted trial *)
Definition cost_of (m : Meth A) (k1 k2 : nat) : nat :=
  k1 * (m_stages m - 2) + k2 * (m_stages m - 1 + (if m_fsal m then 1 else 0)) + m_stages m.

(** trial states inside one step() share everything that matters *)
Lemma rk_loop_done m c fuel : min_stages m -> forall s ha ms rej s',
  rk_loop fuel m c s ha ms rej = Done s' ->
  exists h Ks en ha', accepted m c s s' h Ks en /\ h = nmul A ha' (direction c) /\
    nltb A ha' ms = false.
Proof.
  intros Hmin. induction fuel as [|fuel IH]; intros s ha ms rej s' H; simpl in H; [discriminate|].
  pose proof (trial_inv m c s ha ms rej Hmin) as HT.
  destruct (trial_step m c s ha ms rej) as [s1 h h1 tn yn en|s1 h1|s1 msg|e]; try discriminate.
  - destruct HT as (H0 & HC & Hh & Ht & Hlt & _ & _ & (Ks & HF & Hy & HK & He & _) & _).
    subst tn.
    destruct (finish_done m c s s1 h h1 _ yn en s' Ks HC HF eq_refl Hy HK He Hlt H) as (HA & _).
    exists h, Ks, en, ha. auto.
  - destruct HT as (H0 & HC & _).
    apply IH in H. destruct H as (h & Ks & en & ha' & HA & Hh & Hm).
    exists h, Ks, en, ha'. split; [|auto].
    destruct HC as (C1 & C2 & C3 & _).
    destruct HA. rewrite C1, C2, C3 in *. constructor; auto.
Qed.

Lemma rk_loop_cost m c fuel : min_stages m -> nfev_stiff_detect c = 0 -> forall s ha ms rej s',
  rk_loop fuel m c s ha ms rej = Done s' ->
  exists k1 k2, (m_pre m = None -> k1 = 0) /\ nfs s' = nfs s + k1 + k2 /\
    length (calls s') = length (calls s) + cost_of m k1 k2.
Proof.
  intros Hmin Hn. induction fuel as [|fuel IH]; intros s ha ms rej s' H; simpl in H; [discriminate|].
  pose proof (trial_inv m c s ha ms rej Hmin) as HT.
  destruct (trial_step m c s ha ms rej) as [s1 h h1 tn yn en|s1 h1|s1 msg|e]; try discriminate.
  - destruct HT as (H0 & HC & Hh & Ht & Hlt & Hnf & _ & (Ks & HF & Hy & HK & He & Hc) & _).
    destruct (finish_done m c s s1 h h1 tn yn en s' Ks HC HF Ht Hy HK He Hlt H)
      as (HA & _ & _ & _ & Hn2 & (l & Hl & Hl0)).
    exists 0, 0. split; [auto|]. split; [lia|].
    rewrite Hl, Hc, (Hl0 Hn). unfold cost_of, stage_points.
    assert (1 <= m_stages m) by (unfold min_stages in Hmin; destruct (m_pre m); lia).
    destruct (m_fsal m); rewrite ?app_length, ?map_length, ?seq_length; simpl; lia.
  - destruct HT as (H0 & HC & _ & _ & Hnf & (en & _ & [(Hp & _ & Hlen)|(_ & _ & _ & Hlen)])).
    + apply IH in H. destruct H as (k1 & k2 & Hk & Hf & Hc).
      exists (S k1), k2. split; [intros; contradiction|]. split; [lia|].
      rewrite Hc, Hlen. unfold cost_of. lia.
    + apply IH in H. destruct H as (k1 & k2 & Hk & Hf & Hc).
      exists k1, (S k2). split; [auto|]. split; [lia|].
      rewrite Hc, Hlen. unfold cost_of. lia.
Qed.

Lemma rk_loop_fail m c fuel : min_stages m -> forall s ha ms rej s' msg,
  rk_loop fuel m c s ha ms rej = Fail s' msg ->
  same_core s s' /\
  match msg with
  | TOO_SMALL_STEP => exists ha', nltb A ha' ms = true
  | OVERFLOW => exists en, (nisnan A en || nisinf A en) = true
  end.
Proof.
  intros Hmin. induction fuel as [|fuel IH]; intros s ha ms rej s' msg H; simpl in H; [discriminate|].
  pose proof (trial_inv m c s ha ms rej Hmin) as HT.
  destruct (trial_step m c s ha ms rej) as [s1 h h1 tn yn en|s1 h1|s1 m1|e]; try discriminate.
  - unfold finish in H.
    match type of H with context [if m_fsal m then ?a else ?b] =>
      destruct (if m_fsal m then a else b) end.
    match type of H with context [diagnose ?a ?b ?x ?d ?e] =>
      destruct (diagnose a b x d e); discriminate end.
  - destruct HT as (H0 & HC & _). apply IH in H. destruct H as [H1 H2].
    split; [eapply same_core_trans; eauto|auto].
  - inversion H; subst. destruct msg.
    + destruct HT as [HT ->]. split; [apply same_core_refl|eauto].
    + destruct HT as (_ & HC & (en & He & _)). split; [auto|eauto].
Qed.

Lemma rk_loop_raise m c fuel : min_stages m -> forall s ha ms rej e,
  rk_loop fuel m c s ha ms rej = Raise e ->
  (e = ZeroDivisionError /\ nfev_stiff_detect c <> 0 /\ nfev_stiff_detect c / m_stages m = 0)
  \/ (standard_sc s = false /\ (h_previous s = None \/ error_norm_old s = None)).
Proof.
  intros Hmin. induction fuel as [|fuel IH]; intros s ha ms rej e H; simpl in H; [discriminate|].
  pose proof (trial_inv m c s ha ms rej Hmin) as HT.
  destruct (trial_step m c s ha ms rej) as [s1 h h1 tn yn en|s1 h1|s1 m1|e1]; try discriminate.
  - unfold finish in H.
    match type of H with context [if m_fsal m then ?a else ?b] =>
      destruct (if m_fsal m then a else b) end.
    match type of H with context [diagnose ?a ?b ?x ?d ?z] =>
      destruct (diagnose a b x d z) eqn:Hd; [discriminate|] end.
    inversion H; subst. apply diagnose_exn in Hd. left; tauto.
  - destruct HT as (H0 & HC & Hsc & _).
    apply IH in H. destruct H as [H|H]; [left; auto|right].
    unfold same_core in HC. destruct HC as (_&_&_&_&C5&_&_&C8&_). rewrite Hsc, C5, C8 in H. auto.
  - right. tauto.
Qed.

End Gen.
