(** C61: asking for dense output does not disturb an integration. *)
From Coq Require Import String ZArith QArith Bool Lia List.
From Verif Require Import Arith Common Stiff RK RKGen RKNonInt Tableaux Classes Dense.
Import ListNotations.
Open Scope nat_scope.

Section Observer.
Context {A : Arith}.
Notation num := (num A).
Notation vec := (list num).
Implicit Types (m : Meth A) (c : Cfg A) (s : St A) (v : Solver A) (impl : dimpl A).

(** the solver object after a call of dense_output that left the attributes [s'] *)
Definition left_by v (s' : St A) : Solver A := {| st := s'; stat := stat v; t_old := t_old v |}.

(** a user's session: up to [length asks] calls of step() (none once the solver is not
    running any more), the call number i followed by one of dense_output() if asks[i];
    None if one of the calls raises. Returns the solver and the objects obtained.
    With every entry True this is scipy's solve_ivp(..., dense_output=True). *)
Fixpoint session (fuel : nat) m c impl (asks : list bool) v : option (Solver A * list (dense A)) :=
  match asks with
  | [] => Some (v, [])
  | ask :: asks' =>
    match stat v with
    | Running =>
      match ode_step fuel m c v with
      | StepOk v1 =>
        if ask then
          match dense_output impl c v1 with
          | DenseOk o s' =>
            match session fuel m c impl asks' (left_by v1 s') with
            | Some (v', os) => Some (v', o :: os)
            | None => None
            end
          | DenseExn _ => None
          end
        else session fuel m c impl asks' v1
      | _ => None
      end
    | _ => Some (v, [])
    end
  end.

(** what a user sees of two solvers is the same *)
Definition agree v v' : Prop :=
  t (st v') = t (st v) /\ y (st v') = y (st v) /\ f (st v') = f (st v) /\ h_abs (st v') = h_abs (st v) /\
  stat v' = stat v /\ t_old v' = t_old v.

(** the dense outputs of the explicit classes, all interpolants but interpolant 1 of Fi5N
    (fine.py 406-413 assigns self.y) *)
Definition observers (n : nat) : list (dimpl A) :=
  [dense_cubic; dense_quintic n; dense_bs5 Best n; dense_bs5 Low n; dense_bs5 Free n;
   dense_rk n (lm CFMR7osc_P); dense_rk n (lm CK5_P); dense_rk n (lm Me4_P); dense_rk n (lm Pr7_P);
   dense_rkn n (lm MR6NN_P) (lm MR6NN_Pp);
   dense_fi5n 0 n; dense_fi5n 2 n; dense_fi5n 3 n; dense_mu5 true n; dense_mu5 false n].

Lemma sim_refl s : sim s s. Proof. unfold sim. repeat split. Qed.
Lemma sim_sym s1 s2 : sim s1 s2 -> sim s2 s1.
Proof. unfold sim. intros H. intuition congruence. Qed.
Lemma sim_trans s1 s2 s3 : sim s1 s2 -> sim s2 s3 -> sim s1 s3.
Proof. unfold sim. intros H1 H2. intuition congruence. Qed.
Lemma sim_with_calls s cl : sim s (with_calls s (K s) cl (y s)).
Proof. unfold sim. repeat split. Qed.

Definition quiet impl : Prop := forall c to s d s', impl c to s = Some (d, s') ->
  sim s s' /\ (exists ex, calls s' = calls s ++ ex) /\
  forall s2, sim s s2 -> exists s2', impl c to s2 = Some (d, s2').

Lemma extra_calls g n to yo h : forall rows cs K cl, exists ex,
  snd (extra_stages (A:=A) g n to yo h rows cs K cl) = cl ++ ex.
Proof.
  induction rows as [|a rows IH]; intros cs K cl.
  - exists []. destruct cs; simpl; now rewrite app_nil_r.
  - destruct cs as [|c cs]; [exists []; simpl; now rewrite app_nil_r|]. cbn [extra_stages].
    edestruct IH as [ex ->]. rewrite <- app_assoc. eauto.
Qed.
Lemma extra_K g n to yo h : forall rows cs K cl cl2,
  fst (extra_stages (A:=A) g n to yo h rows cs K cl2) = fst (extra_stages (A:=A) g n to yo h rows cs K cl).
Proof.
  induction rows as [|a rows IH]; intros cs K cl cl2; [destruct cs; reflexivity|].
  destruct cs as [|c cs]; [reflexivity|]. cbn [extra_stages]. apply IH.
Qed.
Lemma extra_n_calls g n to yo h : forall rows rows' cs K cl, exists ex,
  snd (extra_stages_n (A:=A) g n to yo h rows rows' cs K cl) = cl ++ ex.
Proof.
  induction rows as [|a rows IH]; intros rows' cs K cl.
  - exists []. destruct rows', cs; simpl; now rewrite app_nil_r.
  - destruct rows' as [|a' rows']; [exists []; simpl; now rewrite app_nil_r|].
    destruct cs as [|c cs]; [exists []; simpl; now rewrite app_nil_r|]. cbn [extra_stages_n].
    edestruct IH as [ex ->]. rewrite <- app_assoc. eauto.
Qed.
Lemma extra_n_K g n to yo h : forall rows rows' cs K cl cl2,
  fst (extra_stages_n (A:=A) g n to yo h rows rows' cs K cl2) = fst (extra_stages_n (A:=A) g n to yo h rows rows' cs K cl).
Proof.
  induction rows as [|a rows IH]; intros rows' cs K cl cl2; [destruct rows', cs; reflexivity|].
  destruct rows' as [|a' rows']; [reflexivity|]. destruct cs as [|c cs]; [reflexivity|]. cbn [extra_stages_n]. apply IH.
Qed.

Ltac same_s s s' H := injection H as <- <-; split; [apply sim_refl|split; [exists []; now rewrite app_nil_r|]].

Lemma quiet_cubic : quiet dense_cubic.
Proof.
  intros c to s d s' H. unfold dense_cubic in *.
  destruct (y_old s) as [yo|] eqn:E1; [|discriminate]. destruct (f_old s) as [fo|] eqn:E2; [|discriminate].
  same_s s s' H. intros s2 (T&Y&F&_&_&_&_&YO&FO&_&KK&_). rewrite YO, FO, E1, E2, T, Y, F. eauto.
Qed.
Lemma quiet_quintic n : quiet (dense_quintic n).
Proof.
  intros c to s d s' H. unfold dense_quintic in *.
  destruct (y_old s) as [yo|] eqn:E1; [|discriminate]. destruct (f_old s) as [fo|] eqn:E2; [|discriminate].
  same_s s s' H. intros s2 (T&Y&F&_&_&_&_&YO&FO&_&KK&_). rewrite YO, FO, E1, E2, T, Y, F. eauto.
Qed.
Lemma quiet_rk n P : quiet (dense_rk n P).
Proof.
  intros c to s d s' H. unfold dense_rk in *.
  destruct (y_old s) as [yo|] eqn:E1; [|discriminate].
  same_s s s' H. intros s2 (T&Y&F&_&_&_&_&YO&FO&_&KK&_). rewrite YO, E1, T, KK. eauto.
Qed.
Lemma quiet_rkn n P Pp : quiet (dense_rkn n P Pp).
Proof.
  intros c to s d s' H. unfold dense_rkn in *.
  destruct (y_old s) as [yo|] eqn:E1; [|discriminate].
  same_s s s' H. intros s2 (T&Y&F&_&_&_&_&YO&FO&_&KK&_). rewrite YO, E1, T, KK. eauto.
Qed.

Lemma quiet_low n : quiet (dense_bs5_low n).
Proof.
  intros c to s d s' H. unfold dense_bs5_low in *.
  destruct (y_old s) as [yo|] eqn:E1; [|discriminate]. destruct (h_previous s) as [h|] eqn:E2; [|discriminate].
  pose proof (extra_calls (fn c) n to yo h (firstn 1 (lm BS5_A_extra)) (firstn 1 (lv BS5_C_extra)) (K s) (calls s)) as [ex HC].
  destruct (extra_stages _ _ _ _ _ _ _ (K s) (calls s)) as [K' cl] eqn:EE. cbn [snd] in HC.
  injection H as <- <-. split; [apply sim_with_calls|]. split; [exists ex; exact HC|].
  intros s2 (T&Y&F&_&_&_&HP&YO&FO&_&KK&_). rewrite YO, HP, E1, E2, T, KK, Y.
  pose proof (extra_K (fn c) n to yo h (firstn 1 (lm BS5_A_extra)) (firstn 1 (lv BS5_C_extra)) (K s) (calls s) (calls s2)) as HK.
  rewrite EE in HK. destruct (extra_stages _ _ _ _ _ _ _ (K s) (calls s2)) as [K2 cl2]. cbn [fst] in HK. subst K2. eauto.
Qed.
Lemma quiet_best n : quiet (dense_bs5_best n).
Proof.
  intros c to s d s' H. unfold dense_bs5_best in *.
  destruct (y_old s) as [yo|] eqn:E1; [|discriminate]. destruct (h_previous s) as [h|] eqn:E2; [|discriminate].
  pose proof (extra_calls (fn c) n to yo h (lm BS5_A_extra) (lv BS5_C_extra) (K s) (calls s)) as [ex HC].
  destruct (extra_stages _ _ _ _ _ _ _ (K s) (calls s)) as [K' cl] eqn:EE. cbn [snd] in HC.
  injection H as <- <-. split; [apply sim_with_calls|]. split; [exists ex; exact HC|].
  intros s2 (T&Y&F&_&_&_&HP&YO&FO&_&KK&_). rewrite YO, HP, E1, E2, T, KK, Y.
  pose proof (extra_K (fn c) n to yo h (lm BS5_A_extra) (lv BS5_C_extra) (K s) (calls s) (calls s2)) as HK.
  rewrite EE in HK. destruct (extra_stages _ _ _ _ _ _ _ (K s) (calls s2)) as [K2 cl2]. cbn [fst] in HK. subst K2. eauto.
Qed.
Lemma quiet_mu5 n : quiet (dense_mu5 false n).
Proof.
  intros c to s d s' H. unfold dense_mu5 in *.
  destruct (y_old s) as [yo|] eqn:E1; [|discriminate]. destruct (h_previous s) as [h|] eqn:E2; [|discriminate].
  pose proof (extra_n_calls (fn c) n to yo h [lv Mu5Nmb_A_extra] [lv Mu5Nmb_Ap_extra] [lit Mu5Nmb_C_extra] (K s) (calls s)) as [ex HC].
  destruct (extra_stages_n _ _ _ _ _ _ _ _ (K s) (calls s)) as [K' cl] eqn:EE. cbn [snd] in HC.
  injection H as <- <-. split; [apply sim_with_calls|]. split; [exists ex; exact HC|].
  intros s2 (T&Y&F&_&_&_&HP&YO&FO&_&KK&_). rewrite YO, HP, E1, E2, T, KK, Y.
  pose proof (extra_n_K (fn c) n to yo h [lv Mu5Nmb_A_extra] [lv Mu5Nmb_Ap_extra] [lit Mu5Nmb_C_extra] (K s) (calls s) (calls s2)) as HK.
  rewrite EE in HK. destruct (extra_stages_n _ _ _ _ _ _ _ _ (K s) (calls s2)) as [K2 cl2]. cbn [fst] in HK. subst K2. eauto.
Qed.
Lemma quiet_fi5n i n : i <> 1 -> quiet (dense_fi5n i n).
Proof.
  intros Hi. destruct i as [|i]; [apply quiet_quintic|]. apply Nat.eqb_neq in Hi.
  intros c to s d s' H. unfold dense_fi5n in *.
  destruct (y_old s) as [yo|] eqn:E1; [|discriminate]. destruct (h_previous s) as [h|] eqn:E2; [|discriminate].
  destruct (fi5n_extra (S i)) as [[[[xa xap] xc] P] Pp] eqn:EX.
  pose proof (extra_n_calls (fn c) n to yo h (lm xa) (lm xap) (lv xc) (K s) (calls s)) as [ex HC].
  destruct (extra_stages_n _ _ _ _ _ _ _ _ (K s) (calls s)) as [K' cl] eqn:EE. cbn [snd] in HC.
  rewrite Hi in H. injection H as <- <-. split; [apply sim_with_calls|]. split; [exists ex; exact HC|].
  intros s2 (T&Y&F&_&_&_&HP&YO&FO&_&KK&_). rewrite YO, HP, E1, E2, T, KK, Y.
  pose proof (extra_n_K (fn c) n to yo h (lm xa) (lm xap) (lv xc) (K s) (calls s) (calls s2)) as HK.
  rewrite EE in HK. destruct (extra_stages_n _ _ _ _ _ _ _ _ (K s) (calls s2)) as [K2 cl2]. cbn [fst] in HK. subst K2.
  rewrite Hi. eauto.
Qed.

Lemma observers_quiet n impl : In impl (observers n) -> quiet impl.
Proof.
  intros H. unfold observers in H.
  repeat (destruct H as [<-|H]; [first [apply quiet_cubic|apply quiet_best|apply quiet_low|apply quiet_rk|apply quiet_rkn
    |apply quiet_mu5|apply quiet_fi5n; discriminate|apply quiet_quintic]|]). destruct H.
Qed.

Lemma dense_output_quiet impl c v d s' : quiet impl -> dense_output impl c v = DenseOk d s' ->
  sim (st v) s' /\ (exists ex, calls s' = calls (st v) ++ ex) /\
  forall v2, solver_sim v v2 -> exists s2', dense_output impl c v2 = DenseOk d s2'.
Proof.
  intros HQ H. unfold dense_output in *. destruct (t_old v) as [to|] eqn:ET; [|discriminate].
  destruct (Nat.eqb _ 0 || _) eqn:EB.
  - injection H as <- <-. split; [apply sim_refl|]. split; [exists []; now rewrite app_nil_r|].
    intros v2 ((T&Y&_)&_&TO). rewrite TO, ET, T, Y, EB. eauto.
  - destruct (impl c to (st v)) as [[d0 s0]|] eqn:EI; [|discriminate]. injection H as <- <-.
    destruct (HQ _ _ _ _ _ EI) as (H1 & H2 & H3). split; [exact H1|]. split; [exact H2|].
    intros v2 (HS&_&TO). rewrite TO, ET. pose proof HS as (T&Y&_). rewrite T, Y, EB.
    destruct (H3 _ HS) as (s2' & ->). eauto.
Qed.

Lemma solver_sim_refl v : solver_sim v v.
Proof. split; [apply sim_refl|auto]. Qed.
Lemma solver_sim_left impl c v d s' v2 : quiet impl -> dense_output impl c v = DenseOk d s' ->
  solver_sim v v2 -> solver_sim (left_by v s') v2.
Proof.
  intros HQ H (HS & H1 & H2). destruct (dense_output_quiet _ _ _ _ _ HQ H) as (HS1 & _).
  split; [|auto]. cbn [left_by st]. eapply sim_trans; [apply sim_sym; exact HS1|exact HS].
Qed.

Lemma session_sim fuel m c impl : quiet impl -> forall asks v v2 v' os, solver_sim v v2 ->
  session fuel m c impl asks v = Some (v', os) ->
  exists w, run fuel (length asks) m (set_detect c 0) v2 = StepOk w /\ solver_sim v' w.
Proof.
  intros HQ. induction asks as [|a asks IH]; intros v v2 v' os HS H; cbn [session length run] in *.
  - inversion H; subst. eauto.
  - pose proof HS as (_ & HST & _). rewrite HST. destruct (stat v) eqn:EV.
    2:{ inversion H; subst. eauto. }
    2:{ inversion H; subst. eauto. }
    destruct (ode_step fuel m c v) as [v1| |] eqn:E1; try discriminate.
    destruct (ode_step_sim m c fuel v v2 v1 HS E1) as (v2a & -> & HS1).
    destruct a.
    + destruct (dense_output impl c v1) as [o s'|] eqn:ED; [|discriminate].
      destruct (session fuel m c impl asks (left_by v1 s')) as [[v'' os']|] eqn:ES; [|discriminate].
      injection H as -> <-. eapply IH; [|exact ES]. eapply solver_sim_left; eauto.
    + eapply IH; eauto.
Qed.

Lemma sim_agree v1 v2 w : solver_sim v1 w -> solver_sim v2 w -> agree v1 v2.
Proof.
  intros ((T&Y&F&H&_)&S1&S2) ((T'&Y'&F'&H'&_)&S1'&S2'). unfold agree. intuition congruence.
Qed.
Lemma set_detect_0 c : nfev_stiff_detect c = 0 -> set_detect c 0 = c.
Proof. destruct c; simpl. intros ->. reflexivity. Qed.
End Observer.
