(** ESDIRK in any arithmetic: what a trial changes, the factorisation in use, work bounds. *)
From Coq Require Import String ZArith QArith Bool Lia List.
From Verif Require Import Arith Common Stiff RK HStart RKInit Tableaux Classes Dense Ode ESDIRK.
Import ListNotations.

Section G.
Context {A : Arith}.
Notation num := (num A).
Notation vec := (list num).
Notation mat := (list (list num)).

(** attributes that neither the Newton iteration nor the stage loop changes *)
Definition core (w : EWk A) := (w_J w, w_curJ w, w_LU w, w_hLU w, w_Sc w, (w_std w, w_maxf w, w_nfs w, w_nfi w, w_nlu w, w_jcalls w)).

Lemma newton_core m c ts h psi y L : forall left k w z dzo rate r w',
  newton m c ts h psi y L left k w z dzo rate = (r, w') ->
  core w' = core w /\ w_rate w' = w_rate w /\ w_niter w' = w_niter w /\
  exists l, w_calls w' = (w_calls w ++ l)%list /\ (length l <= left)%nat /\ Forall (fun p => fst p = ts) l.
Proof.
  induction left; intros k w z dzo rate r w' H; cbn [newton] in H.
  { injection H as <- <-. split; [reflexivity|]. split; [reflexivity|]. split; [reflexivity|]. exists []. rewrite app_nil_r. auto. }
  set (yp := vadd psi _) in H.
  assert (H1 : forall l, Forall (fun p : num * vec => fst p = ts) l -> Forall (fun p => fst p = ts) ((ts, yp) :: l)) by (constructor; auto).
  destruct (negb _).
  { injection H as <- <-. split; [reflexivity|]. split; [reflexivity|]. split; [reflexivity|]. exists [(ts, yp)]. split; [reflexivity|].
    split; [cbn [length]; lia|auto]. }
  destruct (x_solve c L _) as [dz|].
  2:{ injection H as <- <-. split; [reflexivity|]. split; [reflexivity|]. split; [reflexivity|]. exists [(ts, yp)]. split; [reflexivity|].
      split; [cbn [length]; lia|auto]. }
  assert (D : forall (x : newton_res A), (x, w_solved (w_call w (ts, yp))) = (r, w') ->
     core w' = core w /\ w_rate w' = w_rate w /\ w_niter w' = w_niter w /\
     exists l, w_calls w' = (w_calls w ++ l)%list /\ (length l <= S left)%nat /\ Forall (fun p => fst p = ts) l).
  { intros x Hx. injection Hx as <- <-. split; [reflexivity|]. split; [reflexivity|]. split; [reflexivity|]. exists [(ts, yp)]. split; [reflexivity|].
    split; [cbn [length]; lia|auto]. }
  assert (R : forall k' z' a b, newton m c ts h psi y L left k' (w_solved (w_call w (ts, yp))) z' a b = (r, w') ->
     core w' = core w /\ w_rate w' = w_rate w /\ w_niter w' = w_niter w /\
     exists l, w_calls w' = (w_calls w ++ l)%list /\ (length l <= S left)%nat /\ Forall (fun p => fst p = ts) l).
  { intros k' z' a b Hx. destruct (IHleft _ _ _ _ _ _ _ Hx) as (E1 & E2 & E3 & l & E4 & E5 & E6).
    split; [exact E1|]. split; [exact E2|]. split; [exact E3|]. exists ((ts, yp) :: l). split.
    - rewrite E4. cbn [w_solved w_calls w_call]. rewrite <- app_assoc. reflexivity.
    - split; [cbn [length]; lia|auto]. }
  destruct (x_linear c). { destruct (_ && _)%bool; eauto. }
  destruct (nleb _ _ _); [eauto|]. destruct k; [eauto|].
  destruct (_ || _)%bool; [eauto|]. destruct (nltb _ _ _); eauto.
Qed.

Lemma estages_core m c t h y L : forall left s w K psi z r w',
  estages m c t h y L left s w K psi z = (r, w') ->
  core w' = core w /\ exists l, w_calls w' = (w_calls w ++ l)%list /\ (length l <= NEWTON_MAXITER * left)%nat.
Proof.
  induction left; intros s w K psi z r w' H; cbn [estages] in H.
  { injection H as <- <-. split; [reflexivity|]. exists []. rewrite app_nil_r. auto. }
  destruct (newton _ _ _ _ _ _ _ _ _ _ _ _ _) as [nr w1] eqn:EN.
  destruct (newton_core _ _ _ _ _ _ _ _ _ _ _ _ _ _ _ EN) as (E1 & E2 & E3 & l & E4 & E5 & _).
  destruct nr as [z' rr ni|rr ni|e].
  - destruct (IHleft _ _ _ _ _ _ _ H) as (F1 & l2 & F2 & F3). split; [rewrite F1; exact E1|].
    exists (l ++ l2)%list. split; [rewrite F2; cbn [w_rates w_calls]; rewrite E4, app_assoc; reflexivity|]. rewrite app_length. lia.
  - injection H as <- <-. split; [exact E1|]. exists l. split; [exact E4|]. lia.
  - injection H as <- <-. split; [exact E1|]. exists l. split; [exact E4|]. lia.
Qed.

(** ** the factorisation in use *)
(** the iteration matrix for Jacobian J and step h, and the row scaling that goes with it *)
Definition iteration_matrix (m : EMeth A) (c : ECfg A) (J : mat) (h : num) : option mat * mat :=
  let base := msub (mat_of (x_n c) (x_M c)) (nmul A h (em_d m)) J in
  match x_dae c with
  | None => (None, base)
  | Some (U, nAE) => (Some (scale_AE U nAE (nmul A h (em_d m))), mmul (scale_AE U nAE (nmul A h (em_d m))) base)
  end.
Definition lu_ok (m : EMeth A) (c : ECfg A) (w : EWk A) : Prop :=
  (x_dae c = None -> w_Sc w = None) /\
  match w_LU w with
  | None => True
  | Some L => x_luok c L = true /\ exists h, w_hLU w = Some h /\ (w_Sc w, L) = iteration_matrix m c (w_J w) h
  end.
Definition lin_ok (c : ECfg A) (w : EWk A) : Prop :=
  x_linear c = true -> w_curJ w = true.

Lemma factorise_ok m c w h L w1 : lu_ok m c w -> factorise m c w h = inl (L, w1) ->
  lu_ok m c w1 /\ w_LU w1 = Some L /\ w_J w1 = w_J w /\ w_curJ w1 = w_curJ w /\ w_jcalls w1 = w_jcalls w /\ w_calls w1 = w_calls w /\
  w_nfs w1 = w_nfs w /\ w_nfi w1 = w_nfi w /\ w_maxf w1 = w_maxf w /\ w_std w1 = w_std w /\
  ((w1 = w /\ need_lu c w h = false) \/ (w_hLU w1 = Some h /\ x_luok c L = true)).
Proof.
  intros [HS HL] H. unfold factorise in H.
  assert (G : (let base := msub (mat_of (x_n c) (x_M c)) (nmul A h (em_d m)) (w_J w) in
    let '(Sc, X) := match x_dae c with None => (w_Sc w, base)
                    | Some (U, nAE) => (Some (scale_AE U nAE (nmul A h (em_d m))), mmul (scale_AE U nAE (nmul A h (em_d m))) base) end in
    if x_luok c X then inl (X, w_factored w X h Sc) else inr lin_error) = @inl (mat * EWk A) exn (L, w1) ->
    lu_ok m c w1 /\ w_LU w1 = Some L /\ w_J w1 = w_J w /\ w_curJ w1 = w_curJ w /\ w_jcalls w1 = w_jcalls w /\ w_calls w1 = w_calls w /\
    w_nfs w1 = w_nfs w /\ w_nfi w1 = w_nfi w /\ w_maxf w1 = w_maxf w /\ w_std w1 = w_std w /\ ((w1 = w /\ need_lu c w h = false) \/ (w_hLU w1 = Some h /\ x_luok c L = true))).
  { clear H. intros H. cbv zeta in H.
    destruct (x_dae c) as [[U nAE]|] eqn:ED.
    - destruct (x_luok c _) eqn:EL in H; [|discriminate]. injection H as E1 E2. subst L w1.
      split.
      + split; [rewrite ED; discriminate|]. cbn [w_LU w_factored w_hLU w_Sc w_J]. split; [exact EL|]. exists h. split; [reflexivity|].
        unfold iteration_matrix. rewrite ED. reflexivity.
      + repeat split; try reflexivity. right. split; [reflexivity|exact EL].
    - destruct (x_luok c _) eqn:EL in H; [|discriminate]. injection H as E1 E2. subst L w1.
      split.
      + split; [intros _; exact (HS eq_refl)|]. cbn [w_LU w_factored w_hLU w_Sc w_J]. split; [exact EL|]. exists h. split; [reflexivity|].
        unfold iteration_matrix. rewrite ED. rewrite (HS eq_refl). reflexivity.
      + repeat split; try reflexivity. right. split; [reflexivity|exact EL]. }
  destruct (need_lu c w h) eqn:EN; [exact (G H)|]. destruct (w_LU w) as [L0|] eqn:EL; [|exact (G H)].
  injection H as <- <-. split; [split; [exact HS|rewrite EL; exact HL]|]. repeat split; auto.
Qed.

End G.

Section Loop.
Context {A : Arith}.
Notation num := (num A).
Notation vec := (list num).
Notation mat := (list (list num)).

(** the trials of one step(): [tries m c s ms w0 ha0 w ha rej]: the loop that starts with w0, ha0
    comes to the head of the while loop with w, ha, rej *)
Inductive tries (m : EMeth A) (c : ECfg A) (s : ES A) (ms : num) (w0 : EWk A) (ha0 : num) : nat -> EWk A -> num -> bool -> Prop :=
| tr0 : tries m c s ms w0 ha0 0 w0 ha0 false
| trS j w ha rej w' ha' rej' : tries m c s ms w0 ha0 j w ha rej ->
    etrial m c s w ha ms rej = EtAgain w' ha' rej' -> tries m c s ms w0 ha0 (S j) w' ha' rej'.

Lemma eloop_tries m c s ms w0 ha0 : forall k j w ha rej, tries m c s ms w0 ha0 j w ha rej ->
  match eloop k m c s w ha ms rej with
  | IFuel => True
  | IDone s' => exists j' w' ha' rej' w1 h hn tn yn en K, tries m c s ms w0 ha0 j' w' ha' rej' /\
      etrial m c s w' ha' ms rej' = EtAccept w1 h hn tn yn en K /\ s' = efinish c s w1 h hn tn yn en K
  | IFail s' msg => exists j' w' ha' rej', tries m c s ms w0 ha0 j' w' ha' rej' /\
      etrial m c s w' ha' ms rej' = EtFail w' /\ msg = too_small /\ e_t s' = e_t s /\ e_y s' = e_y s
  | IRaise e => exists j' w' ha' rej', tries m c s ms w0 ha0 j' w' ha' rej' /\ etrial m c s w' ha' ms rej' = EtRaise e
  end.
Proof.
  induction k; intros j w ha rej HT; cbn [eloop]; [exact I|].
  destruct (etrial m c s w ha ms rej) as [w'|e|w' ha' rej'|w' h hn tn yn en K] eqn:E.
  - exists j, w, ha, rej. split; [exact HT|]. split; [|auto].
    unfold etrial in *. destruct (nltb A ha ms); [reflexivity|].
    destruct (factorise m c w (nmul A ha (x_dir c))) as [[L w1]|e]; [|discriminate].
    destruct (estages _ _ _ _ _ _ _ _ _ _ _ _) as [[K psi z| |e] w2].
    + match goal with H : match ?x with _ => _ end = _ |- _ => destruct x as [[err' w3]|e]; [|discriminate] end.
      match goal with H : match ?x with _ => _ end = _ |- _ => destruct x as [[[[] hn] w4]|e]; discriminate end.
    + destruct (negb _); [destruct (x_jac c); discriminate|discriminate].
    + discriminate.
  - exists j, w, ha, rej. auto.
  - apply (IHk (S j)). eapply trS; eauto.
  - exists j, w, ha, rej, w', h, hn, tn, yn, en, K. auto.
Qed.

(** the state of a step before the loop *)
Definition start (c : ECfg A) (s : ES A) : (num * num) * (EWk A + exn) :=
  let '(ha, ms, std) := ereassess c (e_t s) (e_habs s) (w_std (e_w s)) in
  ((ha, ms), preemptive c s (w_control (e_w s) std (w_maxf (e_w s)) (w_nfs (e_w s))) ha).

Lemma estep_start m c k s : estep_impl m c k s = match start c s with (_, inr e) => IRaise e | ((ha, ms), inl w) => eloop k m c s w ha ms false end.
Proof. unfold estep_impl, start. destruct (ereassess _ _ _ _) as [[ha ms] std]. destruct (preemptive _ _ _ _); reflexivity. Qed.

(** what one trial does to the work attributes *)
Lemma eassess_core c s w en ha rej acc hn w' : eassess c s w en ha rej = inl (acc, hn, w') ->
  (w_J w' = w_J w /\ w_curJ w' = w_curJ w /\ w_LU w' = w_LU w /\ w_hLU w' = w_hLU w /\ w_Sc w' = w_Sc w /\ w_rate w' = w_rate w /\ w_niter w' = w_niter w /\
   w_calls w' = w_calls w /\ w_jcalls w' = w_jcalls w /\ w_nfi w' = w_nfi w) /\
  acc = nltb A en n1 /\ w_nfs w' = (w_nfs w + (if acc then 0 else 1))%nat /\
  (w_maxf w' = w_maxf w \/ w_maxf w' = MAX_FACTOR) /\ (acc = false -> w_std w' = true).
Proof.
  intros H. unfold eassess in H.
  assert (C : forall b f sd nf, (inl (b, nmul A ha f, w_control w sd (if nltb A f MAX_FACTOR then MAX_FACTOR else w_maxf w) nf) : (bool * num * EWk A) + exn) = inl (acc, hn, w') ->
    acc = b /\ (w_J w' = w_J w /\ w_curJ w' = w_curJ w /\ w_LU w' = w_LU w /\ w_hLU w' = w_hLU w /\ w_Sc w' = w_Sc w /\ w_rate w' = w_rate w /\ w_niter w' = w_niter w /\
   w_calls w' = w_calls w /\ w_jcalls w' = w_jcalls w /\ w_nfi w' = w_nfi w) /\ w_nfs w' = nf /\ w_std w' = sd /\ (w_maxf w' = w_maxf w \/ w_maxf w' = MAX_FACTOR)).
  { intros b f sd nf E. injection E as <- _ <-. split; [reflexivity|]. split; [repeat split; reflexivity|]. split; [reflexivity|].
    split; [reflexivity|]. cbn [w_maxf w_control]. destruct (nltb A f MAX_FACTOR); auto. }
  destruct (nltb A en n1) eqn:E1.
  - assert (D : forall f sd, (if rej then inl (true, nmul A ha (pymin n1 f), w_control w true (if nltb A (pymin n1 f) MAX_FACTOR then MAX_FACTOR else w_maxf w) (w_nfs w))
        else inl (true, nmul A ha f, w_control w sd (if nltb A f MAX_FACTOR then MAX_FACTOR else w_maxf w) (w_nfs w)) : (bool * num * EWk A) + exn) = inl (acc, hn, w') ->
        (w_J w' = w_J w /\ w_curJ w' = w_curJ w /\ w_LU w' = w_LU w /\ w_hLU w' = w_hLU w /\ w_Sc w' = w_Sc w /\ w_rate w' = w_rate w /\ w_niter w' = w_niter w /\
        w_calls w' = w_calls w /\ w_jcalls w' = w_jcalls w /\ w_nfi w' = w_nfi w) /\ acc = true /\ w_nfs w' = (w_nfs w + (if acc then 0 else 1))%nat /\
        (w_maxf w' = w_maxf w \/ w_maxf w' = MAX_FACTOR) /\ (acc = false -> w_std w' = true)).
    { intros f sd E. destruct rej; apply C in E; destruct E as (-> & E2 & E3 & E4 & E5);
        (split; [exact E2|]); (split; [reflexivity|]); (split; [lia|]); (split; [exact E5|]); discriminate. }
    destruct (nltb A en (x_tiny c)); [exact (D _ _ H)|]. destruct (w_std w); [exact (D _ _ H)|].
    destruct (e_hprev s); [|discriminate]. destruct (e_errold s); [|discriminate]. exact (D _ _ H).
  - apply C in H. destruct H as (-> & E2 & E3 & E4 & E5). split; [exact E2|]. split; [reflexivity|]. split; [lia|]. split; [exact E5|]. auto.
Qed.

Definition again_J (w w' : EWk A) (c : ECfg A) (s : ES A) : Prop :=
  w_curJ w = false /\ w_curJ w' = true /\ w_LU w' = None /\ w_jcalls w' = (w_jcalls w ++ [(e_t s, e_y s)])%list /\
  w_std w' = w_std w /\ w_nfi w' = S (w_nfi w) /\ w_nfs w' = w_nfs w /\
  exists jac, x_jac c = Some jac /\ w_J w' = jac (length (w_jcalls w)) (e_t s) (e_y s).
Definition again_h (w w' : EWk A) : Prop :=
  w_J w' = w_J w /\ w_curJ w' = w_curJ w /\ w_jcalls w' = w_jcalls w /\ w_std w' = true /\
  (w_nfi w' + w_nfs w' = S (w_nfi w + w_nfs w))%nat.

Lemma etrial_inv m c s w ha ms rej : lu_ok m c w -> lin_ok c w -> 
  match etrial m c s w ha ms rej with
  | EtFail w' => nltb A ha ms = true /\ w' = w
  | EtRaise e => nltb A ha ms = false
  | EtAgain w' ha' rej' => nltb A ha ms = false /\ lu_ok m c w' /\ lin_ok c w' /\ (w_maxf w' = w_maxf w \/ w_maxf w' = MAX_FACTOR) /\
      (exists l, w_calls w' = (w_calls w ++ l)%list /\ (length l <= NEWTON_MAXITER * (em_stages m - 1))%nat) /\
      ((again_J w w' c s /\ ha' = ha /\ rej' = rej) \/ 
       (again_h w w' /\ rej' = true /\ w_curJ w = true /\ w_LU w' = None /\ exists r, ha' = nmul A ha (pymax MIN_FACTOR (pymin (ndiv A MAX_RATE r) MAX_FACTOR_NRF))) \/
       (again_h w w' /\ rej' = true /\ exists en, nltb A en n1 = false /\ ha' = nmul A ha (pymax (nmul A (x_safety c) (npow A en (x_ee c))) (x_minf c))))
  | EtAccept w' h hn tn yn en K => nltb A ha ms = false /\ lu_ok m c w' /\ lin_ok c w' /\ h = nmul A ha (x_dir c) /\ tn = nadd A (e_t s) h /\
      (w_maxf w' = w_maxf w \/ w_maxf w' = MAX_FACTOR) /\ nltb A en n1 = true /\ w_jcalls w' = w_jcalls w /\ (exists h', w_hLU w' = Some h') /\
      w_nfs w' = w_nfs w /\ w_nfi w' = w_nfi w /\
      (exists l, w_calls w' = (w_calls w ++ l)%list /\ (length l <= NEWTON_MAXITER * (em_stages m - 1))%nat) /\
      (exists L w1 psi z w2 w3, factorise m c w h = inl (L, w1) /\
         estages m c (e_t s) h (e_y s) L (em_stages m - 1) 1 (w_rates w1 n_ninf 0) [e_yp s] [] [] = (SgOk K psi z, w2) /\
         yn = vadd psi (vscale (em_d m) z) /\ eassess c s w3 en ha rej = inl (true, hn, w') /\ core w3 = core w2 /\ w_rate w3 = w_rate w2 /\
         exists err, err = vscale h (lincomb (length (e_y s)) (em_E m) K) /\
           exists err', en = norm (vdiv err' (calculate_scale (x_atol c) (x_rtol c) (e_y s) yn)) /\
             (em_filter m = false -> err' = err) /\ (em_filter m = true -> exists x, x_solve c L (mv (w_Sc w1) err) = Some x /\ err' = mv (x_M c) x))
  end.
Proof.
  intros HL HN. unfold etrial. destruct (nltb A ha ms) eqn:EL; [auto|]. set (h := nmul A ha (x_dir c)).
  destruct (factorise m c w h) as [[L w1]|e] eqn:EF; [|reflexivity].
  pose proof EF as EF'.
  apply factorise_ok in EF; [|exact HL]. destruct EF as (F1 & F2 & F3 & F4 & F5 & F6 & F7 & F8 & F9 & F10 & F11).
  destruct (estages m c (e_t s) h (e_y s) L (em_stages m - 1) 1 (w_rates w1 n_ninf 0) [e_yp s] [] []) as [sr w2] eqn:ES.
  pose proof (estages_core _ _ _ _ _ _ _ _ _ _ _ _ _ _ ES) as (G1 & l & G2 & G3).
  cbn [w_rates w_calls] in G2. rewrite F6 in G2.
  unfold core in G1. cbn [w_rates w_J w_curJ w_LU w_hLU w_Sc w_std w_maxf w_nfs w_nfi w_nlu w_jcalls] in G1.
  injection G1 as H1 H2 H3 H4 H5 H6 H7 H8 H9 H10 H11.
  assert (LU2 : lu_ok m c w2). { destruct F1 as [F1a F1b]. unfold lu_ok. rewrite H5, H3, H4, H1. split; assumption. }
  destruct sr as [K psi z| |e].
  - set (err := vscale h _).
    match goal with |- context [match ?x with inl _ => _ | inr _ => _ end] => set (flt := x) end.
    assert (FL : forall err' w3, flt = inl (err', w3) -> core w3 = core w2 /\ w_calls w3 = w_calls w2 /\ w_rate w3 = w_rate w2 /\
       (em_filter m = false -> err' = err) /\ (em_filter m = true -> exists x, x_solve c L (mv (w_Sc w1) err) = Some x /\ err' = mv (x_M c) x)).
    { unfold flt. intros err' w3 E. destruct (em_filter m).
      - rewrite H5 in E. destruct (x_solve c L (mv (w_Sc w1) err)) as [x|]; [|discriminate]. injection E as <- <-. do 3 (split; [reflexivity|]). split; [discriminate|eauto].
      - injection E as <- <-. do 3 (split; [reflexivity|]). split; [reflexivity|discriminate]. }
    destruct flt as [[err' w3]|e]; [|reflexivity]. destruct (FL _ _ eq_refl) as (I1 & I2 & I3 & I4 & I5). clear FL.
    set (yn := vadd psi _). set (en := norm _).
    destruct (eassess c s w3 en ha rej) as [[[acc hn] w4]|e] eqn:EA; [|reflexivity].
    pose proof (eassess_core _ _ _ _ _ _ _ _ _ EA) as ((J1 & J2 & J3 & J4 & J5 & J6 & J7 & J8 & J9 & J10) & J11 & J12 & J13 & J14).
    pose proof I1 as I1'. unfold core in I1. injection I1 as K1 K2 K3 K4 K5 K6 K7 K8 K9 K10 K11.
    assert (LU4 : lu_ok m c w4). { destruct LU2 as [La Lb]. unfold lu_ok. rewrite J5, J3, J4, J1, K5, K3, K4, K1. split; assumption. }
    assert (LN4 : lin_ok c w4). { unfold lin_ok. rewrite J2, K2, H2, F4. exact HN. }
    assert (MF : w_maxf w4 = w_maxf w \/ w_maxf w4 = MAX_FACTOR). { destruct J13 as [J13|J13]; [left|right; exact J13]. rewrite J13, K7, H7. exact F9. }
    assert (CL : exists l, w_calls w4 = (w_calls w ++ l)%list /\ (length l <= NEWTON_MAXITER * (em_stages m - 1))%nat).
    { exists l. split; [rewrite J8, I2; exact G2|exact G3]. }
    destruct acc.
    + split; [reflexivity|]. split; [exact LU4|]. split; [exact LN4|]. split; [reflexivity|]. split; [reflexivity|]. split; [exact MF|].
      split; [symmetry; exact J11|]. split; [rewrite J9, K11, H11; exact F5|]. split.
      { rewrite J4, K4, H4. destruct F11 as [[-> _]|[-> _]]; [|eauto]. destruct HL as [_ HL]. rewrite F2 in HL. destruct HL as (_ & h' & E & _). eauto. }
      split; [rewrite J12, K8, H8, F7; lia|]. split; [rewrite J10, K9, H9; exact F8|]. split; [exact CL|].
      exists L, w1, psi, z, w2, w3. split; [exact EF'|]. split; [exact ES|]. split; [reflexivity|]. split; [exact EA|]. split; [exact I1'|]. split; [exact I3|].
      exists err. split; [reflexivity|]. exists err'. split; [reflexivity|]. split; assumption.
    + split; [reflexivity|]. split; [exact LU4|]. split; [exact LN4|]. split; [exact MF|]. split; [exact CL|]. right. right.
      split.
      { unfold again_h. rewrite J1, J2, J9, J10, J12, K1, K2, K11, K9, K8, H1, H2, H11, H9, H8, F3, F4, F5, F7, F8. repeat (split; [reflexivity|]).
        split; [exact (J14 eq_refl)|]. lia. }
      split; [reflexivity|]. exists en. split; [symmetry; exact J11|].
      unfold eassess in EA. rewrite <- J11 in EA. injection EA as <- _. reflexivity.
  - cbn [w_nfi_up w_curJ w_rate]. assert (HW : w_curJ w2 = w_curJ w) by congruence. clear H2. destruct (w_curJ w2) eqn:EC; cbn [negb].
    + split; [reflexivity|]. split.
      { split; [destruct LU2 as [La _]; exact La|]. exact I. }
      split; [unfold lin_ok; cbn [w_control w_dropLU w_nfi_up w_curJ]; rewrite EC; auto|]. split; [left; cbn [w_control w_dropLU w_nfi_up w_maxf]; rewrite H7; exact F9|].
      split; [exists l; split; [exact G2|exact G3]|]. right. left. split.
      { unfold again_h. cbn [w_control w_dropLU w_nfi_up w_J w_curJ w_jcalls w_std w_nfi w_nfs]. rewrite H1, H11, H9, H8, F3, F5, F7, F8.
        split; [reflexivity|]. split; [congruence|]. split; [reflexivity|]. split; [reflexivity|]. lia. }
      split; [reflexivity|]. split; [congruence|]. split; [reflexivity|]. eauto.
    + destruct (x_jac c) as [jac|] eqn:EJ; [|reflexivity]. split; [reflexivity|]. split.
      { split; [destruct LU2 as [La _]; exact La|]. exact I. }
      split; [unfold lin_ok; cbn [w_newJ w_curJ]; auto|]. split; [left; cbn [w_newJ w_nfi_up w_maxf]; rewrite H7; exact F9|].
      split; [exists l; split; [exact G2|exact G3]|]. left. split.
      { unfold again_J. cbn [w_newJ w_nfi_up w_LU w_curJ w_jcalls w_std w_nfi w_nfs]. rewrite H11, H6, H9, H8, F5, F10, F7, F8.
        split; [congruence|]. do 6 (split; [reflexivity|]). exists jac. split; [exact EJ|]. cbn [w_newJ w_J]. reflexivity. }
      auto.
  - reflexivity.
Qed.
End Loop.
