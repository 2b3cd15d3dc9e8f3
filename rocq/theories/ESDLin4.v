(** ESDIRK on linear problems: one trial, one step, every history. *)
From Coq Require Import String Reals Lra QArith Qreals Bool Lia List Arith.
From Verif Require Import Arith Common Stiff RK HStart RKInit RX Tableaux Classes Dense Ode RKReal RKInitReal Series OrderCheck OrderRK OrderModel RKSpecProofs
  ESDIRK ESDCls ESDGen ESDReal ESDStep ESDInv ESDTop ESDLin ESDLin2 ESDLin3.
Import ListNotations.
Close Scope string_scope. Open Scope nat_scope. Open Scope R_scope.

Lemma last_map {X Y} (f : X -> Y) l dx : l <> [] -> forall dy, last (map f l) dy = f (last l dx).
Proof.
  induction l as [|a l IH]; intros H dy; [congruence|]. destruct l as [|b l]; [reflexivity|]. cbn [map last] in *. apply IH. discriminate.
Qed.
Lemma last_nth {X} (l : list X) dx : last l dx = nth (length l - 1) l dx.
Proof. induction l as [|a l IH]; [reflexivity|]. destruct l as [|b l]; [reflexivity|]. cbn [last length] in *. rewrite IH. cbn [nth]. replace (S (S (length l)) - 1)%nat with (S (S (length l) - 1)) by lia. reflexivity. Qed.


Section Lin.
Variables (m : EMeth RX) (d : nat) (M : option (list (list R))) (J : list (list R)) (F : R -> list R -> list R) (c : ECfg RX) (r : econst).
Hypothesis HT : real_tab m.
Hypothesis HC : lin_cfg m d M J F c.
Hypothesis HA : la_ok m c.
Hypothesis HG : egood c r.
Hypothesis Hd : x_n c = d.

(** state of a linear problem: real, with M y' = F(t, y) *)
Definition lstate (s : ES RX) (t : R) (y yp : list R) : Prop :=
  e_t s = Fin t /\ e_y s = map Fin y /\ e_yp s = map Fin yp /\ length y = d /\ length yp = d /\
  forall q, (q < d)%nat -> rmv_opt d M yp q = nth q (F t y) 0.

Definition textbook (t h : R) (y : list R) (ks : list (list R)) (y' : list R) : Prop :=
  length ks = em_stages m /\ stage_eqs m d M F t h y ks /\ y' = rpoint d y h (lcomb (em_stages m) (rA m (em_stages m - 1)) ks).

Lemma etrial_lin s t y yp w h ms rej : lstate s t y yp -> winv m c s w -> w_J w = map (map Fin) J -> 0 < h ->
  match etrial m c s w (Fin h) (Fin ms) rej with
  | EtFail w' => w' = w
  | EtRaise _ => True
  | EtAgain w' _ _ => w_J w' = w_J w /\ w_nfi w' = w_nfi w /\ w_nfs w' = S (w_nfs w) /\ exists l, w_calls w' = (w_calls w ++ l)%list /\ length l = (em_stages m - 1)%nat
  | EtAccept w' hh _ _ yn _ K => w_J w' = w_J w /\ w_nfi w' = w_nfi w /\ w_nfs w' = w_nfs w /\ hh = Fin (h * cd r) /\
      (exists l, w_calls w' = (w_calls w ++ l)%list /\ map fst l = map (fun i => Fin (t + rC m i * (h * cd r))) (seq 1 (em_stages m - 1))) /\
      exists ks y', K = map (map Fin) ks /\ nth 0 ks [] = yp /\ yn = map Fin y' /\ textbook t (h * cd r) y ks y'
  end.
Proof.
  intros (S1 & S2 & S3 & S4 & S5 & S6) HW HJ Hh. pose proof HW as (W1 & W2 & W3 & W4 & W5).
  assert (HG' := HG). destruct HG' as (_ & Gd & Gd2 & _).
  assert (Hhr : h * cd r <> 0) by (apply Rmult_integral_contrapositive; split; [lra|destruct Gd2 as [-> | ->]; lra]).
  assert (Hs2 : (2 <= em_stages m)%nat) by apply HA.
  unfold etrial. change (nltb RX (Fin h) (Fin ms)) with (xltb (Fin h) (Fin ms)). destruct (xltb (Fin h) (Fin ms)); [reflexivity|].
  rewrite Gd. change (nmul RX (Fin h) (Fin (cd r))) with (Fin (h * cd r)). set (hr := h * cd r) in *.
  destruct (factorise m c w (Fin hr)) as [[L w1]|e] eqn:EF; [|exact I].
  apply factorise_ok in EF; [|exact W2]. destruct EF as (F1 & F2 & F3 & F4 & F5 & F6 & F7 & F8 & F9 & F10 & F11).
  assert (HI : (w_Sc w1, L) = iteration_matrix m c (map (map Fin) J) (Fin hr)).
  { destruct F1 as [_ F1]. rewrite F2 in F1. destruct F1 as (_ & h' & Eh & E). rewrite F3, HJ in E.
    assert (h' = Fin hr); [|congruence]. destruct F11 as [[-> F11]|[F11 _]]; [|congruence].
    unfold need_lu in F11. rewrite (lc_lin _ _ _ _ _ _ HC), Eh in F11. destruct (w_LU w); [|discriminate F11]. destruct (x_jac_each c); [discriminate F11|].
    cbn [orb andb] in F11. apply negb_false_iff in F11. change (neqb RX) with xeqb in F11. destruct h' as [h'| | |]; try discriminate F11. cbn in F11.
    unfold Reqb in F11. destruct (Req_EM_T hr h'); [congruence|discriminate F11]. }
  rewrite S1, S2, S3.
  change (num RX) with xr. match goal with |- context [let (_, _) := ?x in _] => destruct x as [sr w2] eqn:ES end.
  pose proof (estages_core _ _ _ _ _ _ _ _ _ _ _ _ _ _ ES) as (G1 & _). 
  unfold core in G1. cbn [w_rates w_J w_curJ w_LU w_hLU w_Sc w_std w_maxf w_nfs w_nfi w_nlu w_jcalls] in G1.
  injection G1 as H1 H2 H3 H4 H5 H6 H7 H8 H9 H10 H11.
  change [map Fin yp] with (map (map Fin) [yp]) in ES.
  apply (estages_lin m d M J F c HT HC Hs2 t hr y L Hhr S4) in ES; [|lia|lia|reflexivity| |exact HI|intros; lia].
  2:{ intros i Hi. cbn [length] in Hi. replace i with 0%nat by lia. cbn [nth]. split; [exact S5|]. intros q Hq. rewrite S6 by exact Hq.
      f_equal. rewrite (rt_c0 m HT), Rmult_0_l, Rplus_0_r. f_equal. apply nth_eq_list; [rewrite rpoint_len; exact S4|]. intros q0 Hq0.
      rewrite rpoint_nth by lia. unfold lcomb. cbn [rsum]. rewrite (rt_00 m HT). ring. }
  destruct sr as [K psi z| |e]; [|contradiction|exact I].
  destruct ES as (ks & -> & Lk & HE & Hf & EY & l & El & Tl). cbn [w_rates w_calls] in El. rewrite F6 in El.
  rewrite EY. set (yn := rpoint d y hr _) in *.
  match goal with |- context [match ?x with inl _ => _ | inr _ => _ end] => set (flt := x) end.
  assert (FL : forall err' w3, flt = inl (err', w3) -> core w3 = core w2 /\ w_calls w3 = w_calls w2).
  { unfold flt. intros err' w3 E. destruct (em_filter m); [|injection E as <- <-; auto].
    destruct (x_solve c L _); [|discriminate]. injection E as <- <-. auto. }
  destruct flt as [[err' w3]|e]; [|exact I]. destruct (FL _ _ eq_refl) as (I1 & I2). clear FL.
  match goal with |- context [eassess c s w3 ?e ?h rej] => destruct (eassess c s w3 e h rej) as [[[acc hn] w4]|e0] eqn:EA; [|exact I] end.
  pose proof (eassess_core _ _ _ _ _ _ _ _ _ EA) as ((J1 & J2 & J3 & J4 & J5 & J6 & J7 & J8 & J9 & J10) & J11 & J12 & J13 & J14).
  unfold core in I1. injection I1 as K1 K2 K3 K4 K5 K6 K7 K8 K9 K10 K11.
  destruct acc.
  - split; [congruence|]. split; [congruence|]. split; [rewrite J12, K8, H8, F7; lia|]. split; [reflexivity|]. split; [exists l; split; [rewrite J8, I2; exact El|exact Tl]|].
    exists ks, yn. split; [reflexivity|]. split; [|split; [reflexivity|]].
    + assert (E : nth 0 (firstn 1 ks) [] = yp) by (rewrite Hf; reflexivity). rewrite nth_firstn_lt in E by lia. exact E.
    + split; [exact Lk|]. split; [exact HE|]. reflexivity.
  - split; [congruence|]. split; [congruence|]. split; [rewrite J12, K8, H8, F7; lia|]. exists l. split; [rewrite J8, I2; exact El|].
    pose proof (f_equal (@length _) Tl) as TL. rewrite !map_length, seq_length in TL. exact TL.
Qed.

(** the whole loop *)
Lemma eloop_lin s t y yp ms : lstate s t y yp -> forall fuel w h rej s', winv m c s w -> w_J w = map (map Fin) J -> 0 < h ->
  eloop fuel m c s w (Fin h) (Fin ms) rej = IDone s' ->
  exists hr ks y' yp' j l lp, hr <> 0 /\ lstate s' (t + hr) y' yp' /\ textbook t hr y ks y' /\ nth 0 ks [] = yp /\ nth (em_stages m - 1) ks [] = yp' /\ e_K s' = map (map Fin) ks /\
    e_hprev s' = Some (Fin hr) /\
    w_J (e_w s') = map (map Fin) J /\ w_nfi (e_w s') = w_nfi w /\ w_nfs (e_w s') = (w_nfs w + j)%nat /\
    w_calls (e_w s') = (w_calls w ++ lp ++ l)%list /\ length lp = ((em_stages m - 1) * j)%nat /\ map fst l = map (fun i => Fin (t + rC m i * hr)) (seq 1 (em_stages m - 1)).
Proof.
  intros HS. pose proof HS as (S1 & S2 & S3 & S4 & S5 & S6).
  assert (Hs2 : (2 <= em_stages m)%nat) by apply HA.
  assert (Ly : length (e_y s) = x_n c) by (change (num RX) with xr; rewrite S2, map_length, Hd; exact S4).
  assert (Lp : length (e_yp s) = x_n c) by (change (num RX) with xr; rewrite S3, map_length, Hd; exact S5).
  induction fuel as [|fuel IH]; intros w h rej s' HW HJ Hh H; [discriminate H|]. cbn [eloop] in H.
  pose proof (etrial_lin s t y yp w h ms rej HS HW HJ Hh) as HL.
  pose proof (fin_trial m c r s w h ms rej HA HG HW Ly Lp Hh) as HF.
  destruct (etrial m c s w (Fin h) (Fin ms) rej) as [w'|e|w' ha' rej'|w' hh hn tn yn en K] eqn:ET; [discriminate H|discriminate H| |].
  - destruct HL as (L1 & L2 & L3 & l0 & L4 & L5). destruct HF as (_ & W' & HF).
    assert (CJ : w_curJ w = true). { destruct HW as (_ & _ & HN & _). apply HN. apply (lc_lin _ _ _ _ _ _ HC). }
    destruct HF as [(_ & _ & _ & [(q & -> & Hq)| ->])|(HF & _)]; [| |congruence].
    + assert (Hhq : 0 < h * q) by nra.
      destruct (IH _ _ _ _ W' ltac:(congruence) Hhq H) as (hr & ks & y' & yp' & j & l & lp & B1 & B2 & B3 & B4 & B5 & B6 & B7 & B8 & B9 & B10 & B11 & B12 & B13).
      exists hr, ks, y', yp', (S j), l, (l0 ++ lp)%list. do 8 (split; [assumption|]). split; [congruence|]. split; [lia|].
      split; [rewrite B11, L4, <- !app_assoc; reflexivity|]. split; [rewrite app_length; lia|exact B13].
    + exfalso. destruct fuel as [|[|fuel]]; [discriminate H| |].
      * cbn [eloop] in H. pose proof (nan_trial m c r s w' ms rej' HA HG W' Ly Lp) as HN. destruct (etrial m c s w' NaN (Fin ms) rej') as [| | |]; try contradiction; discriminate H.
      * change (S (S fuel)) with (2 + fuel)%nat in H. rewrite (nan_loop m c r s ms HA HG Ly Lp fuel w' rej' W') in H. discriminate H.
  - injection H as <-. destruct HL as (L1 & L2 & L3 & -> & (l & L4 & L5) & ks & y' & -> & K0 & -> & HTB).
    destruct HF as (_ & _ & _ & -> & _).
    pose proof HTB as (T1 & T2 & T3).
    exists (h * cd r), ks, y', (nth (em_stages m - 1) ks []), 0%nat, l, [].
    assert (HG' := HG). destruct HG' as (_ & _ & Gd2 & _).
    split; [apply Rmult_integral_contrapositive; split; [lra|destruct Gd2 as [-> | ->]; lra]|]. split; [|split; [exact HTB|]].
    + unfold lstate, efinish. cbn [e_t e_y e_yp]. split; [rewrite S1; reflexivity|]. split; [reflexivity|]. split.
      { change (num RX) with xr. rewrite (last_map (map Fin) ks []); [|intros ->; cbn [length] in T1; lia]. rewrite last_nth, T1. reflexivity. }
      split; [rewrite T3; apply rpoint_len|]. destruct (T2 (em_stages m - 1)%nat ltac:(lia)) as (X1 & X2). split; [exact X1|]. intros q Hq. rewrite X2 by exact Hq.
      replace (S (em_stages m - 1)) with (em_stages m) by lia. rewrite <- T3. rewrite (rt_c1 m HT), Rmult_1_l. reflexivity.
    + do 1 (split; [assumption|]). do 3 (split; [reflexivity|]). cbn [efinish e_w w_cur w_J w_nfi w_nfs w_calls]. split; [congruence|]. split; [exact L2|]. split; [lia|].
      split; [exact L4|]. split; [cbn [length]; lia|exact L5].
Qed.
End Lin.
