(** Accuracy of one step of the modelled explicit solvers (first order systems). *)
From Coq Require Import Reals Lra QArith Qreals Lia List Arith Bool FunctionalExtensionality.
From Verif Require Import Arith Common RK RX SpecRK Classes Series Trees OrderThm OrderCheck OrderRK OrderRKN OrderModel.
Import ListNotations.
Open Scope R_scope.

Lemma uniform_q {X : Type} d n (D : X -> Prop) (g : nat -> X -> R -> R) :
  (forall q, (q < d)%nat -> exists C del, 0 < del /\ forall th h, D th -> Rabs h < del -> Rabs (g q th h) <= C * Rabs h ^ n) ->
  exists C del, 0 < del /\ forall th h, D th -> Rabs h < del -> forall q, (q < d)%nat -> Rabs (g q th h) <= C * Rabs h ^ n.
Proof.
  induction d as [|d IH]; intros H; [exists 0, 1; split; [lra|intros; lia]|].
  destruct IH as (C1 & d1 & Hd1 & H1); [intros; apply H; lia|].
  destruct (H d ltac:(lia)) as (C2 & d2 & Hd2 & H2).
  exists (Rmax C1 C2), (Rmin d1 d2). split; [apply Rmin_case; auto|]. intros th h HD Hh q Hq.
  assert (A1 : Rabs h < d1) by (eapply Rlt_le_trans; [exact Hh|apply Rmin_l]).
  assert (A2 : Rabs h < d2) by (eapply Rlt_le_trans; [exact Hh|apply Rmin_r]).
  assert (P : 0 <= Rabs h ^ n) by (apply pow_le, Rabs_pos).
  destruct (Nat.eq_dec q d) as [->|Hne].
  - eapply Rle_trans; [apply (H2 th h HD A2)|]. apply Rmult_le_compat_r; auto. apply Rmax_r.
  - eapply Rle_trans; [apply (H1 th h HD A1); lia|]. apply Rmult_le_compat_r; auto. apply Rmax_l.
Qed.

Lemma rpoint_nth d y h g q : (q < d)%nat -> nth q (rpoint d y h g) 0 = nth q y 0 + h * g q.
Proof. intros H. unfold rpoint. apply (nth_map_seq (fun q => nth q y 0 + h * g q)); auto. Qed.
Lemma rpoint_len d y h g : length (rpoint d y h g) = d.
Proof. unfold rpoint. rewrite map_length, seq_length. reflexivity. Qed.

(** the stages including the derivative at the new point *)
Lemma ext_all d F g A b c t y h s : lifts d F g -> length A = s -> length b = s -> length c = s -> length y = d ->
  let rs := rstages F (mq A) (vq c) t y h s in
  let yn := rpoint d y h (lcomb s (vq b) rs) in
  rstages F (mq (extA A b [])) (vq (extC c [])) t y h (S s) = rs ++ [F (t + h) yn].
Proof.
  intros HL LA LB LC Ly rs yn.
  pose proof (rstages_length F (mq (extA A b [])) (vq (extC c [])) t y h (S s)) as LS.
  pose proof (ext_stage_new d F A b c [] [] t y h s LA LC Ly) as EN.
  pose proof (ext_stages F A b c [] [] t y h s LA LC) as EP.
  cbn [rstages] in *. rewrite EP in *. change (rstages F (mq A) (vq c) t y h s) with rs in EN |- *. f_equal.
  rewrite app_nth2 in EN; [|unfold rs; rewrite rstages_length; lia].
  replace (s - length rs)%nat with 0%nat in EN by (unfold rs; rewrite rstages_length; lia).
  cbn [nth] in EN. rewrite EN. reflexivity.
Qed.

Lemma nth_lv_fin e s : nth s (@lv RX e) n0 = Fin (vq e s).
Proof. rewrite lv_fin, <- nth_Q2R. unfold n0, lit. cbn [nofQ RX]. rewrite Q2R_0'. apply (map_nth Fin (map Q2R e) 0). Qed.
(** the model's error estimate is the real combination of the extended stages *)
Lemma tab_error_real d F g s A b c e t y h : lifts d F g -> length A = s -> length b = s -> length c = s ->
  (length e <= S s)%nat -> length y = d ->
  let rs := rstages F (mq A) (vq c) t y h s in
  let yn := rpoint d y h (lcomb s (vq b) rs) in
  exists er, tab_error (mk_tab s A b c e) d g (Fin h) (map (map Fin) rs) (Fin (t + h)) (map Fin yn) = map Fin er /\
    length er = d /\ forall q, (q < d)%nat ->
      nth q er 0 = h * lcomb (S s) (vq e) (rstages F (mq (extA A b [])) (vq (extC c [])) t y h (S s)) q.
Proof.
  intros HL LA LB LC LE Ly rs yn. unfold tab_error. cbv zeta. cbn [mk_tab r_stages r_E].
  assert (HFl : forall t y, length y = d -> length (F t y) = d) by (intros; apply HL; auto).
  assert (FR : Forall (fun k => length k = d) rs) by (apply (rstages_Forall d); auto).
  assert (Ln : length yn = d) by apply rpoint_len.
  rewrite (ext_all d F g A b c t y h s HL LA LB LC Ly). fold rs yn.
  rewrite lv_fin.
  match goal with |- context [negb ?x] => destruct (negb x) eqn:EF end.
  - destruct (HL (t + h) yn Ln) as (LF & ->).
    change [map Fin (F (t + h) yn)] with (map (map Fin) [F (t + h) yn]). rewrite <- map_app.
    destruct (hcomb_fin d (map Q2R e) (rs ++ [F (t + h) yn]) h) as (r & E & L & N); [apply Forall_app; split; auto|].
    exists r. split; [exact E|]. split; auto. intros q Hq. rewrite N by auto.
    rewrite app_length. unfold rs at 1. rewrite rstages_length. cbn [length]. rewrite Nat.add_1_r.
    f_equal. unfold lcomb. apply rsum_ext. intros l _. rewrite nth_Q2R. reflexivity.
  - destruct (hcomb_fin d (map Q2R e) rs h FR) as (r & E & L & N).
    exists r. split; [exact E|]. split; auto. intros q Hq. rewrite N by auto. unfold rs at 1. rewrite rstages_length.
    f_equal. unfold lcomb. cbn [rsum]. 
    assert (E0 : vq e s = 0).
    { apply negb_false_iff in EF. assert (EN := nth_lv_fin e s). rewrite lv_fin in EN. unfold n0, lit in *. cbn [nofQ RX num] in *. rewrite EN in EF.
      change (xeqb (Fin (vq e s)) (Fin (Q2R 0)) = true) in EF. rewrite Q2R_0' in EF. apply Reqb_true in EF. exact EF. }
    rewrite E0. rewrite Rmult_0_l, Rplus_0_r. apply rsum_ext. intros l Hl. rewrite nth_Q2R.
    rewrite app_nth1; auto. unfold rs. rewrite rstages_length. auto.
Qed.

(** one step of tableau T from (t0, y0) has local error O(h^(p+1)) and its error
    estimate is O(h^(pe+1)), for every problem of dimension d with a smooth right-hand side *)
Definition rk_accurate (T : Tab RX) (d p pe : nat) : Prop :=
  forall F t0 y0 Y g, lifts d F g -> length y0 = d -> smooth_at p F t0 y0 -> solves F t0 y0 Y ->
  exists C del, 0 < del /\ forall h ks t' y', Rabs h < del ->
    textbook_rk T d g (Fin t0) (map Fin y0) (Fin h) ks t' y' ->
    exists yr er, t' = Fin (t0 + h) /\ y' = map Fin yr /\ tab_error T d g (Fin h) ks t' y' = map Fin er /\
      length yr = d /\ length er = d /\
      forall q, (q < d)%nat -> Rabs (nth q yr 0 - nth q (Y (t0 + h)) 0) <= C * Rabs h ^ S p /\
                               Rabs (nth q er 0) <= C * Rabs h ^ S pe.

Theorem pair_accurate s A b c e p pe d : pair_ok s A b c e p pe = true -> rk_accurate (mk_tab s A b c e) d p pe.
Proof.
  intros HP F t0 y0 Y g HL Hy HF HY.
  destruct (pair_ok_spec s A b c e p pe HP) as (LA & LB & LC & LE & C0 & Hpe & Hlow & HV & HZ).
  destruct (weights_bound (S s) (vq b)) as (B & HB & Hb).
  destruct (uniform_q d (S p) (fun th => th = 1) (fun q th h => nth q y0 0 + h * lcomb (S s) (vq b)
     (rstages F (mq (extA A b [])) (vq (extC c [])) t0 y0 h (S s)) q - nth q (Y (t0 + th * h)) 0)) as (C1 & d1 & Hd1 & H1).
  { intros q Hq. apply (rk_order F t0 y0 p HF Y HY (S s) (mq (extA A b [])) (vq (extC c [])) Hlow (fun th => th = 1) (fun _ => vq b) B p q); try lia; auto.
    intros th ->. split; [rewrite Rabs_R1; lra|]. split; [exact Hb|exact HV]. }
  destruct (uniform_q d (S pe) (fun _ : unit => True) (fun q _ h => h * lcomb (S s) (vq e)
     (rstages F (mq (extA A b [])) (vq (extC c [])) t0 y0 h (S s)) q)) as (C2 & d2 & Hd2 & H2).
  { intros q Hq. destruct (rk_small F t0 y0 p HF (S s) (mq (extA A b [])) (vq (extC c [])) Hlow (vq e) pe q) as (C & del & Hd & H); try lia; auto.
    exists C, del. split; auto. }
  exists (Rmax C1 C2), (Rmin d1 d2). split; [apply Rmin_case; auto|]. intros h ks t' y' Hh HT.
  assert (A1 : Rabs h < d1) by (eapply Rlt_le_trans; [exact Hh|apply Rmin_l]).
  assert (A2 : Rabs h < d2) by (eapply Rlt_le_trans; [exact Hh|apply Rmin_r]).
  destruct (textbook_real d F g s A b c e t0 y0 h ks t' y' HL Hy C0 HT) as (-> & -> & ->).
  destruct (tab_error_real d F g s A b c e t0 y0 h HL LA LB LC LE Hy) as (er & -> & Le & Ne).
  eexists. exists er. split; [reflexivity|]. split; [reflexivity|]. split; [reflexivity|]. split; [apply rpoint_len|]. split; [exact Le|].
  intros q Hq. assert (P : forall n, 0 <= Rabs h ^ n) by (intros; apply pow_le, Rabs_pos).
  split.
  - rewrite rpoint_nth by auto. specialize (H1 1 h eq_refl A1 q Hq). rewrite Rmult_1_l in H1.
    rewrite <- (ext_stages F A b c [] [] t0 y0 h s LA LC).
    rewrite (lcomb_ext_zero F (mq (extA A b [])) (vq (extC c [])) t0 y0 h s (S s) (vq b) q) by (try lia; intros; apply vq_overflow; lia).
    eapply Rle_trans; [exact H1|]. apply Rmult_le_compat_r; auto. apply Rmax_l.
  - rewrite Ne by auto. eapply Rle_trans; [apply (H2 tt h I A2 q Hq)|]. apply Rmult_le_compat_r; auto. apply Rmax_r.
Qed.
