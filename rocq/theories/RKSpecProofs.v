(** The model meets the specifications of SpecRK.v. *)
From Coq Require Import String ZArith Reals Lra QArith Bool Lia List.
From Verif Require Import Arith Common Stiff RK RKGen RKHist SpecRK.
Import ListNotations.
Open Scope nat_scope.

Section S.
Context {A : Arith}.
Notation num := (num A).
Notation vec := (list num).

Lemma lincomb_wsum (w : vec) : forall (k : list vec) (acc : vec),
  fold_left (fun acc (wk : num * vec) => vadd acc (vscale (fst wk) (snd wk))) (combine w k) acc = wsum acc w k.
Proof.
  induction w as [|x w IH]; intros [|k0 k] acc; simpl; auto.
Qed.

Lemma lincomb_eq n (w : vec) (k : list vec) : lincomb n w k = wsum (repeat n0 n) w k.
Proof. apply lincomb_wsum. Qed.

Lemma rk_textbook (T : Tab A) n c s s' h Ks en m :
  m_stages m = r_stages T -> m_point m = rk_point T n -> m_sol m = rk_sol T n ->
  fresh c s -> accepted m c s s' h Ks en ->
  textbook_rk T n (fn c) (t s) (y s) h Ks (t s') (y s').
Proof.
  intros E1 E2 E3 HF [[H1 [H2 H3]] Ht Hy _ _ _ _ _ _ _ _].
  unfold textbook_rk. rewrite <- E1. split; [exact H1|]. split; [rewrite H2; exact HF|].
  split; [|split; [exact Ht|]].
  - intros i Hi. rewrite (H3 i Hi), E2. unfold rk_point. cbn [fst snd]. rewrite lincomb_eq. reflexivity.
  - rewrite Hy, E3. unfold rk_sol. rewrite lincomb_eq. reflexivity.
Qed.

Lemma rkn_textbook (T : TabN A) n c s s' h Ks en m :
  m_stages m = n_stages T -> m_point m = rkn_point T n -> m_sol m = rkn_sol T n ->
  fresh c s -> accepted m c s s' h Ks en ->
  textbook_rkn T n (fn c) (t s) (y s) h Ks (t s') (y s').
Proof.
  intros E1 E2 E3 HF [[H1 [H2 H3]] Ht Hy _ _ _ _ _ _ _ _].
  unfold textbook_rkn. rewrite <- E1. split; [exact H1|]. split; [rewrite H2; exact HF|].
  split; [|split; [exact Ht|]].
  - intros i Hi. cbv zeta. rewrite (H3 i Hi), E2. unfold rkn_point. cbn [fst snd]. rewrite !lincomb_eq. reflexivity.
  - rewrite Hy, E3. unfold rkn_sol. rewrite !lincomb_eq. reflexivity.
Qed.

Lemma err_norm_rms (c : Cfg A) (yo yn e : vec) : err_norm c yo yn e = scaled_rms (rtol c) (atol c) yo yn e.
Proof. reflexivity. Qed.

(** a running solver's step from a built state: fresh holds at every running state *)
Lemma running_fresh (m : Meth A) (c : Cfg A) v0 n v : min_stages m -> fresh c (st v0) -> history m c v0 n v ->
  stat v = Running -> fresh c (st v).
Proof.
  intros Hm H0 H Hr. destruct (history_f m c v0 n v Hm H0 H) as [?|(E & _)]; [auto|congruence].
Qed.

End S.
