(** Stability functions of the ESDIRK tables: polynomials over Q(sqrt 2). *)
From Coquelicot Require Import Coquelicot.
From Coq Require Import String Reals Lra Psatz QArith Qreals Bool Lia List Arith.
From Verif Require Import Arith Common Stiff RK HStart RKInit RX Tableaux Classes Ode RKReal RKInitReal Series Trees OrderThm OrderCheck OrderRK
  ESDIRK ESDCls ESDGen ESDReal ESDStep ESDLin ESDLin2 ESDLin3.
Import ListNotations.
Close Scope string_scope. Open Scope nat_scope. Open Scope R_scope.

Notation C := Complex.C.
(** ** the stability function of a Runge-Kutta table (A, b) with s stages *)
Fixpoint csum (n : nat) (f : nat -> C) : C := match n with O => RtoC 0 | S m => Cplus (csum m f) (f m) end.
(** k_i are the slopes, times h, of one step for y' = lam y from y = 1; z = h lam *)
Definition stability_value (s : nat) (A : nat -> nat -> R) (b : nat -> R) (z r : C) : Prop :=
  exists k : nat -> C,
    (forall i, (i < s)%nat -> k i = Cmult z (Cplus (RtoC 1) (csum s (fun l => Cmult (RtoC (A i l)) (k l))))) /\
    r = Cplus (RtoC 1) (csum s (fun l => Cmult (RtoC (b l)) (k l))).

Lemma csum_ext n f g : (forall i, (i < n)%nat -> f i = g i) -> csum n f = csum n g.
Proof. induction n as [|n IH]; intros H; [reflexivity|]. cbn [csum]. rewrite IH by (intros; apply H; lia). rewrite H by lia. reflexivity. Qed.
Lemma csum_scal n c f : csum n (fun i => Cmult c (f i)) = Cmult c (csum n f).
Proof. induction n as [|n IH]; cbn [csum]; [ring|]. rewrite IH. ring. Qed.
Lemma csum_0 n f : (forall i, (i < n)%nat -> f i = RtoC 0) -> csum n f = RtoC 0.
Proof. induction n as [|n IH]; intros H; [reflexivity|]. cbn [csum]. rewrite IH by (intros; apply H; lia). rewrite H by lia. ring. Qed.
Lemma csum_split n m f : csum (n + m) f = Cplus (csum n f) (csum m (fun i => f (n + i)%nat)).
Proof. induction m as [|m IH]; [rewrite Nat.add_0_r; cbn; ring|]. rewrite Nat.add_succ_r. cbn [csum]. rewrite IH. ring. Qed.
Lemma csum_tail0 n m f : (n <= m)%nat -> (forall i, (n <= i)%nat -> f i = RtoC 0) -> csum m f = csum n f.
Proof. intros H H0. replace m with (n + (m - n))%nat by lia. rewrite csum_split, (csum_0 (m - n)); [ring|]. intros; apply H0; lia. Qed.

(** ** polynomials with coefficients p + q sqrt 2 *)
Notation K := (Q * Q)%type.
(** addition without growing equal denominators *)
Definition qadd (a b : Q) : Q := if Pos.eqb (Qden a) (Qden b) then ((Qnum a + Qnum b)%Z # Qden a) else (a + b)%Q.
Lemma qadd_ok a b : (qadd a b == a + b)%Q.
Proof.
  unfold qadd. destruct a as [na da], b as [nb db]. cbn [Qnum Qden]. destruct (Pos.eqb_spec da db) as [<-|_]; [|reflexivity].
  unfold Qeq, Qplus. cbn [Qnum Qden]. rewrite Pos2Z.inj_mul. ring.
Qed.
Definition kadd (a b : K) : K := (qadd (fst a) (fst b), qadd (snd a) (snd b)).
Definition kmul (a b : K) : K := (qadd (fst a * fst b) (2 * (snd a * snd b)), qadd (fst a * snd b) (snd a * fst b))%Q.
Definition kv : K -> R := cv Q2N.
Definition kopp (a : K) : K := ((- fst a)%Q, (- snd a)%Q).
Lemma kv_add a b : kv (kadd a b) = kv a + kv b.
Proof. unfold kv, kadd. cbn [cv Q2N fst snd]. rewrite (Qeq_eqR _ _ (qadd_ok (fst a) (fst b))), (Qeq_eqR _ _ (qadd_ok (snd a) (snd b))), !Q2R_plus. ring. Qed.
Lemma kv_mul a b : kv (kmul a b) = kv a * kv b.
Proof.
  unfold kv, kmul. cbn [cv Q2N fst snd]. rewrite (Qeq_eqR _ _ (qadd_ok _ (2 * _))), (Qeq_eqR _ _ (qadd_ok (fst a * snd b) _)), !Q2R_plus, !Q2R_mult.
  replace (Q2R 2) with (sqrt 2 * sqrt 2) by (rewrite sqrt_sqrt by lra; unfold Q2R; cbn; lra). ring.
Qed.
Lemma kv_opp a : kv (kopp a) = - kv a. Proof. unfold kv, kopp. cbn [cv Q2N fst snd]. rewrite !Q2R_opp. ring. Qed.
Lemma kv_0 : kv p0 = 0. Proof. apply (cv0 Q2N). Qed.
Lemma kv_1 : kv (1, 0)%Q = 1. Proof. apply (cv1 Q2N). Qed.
Definition kzero (a : K) : bool := Qeq_bool (fst a) 0 && Qeq_bool (snd a) 0.
Lemma kzero_ok a : kzero a = true -> kv a = 0.
Proof. intros H. rewrite <- kv_0. apply (cveqb Q2N). exact H. Qed.
(** p + q sqrt 2 >= 0 *)
Definition kpos (a : K) : bool :=
  let p := fst a in let q := snd a in
  (Qle_bool 0 p && Qle_bool 0 q) || (Qle_bool 0 p && Qle_bool q 0 && Qle_bool (2 * (q * q)) (p * p)) || (Qle_bool p 0 && Qle_bool 0 q && Qle_bool (p * p) (2 * (q * q))).
Lemma kpos_ok a : kpos a = true -> 0 <= kv a.
Proof.
  unfold kpos, kv. cbn [cv Q2N]. destruct a as [p q]. cbn [fst snd]. intros H. assert (S2 : sqrt 2 * sqrt 2 = 2) by (apply sqrt_sqrt; lra). pose proof (sqrt_pos 2) as S0.
  assert (T : forall x y, Qle_bool x y = true -> Q2R x <= Q2R y) by (intros; apply Qle_Rle, Qle_bool_iff; assumption).
  rewrite !orb_true_iff, !andb_true_iff in H.
  destruct H as [[[H1 H2]|[[H1 H2] H3]]|[[H1 H2] H3]]; apply T in H1, H2; try apply T in H3; rewrite ?Q2R_mult, ?Q2R_0' in *.
  - nra.
  - replace (Q2R 2) with (sqrt 2 * sqrt 2) in H3 by (rewrite S2; unfold Q2R; cbn; lra). set (x := Q2R p) in *. set (y := Q2R q * sqrt 2).
    assert (y <= 0) by (unfold y; nra). assert (y * y <= x * x) by (unfold y; nra). assert (- y <= x); [|lra]. apply Rsqr_incr_0; unfold Rsqr; nra.
  - replace (Q2R 2) with (sqrt 2 * sqrt 2) in H3 by (rewrite S2; unfold Q2R; cbn; lra). set (x := Q2R p) in *. set (y := Q2R q * sqrt 2).
    assert (0 <= y) by (unfold y; nra). assert (x * x <= y * y) by (unfold y; nra). assert (- x <= y); [|lra]. apply Rsqr_incr_0; unfold Rsqr; nra.
Qed.

Fixpoint padd (p q : list K) : list K := match p, q with [], _ => q | _, [] => p | a :: p', b :: q' => kadd a b :: padd p' q' end.
Definition pscale (c : K) (p : list K) : list K := map (kmul c) p.
Fixpoint pmul (p q : list K) : list K := match p with [] => [] | a :: p' => padd (pscale a q) (p0 :: pmul p' q) end.
Fixpoint ppow (p : list K) (n : nat) : list K := match n with O => [(1, 0)%Q] | S m => pmul p (ppow p m) end.

Fixpoint pev (p : list K) (x : R) : R := match p with [] => 0 | a :: p' => kv a + x * pev p' x end.
Lemma pev_add p q x : pev (padd p q) x = pev p x + pev q x.
Proof. revert q. induction p as [|a p IH]; intros [|b q]; cbn [padd pev]; try ring. rewrite kv_add, IH. ring. Qed.
Lemma pev_scale c p x : pev (pscale c p) x = kv c * pev p x.
Proof. induction p as [|a p IH]; cbn [pscale map pev]; [ring|]. fold (pscale c p). rewrite kv_mul, IH. ring. Qed.
Lemma pev_mul p q x : pev (pmul p q) x = pev p x * pev q x.
Proof. induction p as [|a p IH]; cbn [pmul pev]; [ring|]. rewrite pev_add, pev_scale. cbn [pev]. rewrite IH, kv_0. ring. Qed.

Fixpoint cev (p : list K) (z : C) : C := match p with [] => RtoC 0 | a :: p' => Cplus (RtoC (kv a)) (Cmult z (cev p' z)) end.
Lemma RtoC_add a b : RtoC (a + b) = Cplus (RtoC a) (RtoC b). Proof. apply RtoC_plus. Qed.
Lemma RtoC_mul a b : RtoC (a * b) = Cmult (RtoC a) (RtoC b). Proof. apply RtoC_mult. Qed.
Lemma cev_add p q x : cev (padd p q) x = Cplus (cev p x) (cev q x).
Proof. revert q. induction p as [|a p IH]; intros [|b q]; cbn [padd cev]; try ring. rewrite kv_add, IH, RtoC_add. ring. Qed.
Lemma cev_scale c p x : cev (pscale c p) x = Cmult (RtoC (kv c)) (cev p x).
Proof. induction p as [|a p IH]; cbn [pscale map cev]; [ring|]. fold (pscale c p). rewrite kv_mul, IH, RtoC_mul. ring. Qed.
Lemma cev_mul p q x : cev (pmul p q) x = Cmult (cev p x) (cev q x).
Proof. induction p as [|a p IH]; cbn [pmul cev]; [ring|]. rewrite cev_add, cev_scale. cbn [cev]. rewrite IH, kv_0. ring. Qed.
Fixpoint cpow (z : C) (n : nat) : C := match n with O => RtoC 1 | S m => Cmult z (cpow z m) end.
Lemma cev_pow p n x : cev (ppow p n) x = cpow (cev p x) n.
Proof. induction n as [|n IH]; cbn [ppow cpow]; [cbn [cev]; rewrite kv_1; ring|]. rewrite cev_mul, IH. reflexivity. Qed.
Lemma cpow_add z n m : cpow z (n + m) = Cmult (cpow z n) (cpow z m).
Proof. induction n as [|n IH]; cbn [Nat.add cpow]; [ring|]. rewrite IH. ring. Qed.

(** ** numerators: N_i(z) = (1 - g z)^i Y_i for the stage values Y_i *)
Fixpoint psum (n : nat) (f : nat -> list K) : list K := match n with O => [] | S m => padd (psum m f) (f m) end.
Lemma cev_psum n f z : cev (psum n f) z = csum n (fun l => cev (f l) z).
Proof. induction n as [|n IH]; [reflexivity|]. cbn [psum csum]. rewrite cev_add, IH. reflexivity. Qed.
Definition kred (a : K) : K := (Qred (fst a), Qred (snd a)).
Lemma kv_red a : kv (kred a) = kv a.
Proof. unfold kv, kred. cbn [cv Q2N fst snd]. rewrite (Qeq_eqR _ _ (Qred_correct (fst a))), (Qeq_eqR _ _ (Qred_correct (snd a))). reflexivity. Qed.
Definition pred : list K -> list K := map kred.
Lemma cev_red p z : cev (pred p) z = cev p z.
Proof. induction p as [|a p IH]; cbn [pred map cev]; [reflexivity|]. fold (pred p). rewrite kv_red, IH. reflexivity. Qed.
Definition denom (g : K) : list K := [(1, 0)%Q; kopp g].
Definition numer1 (A : list (list K)) (D : list K) (i : nat) (L : list (list K)) : list K :=
  match i with
  | O => [(1, 0)%Q]
  | S j => pred (padd (ppow D j) (psum i (fun l => pred (pmul (pmul [p0; nth l (nth i A []) p0] (nth l L [])) (ppow D (j - l))))))
  end.
Fixpoint numers (A : list (list K)) (D : list K) (n : nat) : list (list K) :=
  match n with O => [] | S i => let L := numers A D i in L ++ [numer1 A D i L] end.
Lemma numers_len A D n : length (numers A D n) = n.
Proof. induction n as [|n IH]; [reflexivity|]. cbn [numers]. rewrite app_length, IH. cbn. lia. Qed.
Lemma numers_nth A D n i : (i < n)%nat -> nth i (numers A D n) [] = numer1 A D i (numers A D i).
Proof.
  induction n as [|n IH]; intros H; [lia|]. cbn [numers]. destruct (Nat.eq_dec i n) as [->|Hn].
  - rewrite app_nth2; rewrite numers_len; [|lia]. rewrite Nat.sub_diag. reflexivity.
  - rewrite app_nth1 by (rewrite numers_len; lia). apply IH. lia.
Qed.
Definition q_numer (T : qtab) : list K := numer1 (qA T) (denom (qd T)) (qs T - 1) (numers (qA T) (denom (qd T)) (qs T - 1)).
Definition q_denom (T : qtab) : list K := ppow (denom (qd T)) (qs T - 1).

(** the coefficients (A, b, gamma) with the table T of p + q sqrt 2 *)
Record tab_of (s : nat) (A : nat -> nat -> R) (b : nat -> R) (g : R) (T : qtab) : Prop := {
  to_s : s = qs T; to_1 : (1 <= s)%nat; to_A : forall i l, A i l = q2v (qent T i l); to_g : g = q2v (qd T);
  to_diag : forall i, (1 <= i < s)%nat -> A i i = g; to_low : forall i l, (i < l)%nat -> A i l = 0; to_00 : A 0%nat 0%nat = 0;
  to_last : forall l, A (s - 1)%nat l = b l }.
Section Table.
Variables (s : nat) (A : nat -> nat -> R) (b : nat -> R) (g : R) (T : qtab).
Hypothesis HT : tab_of s A b g T.
Variables (z : C) (k : nat -> C).
Hypothesis Hk : forall i, (i < s)%nat -> k i = Cmult z (Cplus (RtoC 1) (csum (s) (fun l => Cmult (RtoC (A i l)) (k l)))).
Let D := Cminus (RtoC 1) (Cmult z (RtoC g)).
Definition stageY (i : nat) : C := Cplus (RtoC 1) (csum (s) (fun l => Cmult (RtoC (A i l)) (k l))).
Lemma denom_ev : cev (denom (qd T)) z = D.
Proof. unfold denom, D. cbn [cev]. rewrite kv_1, kv_opp, (to_g _ _ _ _ _ HT), RtoC_opp. change (q2v (qd T)) with (kv (qd T)). ring. Qed.
Lemma stageY_eq i : (1 <= i < s)%nat -> Cmult D (stageY i) = Cplus (RtoC 1) (Cmult z (csum i (fun l => Cmult (RtoC (A i l)) (stageY l)))).
Proof.
  intros Hi. assert (E : stageY i = Cplus (RtoC 1) (Cplus (Cmult z (csum i (fun l => Cmult (RtoC (A i l)) (stageY l)))) (Cmult (RtoC g) (Cmult z (stageY i))))).
  { unfold stageY at 1. f_equal. rewrite (csum_tail0 (S i)); [|lia|].
    - cbn [csum]. rewrite (to_diag _ _ _ _ _ HT i Hi). assert (K1 : k i = Cmult z (stageY i)) by (apply Hk; lia). rewrite K1.
      assert (K2 : csum i (fun l => Cmult (RtoC (A i l)) (k l)) = Cmult z (csum i (fun l => Cmult (RtoC (A i l)) (stageY l)))).
      { rewrite <- csum_scal. apply csum_ext. intros l Hl. rewrite (Hk l) by lia. fold (stageY l). ring. }
      rewrite K2. reflexivity.
    - intros l Hl. rewrite (to_low _ _ _ _ _ HT) by lia. ring. }
  unfold D. set (Y := stageY i) in *. set (W := csum i _) in *. clearbody Y W. assert (E' : Cminus Y (Cmult (RtoC g) (Cmult z Y)) = Cplus (RtoC 1) (Cmult z W)) by (rewrite E at 1; ring). rewrite <- E'. ring.
Qed.
Lemma stageY_0 : stageY 0 = RtoC 1.
Proof. unfold stageY. rewrite csum_0; [ring|]. intros i _. destruct i; [rewrite (to_00 _ _ _ _ _ HT); ring|]. rewrite (to_low _ _ _ _ _ HT) by lia. ring. Qed.
Lemma numer_ev i : (i < s)%nat -> cev (numer1 (qA T) (denom (qd T)) i (numers (qA T) (denom (qd T)) i)) z = Cmult (cpow D i) (stageY i).
Proof.
  induction i as [i IH] using (well_founded_induction lt_wf). intros Hi. destruct i as [|j].
  - cbn [numer1 cev cpow]. rewrite stageY_0, kv_1. ring.
  - unfold numer1. rewrite cev_red, cev_add, cev_psum, cev_pow, denom_ev. cbn [cpow].
    replace (Cmult (Cmult D (cpow D j)) (stageY (S j))) with (Cmult (cpow D j) (Cmult D (stageY (S j)))) by ring. rewrite stageY_eq by lia.
    replace (Cmult (cpow D j) (Cplus (RtoC 1) (Cmult z (csum (S j) (fun l => Cmult (RtoC (A (S j) l)) (stageY l)))))) with (Cplus (cpow D j) (Cmult (Cmult (cpow D j) z) (csum (S j) (fun l => Cmult (RtoC (A (S j) l)) (stageY l))))) by ring.
    f_equal. rewrite <- csum_scal. apply csum_ext. intros l Hl. rewrite cev_red, !cev_mul, cev_pow, denom_ev, numers_nth by lia. rewrite (IH l) by lia. cbn [cev]. rewrite kv_0.
    change (kv (nth l (nth (S j) (qA T) []) p0)) with (q2v (qent T (S j) l)). rewrite <- (to_A _ _ _ _ _ HT (S j) l). replace (cpow D j) with (Cmult (cpow D l) (cpow D (j - l))) by (rewrite <- cpow_add; f_equal; lia). ring.
Qed.
Lemma value_last r : r = Cplus (RtoC 1) (csum (s) (fun l => Cmult (RtoC (b l)) (k l))) -> r = stageY (s - 1).
Proof. intros ->. unfold stageY. f_equal. apply csum_ext. intros l _. rewrite (to_last _ _ _ _ _ HT). reflexivity. Qed.
End Table.

Theorem stability_rational s A b g T z r : tab_of s A b g T -> stability_value s A b z r ->
  Cmult (cev (q_denom T) z) r = cev (q_numer T) z /\ cev (q_denom T) z = cpow (Cminus (RtoC 1) (Cmult z (RtoC g))) (s - 1).
Proof.
  intros HT (k & Hk & Hr). pose proof (to_1 _ _ _ _ _ HT) as Hs. unfold q_denom, q_numer. rewrite cev_pow, (denom_ev s A b g T HT). pose proof (to_s _ _ _ _ _ HT) as Es. rewrite <- Es. split; [|reflexivity].
  rewrite (numer_ev s A b g T HT z k Hk) by lia. rewrite (value_last s A b g T HT k r Hr). reflexivity.
Qed.

(** existence and uniqueness *)
Theorem stability_exists s A b g T z : tab_of s A b g T -> Cminus (RtoC 1) (Cmult z (RtoC g)) <> RtoC 0 -> exists r, stability_value (s) (A) (b) z r.
Proof.
  intros HT HD. pose proof (to_1 _ _ _ _ _ HT) as Hs.
  assert (H : forall n, (n <= s)%nat -> exists k, forall i, (i < n)%nat -> k i = Cmult z (Cplus (RtoC 1) (csum (S i) (fun l => Cmult (RtoC (A i l)) (k l))))).
  { induction n as [|n IH]; intros Hn; [exists (fun _ => RtoC 0); intros; lia|]. destruct IH as (k & Hk); [lia|].
    set (v := if Nat.eqb n 0 then z else Cdiv (Cmult z (Cplus (RtoC 1) (csum n (fun l => Cmult (RtoC (A n l)) (k l))))) (Cminus (RtoC 1) (Cmult z (RtoC g)))).
    exists (fun i => if Nat.eqb i n then v else k i). intros i Hi.
    assert (E : forall j, (j <= n)%nat -> csum j (fun l => Cmult (RtoC (A i l)) (if Nat.eqb l n then v else k l)) = csum j (fun l => Cmult (RtoC (A i l)) (k l))).
    { intros j Hj. apply csum_ext. intros l Hl. rewrite (proj2 (Nat.eqb_neq l n)) by lia. reflexivity. }
    destruct (Nat.eqb_spec i n) as [->|Hne].
    - cbn [csum]. rewrite E by lia. rewrite Nat.eqb_refl. unfold v. destruct n as [|n].
      + cbn. rewrite (to_00 _ _ _ _ _ HT). ring.
      + cbn [Nat.eqb]. rewrite (to_diag _ _ _ _ _ HT (S n)) by lia. field. exact HD.
    - rewrite E by lia. apply Hk. lia. }
  destruct (H (s) (le_n _)) as (k & Hk). eexists. exists k. split; [|reflexivity]. intros i Hi. rewrite (csum_tail0 (S i)); [apply Hk; exact Hi|lia|]. intros l Hl. rewrite (to_low _ _ _ _ _ HT) by lia. ring.
Qed.

(** ** |Q|^2 - |P|^2 as a polynomial in a = - Re z and y = Im z *)
Notation B2 := (list (list K)).
Fixpoint bev (p : B2) (a y : R) : R := match p with [] => 0 | r :: p' => pev r y + a * bev p' a y end.
Fixpoint badd (p q : B2) : B2 := match p, q with [], _ => q | _, [] => p | a :: p', b :: q' => padd a b :: badd p' q' end.
Definition bmap (f : list K -> list K) (p : B2) : B2 := map f p.
Definition bneg (p : B2) : B2 := map (map kopp) p.
Definition bsha (p : B2) : B2 := [] :: p.
Definition bshy (p : B2) : B2 := map (cons p0) p.
Fixpoint bmul (p q : B2) : B2 := match p with [] => [] | r :: p' => badd (map (pmul r) q) (bsha (bmul p' q)) end.
Lemma bev_add p q a y : bev (badd p q) a y = bev p a y + bev q a y.
Proof. revert q. induction p as [|r p IH]; intros [|s q]; cbn [badd bev]; try ring. rewrite pev_add, IH. ring. Qed.
Lemma pev_opp p x : pev (map kopp p) x = - pev p x.
Proof. induction p as [|a p IH]; cbn [map pev]; [ring|]. rewrite kv_opp, IH. ring. Qed.
Lemma bev_neg p a y : bev (bneg p) a y = - bev p a y.
Proof. induction p as [|r p IH]; cbn [bneg map bev]; [ring|]. fold (bneg p). rewrite pev_opp, IH. ring. Qed.
Lemma bev_sha p a y : bev (bsha p) a y = a * bev p a y. Proof. cbn [bsha bev pev]. ring. Qed.
Lemma bev_shy p a y : bev (bshy p) a y = y * bev p a y.
Proof. induction p as [|r p IH]; cbn [bshy map bev]; [ring|]. fold (bshy p). cbn [pev]. rewrite kv_0, IH. ring. Qed.
Lemma bev_mul1 r q a y : bev (map (pmul r) q) a y = pev r y * bev q a y.
Proof. induction q as [|s q IH]; cbn [map bev]; [ring|]. rewrite pev_mul, IH. ring. Qed.
Lemma bev_mul p q a y : bev (bmul p q) a y = bev p a y * bev q a y.
Proof. induction p as [|r p IH]; cbn [bmul bev]; [ring|]. rewrite bev_add, bev_mul1, bev_sha, IH. ring. Qed.

Fixpoint reim (p : list K) : B2 * B2 :=
  match p with
  | [] => ([], [])
  | c :: p' => let '(re, im) := reim p' in (badd [[c]] (badd (bneg (bsha re)) (bneg (bshy im))), badd (bneg (bsha im)) (bshy re))
  end.
Lemma reim_ok p a y : cev p (- a, y) = (bev (fst (reim p)) a y, bev (snd (reim p)) a y).
Proof.
  induction p as [|c p IH]; [reflexivity|]. cbn [cev reim]. rewrite IH. destruct (reim p) as [re im]. cbn [fst snd]. rewrite !bev_add, !bev_neg, !bev_sha, !bev_shy. cbn [bev pev].
  unfold Cplus, Cmult, RtoC. cbn [fst snd]. f_equal; ring.
Qed.
(** |p|^2 with few multiplications: |c + z w|^2 = c^2 + 2 Re (z (c w)) + |z|^2 |w|^2 *)
Fixpoint sqmod (p : list K) : B2 :=
  match p with
  | [] => []
  | c :: p' => let u := fst (reim (p0 :: map (kmul c) p')) in let v := sqmod p' in
    badd [[kmul c c]] (badd (badd u u) (badd (bsha (bsha v)) (bshy (bshy v))))
  end.
Definition n2 (z : C) : R := fst z * fst z + snd z * snd z.
Lemma n2_mult a b : n2 (Cmult a b) = n2 a * n2 b. Proof. unfold n2, Cmult. cbn [fst snd]. ring. Qed.
Lemma n2_nonneg a : 0 <= n2 a. Proof. unfold n2. nra. Qed.
Lemma n2_Cmod z : Cmod z * Cmod z = n2 z. Proof. unfold Cmod, n2. rewrite sqrt_sqrt by nra. ring. Qed.
Lemma cev_map c p z : cev (map (kmul c) p) z = Cmult (RtoC (kv c)) (cev p z).
Proof.
  induction p as [|a p IH]; cbn [map cev]; [unfold Cmult, RtoC; cbn [fst snd]; f_equal; ring|]. rewrite IH, kv_mul. unfold Cplus, Cmult, RtoC. cbn [fst snd]. f_equal; ring.
Qed.
Lemma sqmod_ok p a y : n2 (cev p (- a, y)) = bev (sqmod p) a y.
Proof.
  induction p as [|c p IH]; [unfold n2; cbn; ring|]. cbn [sqmod]. cbv zeta. rewrite !bev_add, !bev_sha, !bev_shy, <- IH.
  assert (E : bev (fst (reim (p0 :: map (kmul c) p))) a y = fst (cev (p0 :: map (kmul c) p) (- a, y))) by (rewrite (reim_ok (p0 :: map (kmul c) p)); reflexivity).
  rewrite E. cbn [cev bev pev]. rewrite cev_map, kv_mul. replace (kv p0) with 0 by (symmetry; apply (cv0 Q2N)). destruct (cev p (- a, y)) as [r i]. unfold n2, Cplus, Cmult, RtoC. cbn [fst snd]. ring.
Qed.

(** sufficient conditions for nonnegativity *)
Fixpoint evens (l : list K) : option (list K) :=
  match l with
  | [] => Some [] | [c] => Some [c]
  | c :: d :: l' => if kzero d then match evens l' with Some e => Some (c :: e) | None => None end else None
  end.
Lemma evens_ok : forall l e x, evens l = Some e -> pev l x = pev e (x * x).
Proof.
  fix IH 1. intros [|c [|d l]] e x H; cbn [evens] in H.
  - injection H as <-. reflexivity.
  - injection H as <-. cbn [pev]. ring.
  - destruct (kzero d) eqn:Hd; [|discriminate H]. destruct (evens l) as [e'|] eqn:E; [|discriminate H]. injection H as <-. cbn [pev]. rewrite (kzero_ok _ Hd), (IH l e' x E). ring.
Qed.
Definition disc_ok (a b c : K) : bool := kpos a && kpos c && kpos (kadd (kmul (4, 0)%Q (kmul a c)) (kopp (kmul b b))).
Fixpoint wrow_ok (l : list K) : bool :=
  match l with
  | [] => true
  | a :: l1 => match l1 with
    | [] => kpos a
    | b :: l2 => if kpos b then kpos a && wrow_ok l1 else
      match l2 with [] => false | c :: l3 => disc_ok a b c && wrow_ok l3 end
    end
  end.
Lemma disc_nonneg a b c w : disc_ok a b c = true -> 0 <= kv a + kv b * w + kv c * (w * w).
Proof.
  intros H. unfold disc_ok in H. rewrite !andb_true_iff in H. destruct H as [[D1 D2] D3]. apply kpos_ok in D1, D2, D3. rewrite kv_add, kv_opp, !kv_mul in D3.
  replace (kv (4, 0)%Q) with 4 in D3 by (unfold kv; cbn [cv Q2N fst snd]; unfold Q2R; cbn; lra). set (x := kv a) in *. set (y := kv b) in *. set (u := kv c) in *. clearbody x y u.
  destruct (Req_dec u 0) as [E|E].
  - subst u. assert (y = 0). { apply Rsqr_0_uniq. unfold Rsqr. nra. } subst y. lra.
  - assert (0 < u) by lra. assert (S : 0 <= (2 * u * w + y) * (2 * u * w + y)) by apply Rle_0_sqr. apply Rmult_le_reg_l with (4 * u); [lra|]. rewrite Rmult_0_r. nra.
Qed.
Lemma wrow_nonneg : forall n l w, (length l <= n)%nat -> 0 <= w -> wrow_ok l = true -> 0 <= pev l w.
Proof.
  induction n as [|n IH]; intros l w Hn Hw H; [destruct l; [cbn; lra|cbn in Hn; lia]|].
  destruct l as [|a [|b l2]]; [cbn; lra|cbn [wrow_ok] in H; apply kpos_ok in H; cbn [pev]; lra|].
  assert (HE : (if kpos b then kpos a && wrow_ok (b :: l2) else match l2 with [] => false | c :: l3 => disc_ok a b c && wrow_ok l3 end) = true) by exact H. clear H.
  destruct (kpos b) eqn:Hb.
  - apply andb_true_iff in HE. destruct HE as [H1 H2]. apply kpos_ok in H1. assert (P : 0 <= pev (b :: l2) w) by (apply IH; [cbn in *; lia|exact Hw|exact H2]).
    change (0 <= kv a + w * pev (b :: l2) w). pose proof (Rmult_le_pos _ _ Hw P). lra.
  - destruct l2 as [|c l3]; [discriminate HE|]. apply andb_true_iff in HE. destruct HE as [H1 H2]. assert (P : 0 <= pev l3 w) by (apply IH; [cbn in *; lia|exact Hw|exact H2]).
    pose proof (disc_nonneg a b c w H1). cbn [pev]. assert (0 <= w * w * w * pev l3 w) by (apply Rmult_le_pos; [|exact P]; apply Rmult_le_pos; [nra|exact Hw]). lra.
Qed.
Definition rows_ok (p : B2) : bool := forallb (fun r => match evens r with Some e => wrow_ok e | None => false end) p.
Lemma rows_nonneg p a y : 0 <= a -> rows_ok p = true -> 0 <= bev p a y.
Proof.
  intros Ha. induction p as [|r p IH]; intros H; [cbn; lra|]. cbn [rows_ok forallb] in H. apply andb_true_iff in H. destruct H as [H1 H2]. specialize (IH H2).
  destruct (evens r) as [e|] eqn:E; [|discriminate H1]. cbn [bev]. rewrite (evens_ok _ _ y E). assert (0 <= pev e (y * y)) by (apply (wrow_nonneg (length e)); [lia|nra|exact H1]). nra.
Qed.
(** common denominators *)
Definition kscale (sg : Z) (a : K) : K := ((Qnum (fst a) * (sg / Zpos (Qden (fst a))))%Z # 1, (Qnum (snd a) * (sg / Zpos (Qden (snd a))))%Z # 1).
Definition kscale_ok (sg : Z) (a : K) : bool := Z.eqb (sg mod Zpos (Qden (fst a))) 0 && Z.eqb (sg mod Zpos (Qden (snd a))) 0.
Lemma qscale_val sg (q : Q) : (sg mod Zpos (Qden q) = 0)%Z -> Q2R ((Qnum q * (sg / Zpos (Qden q)))%Z # 1) = IZR sg * Q2R q.
Proof.
  intros H. apply Z.div_exact in H; [|discriminate]. unfold Q2R. cbn [Qnum Qden]. rewrite mult_IZR. set (k := (sg / Zpos (Qden q))%Z) in *. rewrite H, mult_IZR. field. apply not_0_IZR. discriminate.
Qed.
Lemma kscale_val sg a : kscale_ok sg a = true -> kv (kscale sg a) = IZR sg * kv a.
Proof. intros H. apply andb_true_iff in H. destruct H as [H1 H2]. apply Z.eqb_eq in H1, H2. unfold kv, kscale. cbn [cv Q2N fst snd]. rewrite !qscale_val by assumption. ring. Qed.
Definition pscaleZ (sg : Z) : list K -> list K := map (kscale sg).
Lemma cev_scaleZ sg p z : forallb (kscale_ok sg) p = true -> cev (pscaleZ sg p) z = Cmult (RtoC (IZR sg)) (cev p z).
Proof.
  induction p as [|a p IH]; intros H; cbn [pscaleZ map cev]; [ring|]. cbn [forallb] in H. apply andb_true_iff in H. destruct H as [H1 H2]. fold (pscaleZ sg p). rewrite kscale_val, IH, RtoC_mul by assumption. ring.
Qed.
Definition astable_ok (sg : Z) (T : qtab) : bool :=
  let P := pred (q_numer T) in let D := pred (q_denom T) in
  kpos (qd T) && Z.ltb 0 sg && forallb (kscale_ok sg) P && forallb (kscale_ok sg) D && rows_ok (badd (sqmod (pscaleZ sg D)) (bneg (sqmod (pscaleZ sg P)))).
Lemma cpow_nz z n : z <> RtoC 0 -> cpow z n <> RtoC 0.
Proof. intros H. induction n as [|n IH]; cbn [cpow]; [intros E; injection E; lra|]. apply Cmult_neq_0; assumption. Qed.
Lemma n2_pos z : z <> RtoC 0 -> 0 < n2 z.
Proof. intros H. destruct z as [x y]. unfold n2. cbn [fst snd]. destruct (Req_dec x 0) as [E|E]; [destruct (Req_dec y 0) as [F|F]; [exfalso; apply H; subst; reflexivity|]|]; nra. Qed.
Lemma denom_nz s A b g T z : tab_of s A b g T -> kpos (qd T) = true -> fst z <= 0 -> Cminus (RtoC 1) (Cmult z (RtoC g)) <> RtoC 0.
Proof.
  intros HT Hd Hz E. apply kpos_ok in Hd. rewrite (to_g _ _ _ _ _ HT) in E. change (q2v (qd T)) with (kv (qd T)) in E. destruct z as [x y]. unfold Cminus, Cplus, Copp, Cmult, RtoC in E. cbn [fst snd] in *. injection E as E1 E2. nra.
Qed.
Theorem astable sg s A b g T z r : tab_of s A b g T -> astable_ok sg T = true -> fst z <= 0 ->
  stability_value s A b z r -> Cmod r <= 1.
Proof.
  intros HT HA Hz HV. unfold astable_ok in HA. cbv zeta in HA. rewrite !andb_true_iff in HA. destruct HA as ((((Hd & Hsg) & HP) & HQ) & HA). apply Z.ltb_lt, (IZR_lt 0) in Hsg. destruct (stability_rational s A b g T z r HT HV) as [E1 E2].
  pose proof (denom_nz s A b g T z HT Hd Hz) as ND. assert (NQ : 0 < n2 (cev (q_denom T) z)) by (rewrite E2; apply n2_pos, cpow_nz; exact ND).
  assert (EZ : z = (- (- fst z), snd z)) by (destruct z; cbn; f_equal; ring).
  pose proof (rows_nonneg _ (- fst z) (snd z) ltac:(lra) HA) as P. rewrite bev_add, bev_neg, <- !sqmod_ok, <- EZ, !cev_scaleZ, !cev_red, !n2_mult in P by assumption. assert (SQ : 0 < n2 (RtoC (IZR sg))) by (unfold n2, RtoC; cbn [fst snd]; nra).
  assert (N : n2 (cev (q_denom T) z) * n2 r = n2 (cev (q_numer T) z)) by (rewrite <- n2_mult, E1; reflexivity).
  assert (n2 r <= 1). { apply Rmult_le_reg_l with (n2 (RtoC (IZR sg)) * n2 (cev (q_denom T) z)); [apply Rmult_lt_0_compat; assumption|]. rewrite Rmult_assoc, N. lra. }
  pose proof (n2_Cmod r). pose proof (Cmod_ge_0 r). nra.
Qed.

(** ** behaviour at infinity *)
Fixpoint psabs (p : list K) : R := match p with [] => 0 | a :: p' => Rabs (kv a) + psabs p' end.
Lemma psabs_nonneg p : 0 <= psabs p.
Proof. induction p as [|a p IH]; cbn [psabs]; [lra|]. pose proof (Rabs_pos (kv a)). lra. Qed.
Lemma cev_bound p z : 1 <= Cmod z -> Cmod (cev p z) <= psabs p * Cmod z ^ (length p - 1).
Proof.
  intros Hz. induction p as [|a p IH]; [cbn [cev psabs]; rewrite Cmod_0; lra|]. cbn [cev psabs length]. rewrite Nat.sub_succ, Nat.sub_0_r.
  eapply Rle_trans; [apply Cmod_triangle|]. rewrite Cmod_mult, Cmod_R. rewrite Rmult_plus_distr_r. apply Rplus_le_compat.
  - assert (1 <= Cmod z ^ length p) by (apply pow_R1_Rle; exact Hz). pose proof (Rabs_pos (kv a)). nra.
  - destruct p as [|b p]; [cbn [cev psabs]; rewrite Cmod_0; lra|]. eapply Rle_trans; [apply Rmult_le_compat_l; [apply Cmod_ge_0|exact IH]|]. cbn [length]. rewrite Nat.sub_succ, Nat.sub_0_r. cbn [pow]. right. ring.
Qed.
Lemma cev_zeros p z : forallb kzero p = true -> cev p z = RtoC 0.
Proof. induction p as [|a p IH]; intros H; [reflexivity|]. cbn in H. apply andb_true_iff in H. destruct H as [H1 H2]. cbn [cev]. rewrite (kzero_ok _ H1), IH by exact H2. ring. Qed.
Lemma cev_firstn k p z : forallb kzero (skipn k p) = true -> cev p z = cev (firstn k p) z.
Proof.
  revert k. induction p as [|a p IH]; intros [|k] H; try reflexivity.
  - cbn [skipn firstn] in *. apply cev_zeros. exact H.
  - cbn [skipn firstn cev] in *. rewrite (IH k H). reflexivity.
Qed.
Definition limit_ok (T : qtab) (rho : K) : bool :=
  let k := (qs T - 1)%nat in
  kpos (qd T) && negb (kzero (qd T)) && Nat.leb 2 (qs T) && forallb kzero (skipn k (padd (q_numer T) (pscale (kopp rho) (q_denom T)))).
Lemma kzero_conv a : kpos a = true -> kv a = 0 -> False \/ kv a = 0. Proof. auto. Qed.
Lemma cpow_mod z n : Cmod (cpow z n) = Cmod z ^ n.
Proof. induction n as [|n IH]; cbn [cpow pow]; [apply Cmod_1|]. rewrite Cmod_mult, IH. reflexivity. Qed.
Theorem at_infinity s A b g T rho : tab_of s A b g T -> 0 < g -> limit_ok T rho = true ->
  exists c M, forall z r, M <= Cmod z -> stability_value s A b z r -> Cmod (Cminus r (RtoC (kv rho))) <= c / Cmod z.
Proof.
  intros HT Hd HL. unfold limit_ok in HL. rewrite !andb_true_iff in HL. destruct HL as (((_ & _) & Hk) & HZ). apply Nat.leb_le in Hk. pose proof (to_s _ _ _ _ _ HT) as Es. set (k := (qs T - 1)%nat) in *. set (G := padd _ _) in HZ. set (G1 := firstn k G).
  exists (psabs G1 * (2 / g) ^ k), (1 + 2 / g). intros z r Hz HV. assert (0 < 2 / g) by (apply Rdiv_lt_0_compat; lra).
  destruct (stability_rational s A b g T z r HT HV) as [E1 E2].
  assert (EG : Cmult (cpow (Cminus (RtoC 1) (Cmult z (RtoC g))) k) (Cminus r (RtoC (kv rho))) = cev G1 z).
  { unfold G1. rewrite <- cev_firstn by exact HZ. unfold G. rewrite cev_add, cev_scale, <- E1, kv_opp, RtoC_opp, E2, Es. fold k. ring. }
  apply (f_equal Cmod) in EG. rewrite Cmod_mult, cpow_mod in EG. set (D := Cminus _ _) in EG. set (x := Cmod z) in *. assert (Hx : 1 <= x) by lra.
  assert (HD : g / 2 * x <= Cmod D).
  { assert (T1 : Cmod (Cmult z (RtoC g)) <= Cmod D + Cmod (RtoC 1)).
    { replace (Cmult z (RtoC g)) with (Cplus (Copp D) (RtoC 1)) by (unfold D; ring). eapply Rle_trans; [apply Cmod_triangle|]. rewrite Cmod_opp. lra. }
    rewrite Cmod_mult, Cmod_R, Cmod_1, (Rabs_right g) in T1 by lra. fold x in T1. assert (2 <= g * x). { replace 2 with (g * (2 / g)) by (field; lra). apply Rmult_le_compat_l; lra. } lra. }
  set (e := Cmod (Cminus r (RtoC (kv rho)))) in *. assert (He : 0 <= e) by apply Cmod_ge_0.
  assert (P1 : (g / 2 * x) ^ k * e <= psabs G1 * x ^ (k - 1)).
  { eapply Rle_trans; [apply Rmult_le_compat_r; [exact He|apply pow_incr; split; [|exact HD]; apply Rmult_le_pos; lra]|]. rewrite EG. eapply Rle_trans; [apply cev_bound; exact Hx|].
    apply Rmult_le_compat_l; [apply psabs_nonneg|]. apply Rle_pow; [exact Hx|]. unfold G1. pose proof (firstn_le_length k G). lia. }
  assert (Hk1 : k = S (k - 1)) by (unfold k; lia). rewrite Rpow_mult_distr in P1.
  assert (X0 : 0 < x ^ (k - 1)) by (apply pow_lt; lra). assert (G0 : 0 < (g / 2) ^ k) by (apply pow_lt; lra).
  apply Rmult_le_reg_l with (x * x ^ (k - 1)); [nra|]. replace (x * x ^ (k - 1) * (psabs G1 * (2 / g) ^ k / x)) with (psabs G1 * (2/g)^k * x ^ (k - 1)) by (field; lra).
  replace ((2 / g) ^ k) with (/ (g / 2) ^ k). 2: { rewrite <- pow_inv. f_equal. field. lra. }
  apply Rmult_le_reg_l with ((g / 2) ^ k); [exact G0|]. replace ((g / 2) ^ k * (psabs G1 * / (g / 2) ^ k * x ^ (k - 1))) with (psabs G1 * x ^ (k - 1)) by (field; lra).
  eapply Rle_trans; [|exact P1]. right. replace (x ^ k) with (x * x ^ (k - 1)) by (rewrite Hk1 at 2; reflexivity). ring.
Qed.

(** ** the classes; scaling to integer coefficients *)
Lemma tab_of_class m T : of_qtab m T -> real_tab m -> (1 <= em_stages m)%nat -> tab_of (em_stages m) (rA m) (rB m) (rd m) T.
Proof.
  intros HT RT Hs. constructor; [exact (proj1 HT)|exact Hs|intros; apply rA_q; exact HT|apply rd_q; exact HT|exact (rt_diag m RT)|exact (rt_low m RT)|exact (rt_00 m RT)|exact (rt_last m RT)].
Qed.
