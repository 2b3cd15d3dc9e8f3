(** C18, C19: the pairs whose coefficients are decimals rounded to 16-26 digits (Ts5, Pr8, Pr9 and
    the Nystrom pair Mu5Nmb). No such tableau satisfies the order conditions exactly; the theorems
    say that one step has the documented order up to a residual eps times the elementary
    differentials of f, with eps at the level of the printed digits (1e-15 for Ts5, 1e-21 for
    Pr8 and Pr9, 1e-18 for the solution of Mu5Nmb). *)
From Coq Require Import String Reals Lra QArith Qreals Lia List Arith Bool.
From Verif Require Import Arith Common RK RKGen RKHist RX SpecRK RKSpecProofs RKTop Classes Tableaux Series Trees OrderThm OrderCheck
  OrderRK OrderRKN OrderModel OrderPair OrderPairN Dense DenseReal DenseStep Smooth Prop_Order GOrder Balls BallTab NearPair.
Import ListNotations.
Close Scope string_scope.
Open Scope nat_scope.
Open Scope R_scope.

(** tableau, order, residual, order of the error estimate, its residual *)
Definition decimal_pairs : list (Tab RX * nat * Q * nat * Q) :=
  [(Ts5_tab, Ts5_order, 1 # 500000000000000, Ts5_order_secondary, 1 # 500000000000000);
   (Pr8_tab, Pr8_order, 1 # 500000000000000000000, Pr8_order_secondary, 1 # 500000000000000000000);
   (Pr9_tab, Pr9_order, 1 # 1000000000000000000000, Pr9_order_secondary, 1 # 1000000000000000000000)]%Q.

Lemma near_Ts5 : near_ok 80 Ts5_n_stages Ts5_A Ts5_B Ts5_C Ts5_E Ts5_order (1 # 500000000000000) Ts5_order_secondary (1 # 500000000000000) = true.
Proof. vm_cast_no_check (eq_refl true). Qed.
Lemma near_Pr8 : near_ok 80 Pr8_n_stages Pr8_A Pr8_B Pr8_C Pr8_E Pr8_order (1 # 500000000000000000000) Pr8_order_secondary (1 # 500000000000000000000) = true.
Proof. vm_cast_no_check (eq_refl true). Qed.
Lemma near_Pr9 : near_ok 80 Pr9_n_stages Pr9_A Pr9_B Pr9_C Pr9_E Pr9_order (1 # 1000000000000000000000) Pr9_order_secondary (1 # 1000000000000000000000) = true.
Proof. vm_cast_no_check (eq_refl true). Qed.
Lemma near_Mu5 : nearn_ok 80 Mu5Nmb_n_stages Mu5Nmb_A Mu5Nmb_Ap Mu5Nmb_B Mu5Nmb_Bp Mu5Nmb_C Mu5Nmb_E Mu5Nmb_Ep Mu5Nmb_order (1 # 1000000000000000000)
   Mu5Nmb_order_secondary (1 # 100000000000000) = true.
Proof. vm_cast_no_check (eq_refl true). Qed.

Theorem C18_near_order T p eps pe epse d : In (T, p, eps, pe, epse) decimal_pairs -> rk_nearly_accurate T d p eps pe epse.
Proof.
  intros H.
  destruct H as [E|H]; [injection E as <- <- <- <- <-; exact (near_accurate _ _ _ _ _ _ _ _ _ _ d near_Ts5)|].
  destruct H as [E|H]; [injection E as <- <- <- <- <-; exact (near_accurate _ _ _ _ _ _ _ _ _ _ d near_Pr8)|].
  destruct H as [E|H]; [injection E as <- <- <- <- <-; exact (near_accurate _ _ _ _ _ _ _ _ _ _ d near_Pr9)|].
  destruct H.
Qed.

(** the same for the steps a solver object makes *)
Theorem C18_near_solver_step T p eps pe epse d F t0 y0 Y g Ty : In (T, p, eps, pe, epse) decimal_pairs -> lifts d F g -> length y0 = d ->
  taylor_at (S d) d (fo F d) (pt t0 y0) Ty p -> solves F t0 y0 Y ->
  exists C del, 0 < del /\ forall m c v v' t1, uses_tab m T d -> made_step m c v v' -> fn c = g ->
    t (st v) = Fin t0 -> y (st v) = map Fin y0 -> t (st v') = Fin t1 -> Rabs (t1 - t0) < del ->
    exists yr er ks, textbook_rk T d g (Fin t0) (map Fin y0) (Fin (t1 - t0)) ks (t (st v')) (y (st v')) /\
      y (st v') = map Fin yr /\ tab_error T d g (Fin (t1 - t0)) ks (t (st v')) (y (st v')) = map Fin er /\
      forall q, (q < d)%nat ->
        Rabs (nth q yr 0 - nth q (Y t1) 0) <= Q2R eps * rsum p (fun n => diffs1 y0 Ty n q * Rabs (t1 - t0) ^ S n) + C * Rabs (t1 - t0) ^ S p /\
        Rabs (nth q er 0) <= Q2R epse * rsum pe (fun n => diffs1 y0 Ty n q * Rabs (t1 - t0) ^ S n) + C * Rabs (t1 - t0) ^ S pe.
Proof.
  intros HT HL Hy HF HY. destruct (C18_near_order T p eps pe epse d HT F t0 y0 Y g Ty HL Hy HF HY) as (C & del & Hd & H).
  exists C, del. split; auto. intros m c v v' t1 HU HM Hg E0 Ey E1 Hh.
  destruct (made_step_facts m T d c v v' HU HM) as (h & ks & HT2 & SF).
  pose proof (sf_t _ _ _ _ _ SF) as Et. rewrite E0, E1 in Et. symmetry in Et. apply Fin_add_inv in Et. subst h.
  rewrite E0, Ey, Hg in HT2. destruct (H _ ks _ _ Hh HT2) as (yr & er & _ & E2 & E3 & _ & _ & HB).
  exists yr, er, ks. split; [exact HT2|]. split; [exact E2|]. split; [exact E3|]. replace (t0 + (t1 - t0)) with t1 in HB by ring. exact HB.
Qed.

(** ** C19 for Mu5Nmb *)
Theorem C19_near_order n : rkn_nearly_accurate Mu5Nmb_tab n Mu5Nmb_order (1 # 1000000000000000000) Mu5Nmb_order_secondary (1 # 100000000000000).
Proof. exact (nearn_accurate _ _ _ _ _ _ _ _ _ _ _ _ _ n near_Mu5). Qed.

Theorem C19_near_solver_step n G t0 y0 Y g Ty : lifts2 n G g -> length y0 = (n + n)%nat ->
  taylor_at (S (n + n)) n (fo G (n + n)) (pt t0 y0) Ty Mu5Nmb_order -> solves2 n G t0 y0 Y ->
  exists C del, 0 < del /\ forall m c v v' t1, uses_tabn m Mu5Nmb_tab n -> made_step m c v v' -> fn c = g ->
    t (st v) = Fin t0 -> y (st v) = map Fin y0 -> t (st v') = Fin t1 -> Rabs (t1 - t0) < del ->
    exists yr er ks, textbook_rkn Mu5Nmb_tab n g (Fin t0) (map Fin y0) (Fin (t1 - t0)) ks (t (st v')) (y (st v')) /\
      y (st v') = map Fin yr /\ tabn_error Mu5Nmb_tab n g (Fin (t1 - t0)) ks (t (st v')) (y (st v')) = map Fin er /\
      forall q, (q < n)%nat -> let h := Rabs (t1 - t0) in
        Rabs (nth q yr 0 - nth q (Y t1) 0) <= Q2R (1 # 1000000000000000000) * rsum 4 (fun k => diffs2 n y0 Ty k q * h ^ S (S k)) + C * h ^ 6 /\
        Rabs (nth (n + q) yr 0 - nth (n + q) (Y t1) 0) <= Q2R (1 # 1000000000000000000) * rsum 5 (fun k => diffs2 n y0 Ty k q * h ^ S k) + C * h ^ 6 /\
        Rabs (nth q er 0) <= Q2R (1 # 100000000000000) * rsum 3 (fun k => diffs2 n y0 Ty k q * h ^ S (S k)) + C * h ^ 5 /\
        Rabs (nth (n + q) er 0) <= Q2R (1 # 100000000000000) * rsum 4 (fun k => diffs2 n y0 Ty k q * h ^ S k) + C * h ^ 5.
Proof.
  intros HL Hy HF HY. destruct (C19_near_order n G t0 y0 Y g Ty HL Hy HF HY) as (C & del & Hd & H).
  exists C, del. split; auto. intros m c v v' t1 HU HM Hg E0 Ey E1 Hh.
  destruct (made_step_facts_n m Mu5Nmb_tab n c v v' HU HM) as (h & ks & HT2 & SF).
  pose proof (sf_t _ _ _ _ _ SF) as Et. rewrite E0, E1 in Et. symmetry in Et. apply Fin_add_inv in Et. subst h.
  rewrite E0, Ey, Hg in HT2. destruct (H _ ks _ _ Hh HT2) as (yr & er & _ & E2 & E3 & _ & _ & HB).
  exists yr, er, ks. split; [exact HT2|]. split; [exact E2|]. split; [exact E3|]. replace (t0 + (t1 - t0)) with t1 in HB by ring. exact HB.
Qed.

(** the hypotheses are met, and the differentials are not degenerate: y' = y^2 from y(0) = 1 and x'' = -x *)
Example C18_near_case : exists Ty, lifts 1 riccati riccati_x /\ taylor_at 2 1 (fo riccati 1) (pt 0 [1]) Ty 9 /\
  solves riccati 0 [1] (fun t => [/ (1 - t)]).
Proof. destruct C18_case as (A & B & C). destruct (B 9%nat) as [Ty HT]. exists Ty. auto. Qed.
Example C19_near_case : exists Ty, lifts2 1 spring spring_x /\ taylor_at 3 1 (fo spring 2) (pt 0 [0; 1]) Ty 5 /\ exists Y, solves2 1 spring 0 [0; 1] Y.
Proof. destruct C19_case as (A & _ & B & C). destruct (B 5%nat) as [Ty HT]. exists Ty. split; auto. split; [exact HT|]. eexists. exact C. Qed.
