(** C21 for the explicit methods whose coefficients are rounded decimals. *)
From Coq Require Import String Reals Lra QArith Qreals Lia List Arith Bool.
From Verif Require Import Arith RK RX SpecRK Classes Tableaux Trees OrderThm OrderRK OrderModel NearPair Dense DenseReal DenseStep DenseAcc DenseAccN DenseNear OrderRKN OrderPairN DenseNearN Smooth Prop_Order.
Import ListNotations.
Close Scope string_scope.
Open Scope nat_scope.
Open Scope R_scope.

(** tableau, _dense_output_impl, order, residual *)
Definition decimal_dense (d : nat) : list (Tab RX * dimpl RX * nat * Q) :=
  [(Ts5_tab, dense_rk d (lm Ts5_P), 4%nat, (2 # 10 ^ 13)%Q); (Pr8_tab, dense_rk d (lm Pr8_P), 7%nat, (1 # 10 ^ 16)%Q); (Pr9_tab, dense_rk d (lm Pr9_P), 8%nat, (1 # 10 ^ 16)%Q)].
Lemma interp_near_Ts5 : interp_near_ok 100 Ts5_n_stages Ts5_A Ts5_B Ts5_C Ts5_P 4 (2 # 10 ^ 13) = true.
Proof. vm_compute. reflexivity. Qed.
Lemma interp_near_Pr8 : interp_near_ok 80 Pr8_n_stages Pr8_A Pr8_B Pr8_C Pr8_P 7 (1 # 10 ^ 16) = true.
Proof. vm_compute. reflexivity. Qed.
Lemma interp_near_Pr9 : interp_near_ok 80 Pr9_n_stages Pr9_A Pr9_B Pr9_C Pr9_P 8 (1 # 10 ^ 16) = true.
Proof. vm_compute. reflexivity. Qed.
Theorem C21_dense_order_near T impl p e d : In (T, impl, p, e) (decimal_dense d) -> dense_nearly_accurate T impl d p e.
Proof.
  intros H.
  destruct H as [E|H]; [injection E as <- <- <- <-; exact (dense_rk_near 100 Ts5_n_stages Ts5_A Ts5_B Ts5_C Ts5_E Ts5_P _ _ _ interp_near_Ts5)|].
  destruct H as [E|H]; [injection E as <- <- <- <-; exact (dense_rk_near 80 Pr8_n_stages Pr8_A Pr8_B Pr8_C Pr8_E Pr8_P _ _ _ interp_near_Pr8)|].
  destruct H as [E|H]; [injection E as <- <- <- <-; exact (dense_rk_near 80 Pr9_n_stages Pr9_A Pr9_B Pr9_C Pr9_E Pr9_P _ _ _ interp_near_Pr9)|].
  destruct H.
Qed.

(** Nystrom methods: the quintic Hermite interpolant of exactly rational tables *)
Definition quintic_dense (n : nat) : list (TabN RX * dimpl RX * nat) :=
  [(Fi4N_tab, dense_quintic n, 4%nat); (Fi5N_tab, dense_fi5n 0 n, 4%nat)].
Lemma interpn_quin_Fi4N : interpn_ok true Fi4N_n_stages Fi4N_A Fi4N_Ap Fi4N_B Fi4N_Bp Fi4N_C [] [] [] (quinP Fi4N_n_stages Fi4N_B Fi4N_Bp) (quinPp Fi4N_n_stages Fi4N_B Fi4N_Bp) 4 = true.
Proof. vm_compute; reflexivity. Qed.
Lemma interpn_quin_Fi5N : interpn_ok true Fi5N_n_stages Fi5N_A Fi5N_Ap Fi5N_B Fi5N_Bp Fi5N_C [] [] [] (quinP Fi5N_n_stages Fi5N_B Fi5N_Bp) (quinPp Fi5N_n_stages Fi5N_B Fi5N_Bp) 4 = true.
Proof. vm_compute; reflexivity. Qed.
Theorem C21_dense_order_quintic T impl p n : In (T, impl, p) (quintic_dense n) -> dense_accurate_n true T impl n p.
Proof.
  intros H.
  destruct H as [E|H]; [injection E as <- <- <-; apply (quintic_accurate Fi4N_n_stages Fi4N_A Fi4N_Ap Fi4N_B Fi4N_Bp Fi4N_C Fi4N_E Fi4N_Ep); [unfold Fi4N_n_stages; lia|exact interpn_quin_Fi4N]|].
  destruct H as [E|H]; [injection E as <- <- <-; apply (quintic_accurate Fi5N_n_stages Fi5N_A Fi5N_Ap Fi5N_B Fi5N_Bp Fi5N_C Fi5N_E Fi5N_Ep); [unfold Fi5N_n_stages; lia|exact interpn_quin_Fi5N]|].
  destruct H.
Qed.
(** and the interpolants with decimal coefficients: tableau, _dense_output_impl, order, residual *)
Definition decimal_dense_nystrom (n : nat) : list (TabN RX * dimpl RX * nat * Q) :=
  [(Fi5N_tab, dense_fi5n 3 n, 4%nat, (1 # 10 ^ 12)%Q); (Mu5Nmb_tab, dense_mu5 true n, 4%nat, (1 # 10 ^ 16)%Q); (Mu5Nmb_tab, dense_mu5 false n, 4%nat, (1 # 10 ^ 16)%Q)].
Lemma interpn_near_Fi5N_3 : interpn_near_ok 100 Fi5N_n_stages Fi5N_A Fi5N_Ap Fi5N_B Fi5N_Bp Fi5N_C Fi5N_A_extra3 Fi5N_Ap_extra3 Fi5N_C_extra3 Fi5N_P3 Fi5N_Pp3 4 (1 # 10 ^ 12) = true.
Proof. vm_compute; reflexivity. Qed.
Lemma interpn_near_quin_Mu5 : interpn_near_ok 100 Mu5Nmb_n_stages Mu5Nmb_A Mu5Nmb_Ap Mu5Nmb_B Mu5Nmb_Bp Mu5Nmb_C [] [] []
  (quinP Mu5Nmb_n_stages Mu5Nmb_B Mu5Nmb_Bp) (quinPp Mu5Nmb_n_stages Mu5Nmb_B Mu5Nmb_Bp) 4 (1 # 10 ^ 16) = true.
Proof. vm_compute; reflexivity. Qed.
Lemma interpn_near_Mu5 : interpn_near_ok 100 Mu5Nmb_n_stages Mu5Nmb_A Mu5Nmb_Ap Mu5Nmb_B Mu5Nmb_Bp Mu5Nmb_C [Mu5Nmb_A_extra] [Mu5Nmb_Ap_extra] [Mu5Nmb_C_extra]
  Mu5Nmb_P_better Mu5Nmb_Pp_better 4 (1 # 10 ^ 16) = true.
Proof. vm_compute; reflexivity. Qed.
Theorem C21_dense_order_near_nystrom T impl p e n : In (T, impl, p, e) (decimal_dense_nystrom n) -> dense_nearly_accurate_n T impl n p e.
Proof.
  intros H.
  destruct H as [E|H]; [injection E as <- <- <- <-; apply (dense_n_near 100 _ _ _ _ _ _ _ _ Fi5N_A_extra3 Fi5N_Ap_extra3 Fi5N_C_extra3 Fi5N_P3 Fi5N_Pp3); [exact interpn_near_Fi5N_3|exact (nystrom_impl_fi5n 3 n ltac:(lia))]|].
  destruct H as [E|H]; [injection E as <- <- <- <-; apply (quintic_near 100 Mu5Nmb_n_stages Mu5Nmb_A Mu5Nmb_Ap Mu5Nmb_B Mu5Nmb_Bp Mu5Nmb_C Mu5Nmb_E Mu5Nmb_Ep); [unfold Mu5Nmb_n_stages; lia|exact interpn_near_quin_Mu5]|].
  destruct H as [E|H]; [injection E as <- <- <- <-; apply (dense_n_near 100 _ _ _ _ _ _ _ _ [Mu5Nmb_A_extra] [Mu5Nmb_Ap_extra] [Mu5Nmb_C_extra] Mu5Nmb_P_better Mu5Nmb_Pp_better); [exact interpn_near_Mu5|exact (nystrom_impl_mu5 n)]|].
  destruct H.
Qed.
