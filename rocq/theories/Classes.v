(** The concrete explicit method classes: class attributes and [Meth] records, over
    any arithmetic.  Tables are in Tableaux.v (generated from the source text). *)
From Coq Require Import String ZArith QArith Bool List.
From Verif Require Import Arith Common Stiff RK RKInit Tableaux.
Import ListNotations.

Section Classes.
Context {A : Arith}.
Definition lv : list Q -> list (num A) := map lit.
Definition lm : list (list Q) -> list (list (num A)) := map lv.

Definition mk_tab (s : nat) (a : list (list Q)) (b c e : list Q) : Tab A :=
  {| r_stages := s; r_A := lm a; r_B := lv b; r_C := lv c; r_E := lv e |}.
Definition mk_tabn (s : nat) (a ap : list (list Q)) (b bp c e ep : list Q) : TabN A :=
  {| n_stages := s; n_A := lm a; n_Ap := lm ap; n_B := lv b; n_Bp := lv bp; n_C := lv c;
     n_E := lv e; n_Ep := lv ep |}.

(* bogacki.py 9-231 *)
Definition BS5_tab := mk_tab BS5_n_stages BS5_A BS5_B BS5_C BS5_E.
Definition BS5_stab : stab_params A := StabRK (lit BS5_stbrad) (lit BS5_tanang).
Definition BS5_meth (n : nat) : Meth A := bs5_meth BS5_tab (lv BS5_B_scale_pre) (lv BS5_E_pre) n BS5_stab.
Definition BS5_cls : Cls A := {| k_order := BS5_order; k_order2 := BS5_order_secondary; k_C := lv BS5_C;
  k_sc := ScName "standard"; k_stab := BS5_stab |}.
(* calvo.py *)
Definition CFMR7osc_tab := mk_tab CFMR7osc_n_stages CFMR7osc_A CFMR7osc_B CFMR7osc_C CFMR7osc_E.
Definition CFMR7osc_stab : stab_params A := StabRK (lit CFMR7osc_stbrad) (lit CFMR7osc_tanang).
Definition CFMR7osc_meth (n : nat) : Meth A := cfmr_meth CFMR7osc_tab n CFMR7osc_stab.
Definition CFMR7osc_cls : Cls A := {| k_order := CFMR7osc_order; k_order2 := CFMR7osc_order_secondary;
  k_C := lv CFMR7osc_C; k_sc := ScName "G"; k_stab := CFMR7osc_stab |}.
(* cash.py 16-... *)
Definition CK5_tab := mk_tab CK5_n_stages CK5_A CK5_B CK5_C CK5_E.
Definition CK5_stab : stab_params A := StabRK (lit CK5_stbrad) (lit CK5_tanang).
Definition CK5_meth (n : nat) : Meth A := rk_meth CK5_tab n CK5_stab.
Definition CK5_cls : Cls A := {| k_order := CK5_order; k_order2 := CK5_order_secondary; k_C := lv CK5_C;
  k_sc := ScName "G"; k_stab := CK5_stab |}.
(* merson.py *)
Definition Me4_tab := mk_tab Me4_n_stages Me4_A Me4_B Me4_C Me4_E.
Definition Me4_stab : stab_params A := StabRK (lit Me4_stbrad) (lit Me4_tanang).
Definition Me4_meth (n : nat) : Meth A := rk_meth Me4_tab n Me4_stab.
Definition Me4_cls : Cls A := {| k_order := Me4_order; k_order2 := Me4_order_secondary; k_C := lv Me4_C;
  k_sc := ScName "G"; k_stab := Me4_stab |}.
(* tsitouras.py *)
Definition Ts5_tab := mk_tab Ts5_n_stages Ts5_A Ts5_B Ts5_C Ts5_E.
Definition Ts5_stab : stab_params A := StabRK (lit Ts5_stbrad) (lit Ts5_tanang).
Definition Ts5_meth (n : nat) : Meth A := rk_meth Ts5_tab n Ts5_stab.
Definition Ts5_cls : Cls A := {| k_order := Ts5_order; k_order2 := Ts5_order_secondary; k_C := lv Ts5_C;
  k_sc := ScName "G"; k_stab := Ts5_stab |}.
(* prince.py *)
Definition Pr7_tab := mk_tab Pr7_n_stages Pr7_A Pr7_B Pr7_C Pr7_E.
Definition Pr7_stab : stab_params A := StabRK (lit Pr7_stbrad) (lit Pr7_tanang).
Definition Pr7_meth (n : nat) : Meth A := rk_meth Pr7_tab n Pr7_stab.
Definition Pr7_cls : Cls A := {| k_order := Pr7_order; k_order2 := Pr7_order_secondary; k_C := lv Pr7_C;
  k_sc := ScName "S"; k_stab := Pr7_stab |}.
Definition Pr8_tab := mk_tab Pr8_n_stages Pr8_A Pr8_B Pr8_C Pr8_E.
Definition Pr8_stab : stab_params A := StabRK (lit Pr8_stbrad) (lit Pr8_tanang).
Definition Pr8_meth (n : nat) : Meth A := rk_meth Pr8_tab n Pr8_stab.
Definition Pr8_cls : Cls A := {| k_order := Pr8_order; k_order2 := Pr8_order_secondary; k_C := lv Pr8_C;
  k_sc := ScName "G"; k_stab := Pr8_stab |}.
Definition Pr9_tab := mk_tab Pr9_n_stages Pr9_A Pr9_B Pr9_C Pr9_E.
Definition Pr9_stab : stab_params A := StabRK (lit Pr9_stbrad) (lit Pr9_tanang).
Definition Pr9_meth (n : nat) : Meth A := rk_meth Pr9_tab n Pr9_stab.
Definition Pr9_cls : Cls A := {| k_order := Pr9_order; k_order2 := Pr9_order_secondary; k_C := lv Pr9_C;
  k_sc := ScName "standard"; k_stab := Pr9_stab |}.
(* fine.py, murua.py *)
Definition Fi4N_tab := mk_tabn Fi4N_n_stages Fi4N_A Fi4N_Ap Fi4N_B Fi4N_Bp Fi4N_C Fi4N_E Fi4N_Ep.
Definition Fi4N_stab : stab_params A := StabRKN (lit Fi4N_stbre) (lit Fi4N_stbim) (lit Fi4N_tanang).
Definition Fi4N_meth (n : nat) : Meth A := rkn_meth Fi4N_tab n Fi4N_stab.
Definition Fi4N_cls : Cls A := {| k_order := Fi4N_order; k_order2 := Fi4N_order_secondary; k_C := lv Fi4N_C;
  k_sc := ScName "G"; k_stab := Fi4N_stab |}.
Definition Fi5N_tab := mk_tabn Fi5N_n_stages Fi5N_A Fi5N_Ap Fi5N_B Fi5N_Bp Fi5N_C Fi5N_E Fi5N_Ep.
Definition Fi5N_stab : stab_params A := StabRKN (lit Fi5N_stbre) (lit Fi5N_stbim) (lit Fi5N_tanang).
Definition Fi5N_meth (n : nat) : Meth A := rkn_meth Fi5N_tab n Fi5N_stab.
Definition Fi5N_cls : Cls A := {| k_order := Fi5N_order; k_order2 := Fi5N_order_secondary; k_C := lv Fi5N_C;
  k_sc := ScName "G"; k_stab := Fi5N_stab |}.
Definition Mu5Nmb_tab := mk_tabn Mu5Nmb_n_stages Mu5Nmb_A Mu5Nmb_Ap Mu5Nmb_B Mu5Nmb_Bp Mu5Nmb_C Mu5Nmb_E Mu5Nmb_Ep.
Definition Mu5Nmb_stab : stab_params A := StabRKN (lit Mu5Nmb_stbre) (lit Mu5Nmb_stbim) (lit Mu5Nmb_tanang).
Definition Mu5Nmb_meth (n : nat) : Meth A := rkn_meth Mu5Nmb_tab n Mu5Nmb_stab.
Definition Mu5Nmb_cls : Cls A := {| k_order := Mu5Nmb_order; k_order2 := Mu5Nmb_order_secondary;
  k_C := lv Mu5Nmb_C; k_sc := ScName "G"; k_stab := Mu5Nmb_stab |}.
(* mikkawy.py: Ap is NotImplemented, __init__ sets it to zeros (common.py 1271); no
   stability data *)
Definition MR6NN_Ap : list (list Q) := repeat (repeat 0%Q 6) 6.
Definition MR6NN_tab := mk_tabn MR6NN_n_stages MR6NN_A MR6NN_Ap MR6NN_B MR6NN_Bp MR6NN_C MR6NN_E MR6NN_Ep.
Definition MR6NN_meth (n : nat) : Meth A := rkn_meth MR6NN_tab n NoStab.
Definition MR6NN_cls : Cls A := {| k_order := MR6NN_order; k_order2 := MR6NN_order_secondary;
  k_C := lv MR6NN_C; k_sc := ScName "G"; k_stab := NoStab |}.
End Classes.
