(** C57: the forms of the mass matrix, for every arithmetic; C56/C57: two defects of the start of
    a DAE, on concrete problems.  (common.py 1778-2006) *)
From Coq Require Import String ZArith QArith Bool List Lia Arith.
From Verif Require Import Arith Common Stiff RK HStart RKInit QX Tableaux Classes Dense Ode ESDIRK ESDCls DAE Prop_ESD.
Import ListNotations.
Close Scope string_scope. Open Scope nat_scope.

(** a one-dimensional M stands for the diagonal matrix *)
Theorem C57_one_dimensional (A : Arith) (m : EMeth A) o L luok solve f jac v t0 y0 tb :
  length v = length y0 ->
  esd_make m o L luok solve f jac (Mass1 v) t0 y0 tb = esd_make m o L luok solve f jac (Mass2 (diag v)) t0 y0 tb.
Proof.
  intros Hv. assert (E : handle_M L (length y0) (Mass1 v) = handle_M L (length y0) (Mass2 (diag v))); [|unfold esd_make; rewrite E; reflexivity].
  unfold handle_M. cbv zeta. rewrite Hv, Nat.eqb_refl.
  assert (E : Nat.eqb (length (diag v)) (length y0) && forallb (fun r => Nat.eqb (length r) (length y0)) (diag v) = true).
  { unfold diag. rewrite map_length, seq_length, Hv, Nat.eqb_refl. cbn [andb]. apply forallb_forall. intros r Hr. apply in_map_iff in Hr. destruct Hr as (i & <- & _).
    rewrite map_length, seq_length. apply Nat.eqb_refl. }
  rewrite E. reflexivity.
Qed.

(** M must be a vector of n components or an n x n matrix; anything else is refused with a ValueError *)
Definition mass_shape {A : Arith} (n : nat) (M : mass_arg A) : Prop :=
  match M with MassNone => True | Mass1 v => length v = n | Mass2 X => length X = n /\ forall r, In r X -> length r = n end.
Theorem C57_shapes (A : Arith) (m : EMeth A) o L luok solve f jac M t0 y0 tb :
  (forall r, esd_make m o L luok solve f jac M t0 y0 tb = inl r -> mass_shape (length y0) M) /\
  (~ mass_shape (length y0) M -> (exists r, esd_make m o L luok solve f jac MassNone t0 y0 tb = inl r) ->
   exists s, esd_make m o L luok solve f jac M t0 y0 tb = inr (ValueError s)).
Proof.
  assert (D : mass_shape (length y0) M \/ exists s, handle_M L (length y0) M = inr (ValueError s)).
  { destruct M as [|v|X]; cbn [mass_shape handle_M]; [auto| |].
    - destruct (Nat.eqb_spec (length v) (length y0)); [auto|right; eauto].
    - destruct (Nat.eqb (length X) (length y0) && forallb (fun r => Nat.eqb (length r) (length y0)) X) eqn:E; [|right; eauto].
      left. apply andb_true_iff in E. destruct E as [E1 E2]. split; [apply Nat.eqb_eq, E1|]. intros r Hr. rewrite forallb_forall in E2. apply Nat.eqb_eq, E2, Hr. }
  split.
  - intros r H. destruct D as [D|(s & D)]; [exact D|]. exfalso. unfold esd_make in H. rewrite D in H.
    match type of H with (match ?x with inl _ => _ | inr _ => _ end) = _ => destruct x as [[c1 s1]|e1]; discriminate H end.
  - intros Hn (r & H). destruct D as [D|(s & D)]; [contradiction|]. unfold esd_make in H |- *. rewrite D.
    match type of H with (match ?x with inl _ => _ | inr _ => _ end) = _ => destruct x as [[c1 s1]|e1]; [|discriminate H] end. eauto.
Qed.
Example C57_shapes_case : ~ mass_shape (A:=QX) 2 (@Mass1 QX [QF 1]) /\ ~ mass_shape (A:=QX) 2 (@Mass2 QX [[QF 1; QF 0]; [QF 1]]) /\ mass_shape (A:=QX) 2 (@Mass1 QX [QF 1; QF 0]).
Proof. split; [discriminate|]. split; [intros [_ H]; specialize (H ([QF 1] : list (num QX)) (or_intror (or_introl eq_refl))); discriminate|reflexivity]. Qed.

Section Cases.
Definition q_lin (s : list (num QX)) : Lin QX := {|
  l_svd := fun X => (@eye QX (length X), s, @eye QX (length X));
  l_rank := fun X => length X;
  l_solve := fun X b => match X, b with [[a]], [x] => Some [ndiv QX x a] | _, _ => None end;
  l_root := fun _ _ _ => None |}.
Definition q_opts (atol : tol_arg QX) : EOpts QX :=
  {| p_max_step := (QPInf : num QX); p_rtol := QF (1#1000); p_rtol_is_float := true; p_atol := atol; p_first_step := None; p_sc := ScNone; p_jac_each := false |}.
Definition value_error {X} (r : X + exn) : option string := match r with inr (ValueError s) => Some s | _ => None end.
Definition q_step0 (r : (ECfg QX * ES QX) + exn) : option (num QX) := match r with inl (_, s) => Some (e_habs s) | inr _ => None end.
(* x' = -x, y' = -y, 0 = x - z *)
Definition f3 : num QX -> list (num QX) -> list (num QX) := fun _ y => match y with [a; b; c] => [nopp QX a; nopp QX b; nsub QX a c] | _ => [] end.
Definition J3 : list (list (num QX)) := [[QF (-1); QF 0; QF 0]; [QF 0; QF (-1); QF 0]; [QF 1; QF 0; QF (-1)]].
Definition make3 (atol : tol_arg QX) := @esd_make QX TRX2_m (q_opts atol) (q_lin [QF 1; QF 1; QF 0]) (fun _ => true) (fun _ _ => Some []) f3 (@JacConst QX J3) (@Mass1 QX [QF 1; QF 1; QF 0]) (QF 0) [QF 1; QF 1; QF 1] (QF 10).
Definition fsign : num QX -> list (num QX) -> list (num QX) := fun _ y => match y with [a; b] => [nmul QX (QF 1000) (nsub QX b a); nsub QX a b] | _ => [] end.
Definition Jsign : list (list (num QX)) := [[QF (-1000); QF 1000]; [QF 1; QF (-1)]].
Definition makes := @esd_make QX TRX2_m (q_opts (@Scalar QX (QF (1#1000000)))) (q_lin [QF 1; QF 0]) (fun _ => true) (fun _ _ => Some []) fsign (@JacConst QX Jsign) (@Mass1 QX [QF 1; QF 0]) (QF 0) [QF 1; QF 1] (QF 10).
Definition make1 := @esd_make QX TRX2_m (q_opts (@Scalar QX (QF (1#1000000)))) (q_lin [QF 1]) (fun _ => true) (fun _ b => Some b) (fun _ _ => [QF 0]) (@JacConst QX [[QF 0]]) (@MassNone QX) (QF 0) [QF 1] (QF 10).

(** An array atol of the right length is refused for a DAE with two or more differential unknowns (h_start compares
    it with the shorter vector u); the error message is not about atol. *)
Theorem C57_array_atol_refuted :
  value_error (make3 (@Array QX [QF (1#1000000); QF (1#1000000); QF (1#1000000)])) = Some "operands could not be broadcast together"%string /\
  value_error (make3 (@Scalar QX (QF (1#1000000)))) = None.
Proof. split; vm_compute; reflexivity. Qed.

(** The Jacobian of the reduced problem has the wrong sign in front of Guv Gvv^-1 Gvu: for u' = 1000 (v - u), 0 = u - v,
    that is u' = 0, the first step is 1/2000; the solver of u' = 0 itself starts with a step above 1. *)
Definition lt_opt (a : option (num QX)) (b : num QX) : bool := match a with Some x => nltb QX x b | None => false end.
Definition gt_opt (a : option (num QX)) (b : num QX) : bool := match a with Some x => nltb QX b x | None => false end.
Theorem C56_first_step_refuted :
  (forall u, u = QF 0 \/ u = QF 1 -> fsign (QF 0) [u; u] = [QF 0; QF 0]) /\ lt_opt (q_step0 makes) (QF (1#1000)) = true /\ gt_opt (q_step0 make1) (QF 1) = true.
Proof. split; [intros u [-> | ->]; vm_compute; reflexivity|]. split; vm_compute; reflexivity. Qed.
End Cases.
