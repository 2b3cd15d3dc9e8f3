(** Mu5Nmb, the option scale_embedded (murua.py 211-226).

    [E] and [Ep] are numpy arrays that belong to the class object (murua.py 162-174);
    `self.E *= factor` multiplies that array in place and then binds self.E to the same
    array, so every instance, older or newer, reads the one array of the class.
    The model keeps the two arrays of the class as the state of the Python process. *)
From Coq Require Import String ZArith Reals Lra Psatz QArith Qreals Bool Lia List.
From Verif Require Import Arith Common Stiff RK RX RKReal NormReal RKInit Tableaux Classes.
Import ListNotations.
Close Scope string_scope.
Open Scope nat_scope.

Section Model.
Context {A : Arith}.
(** the arrays of the class object *)
Record mu5_class := { cE : list (num A); cEp : list (num A) }.
(** import extensisq: murua.py 162-174 *)
Definition mu5_import : mu5_class := {| cE := lv Mu5Nmb_E; cEp := lv Mu5Nmb_Ep |}.
(** Mu5Nmb(..., scale_embedded=flag): murua.py 223-226 (the rest of the constructor
    does not touch the arrays) *)
Definition mu5_new (flag : bool) (k : mu5_class) : mu5_class :=
  if flag then {| cE := map (fun e => nmul A e (lit (3#4))) (cE k); cEp := map (fun e => nmul A e (lit (3#4))) (cEp k) |} else k.
(** a process: import, then constructor calls in order (scale_embedded of each) *)
Definition mu5_process (flags : list bool) : mu5_class := fold_left (fun k b => mu5_new b k) flags mu5_import.
(** every instance uses the arrays of the class: common.py 1299-1305 *)
Definition mu5_tab (k : mu5_class) : TabN A :=
  {| n_stages := n_stages (@Mu5Nmb_tab A); n_A := n_A Mu5Nmb_tab; n_Ap := n_Ap Mu5Nmb_tab; n_B := n_B Mu5Nmb_tab;
     n_Bp := n_Bp Mu5Nmb_tab; n_C := n_C Mu5Nmb_tab; n_E := cE k; n_Ep := cEp k |}.
Definition mu5_meth (k : mu5_class) (n : nat) : Meth A := rkn_meth (mu5_tab k) n Mu5Nmb_stab.
End Model.
Arguments mu5_class : clear implicits.

Open Scope R_scope.
Lemma process_scale flags : forall k : mu5_class RX, fold_left (fun k b => mu5_new b k) flags k =
  {| cE := map (fun e => xmul e (Fin ((3/4) ^ count_occ bool_dec flags true))) (cE k);
     cEp := map (fun e => xmul e (Fin ((3/4) ^ count_occ bool_dec flags true))) (cEp k) |} \/
  ~ (Forall fin (cE k) /\ Forall fin (cEp k)).
Proof.
  assert (E34 : @lit RX (3#4) = Fin (3/4)) by litR.
  assert (Hid : forall l, Forall fin l -> map (fun e => xmul e (Fin 1)) l = l).
  { induction 1 as [|e l [r ->] _ IH]; simpl; [reflexivity|]. rewrite IH. f_equal. f_equal. ring. }
  assert (Hmul : forall c l, Forall fin l -> map (fun e => xmul e (Fin c)) (map (fun e => xmul e (Fin (3/4))) l) = map (fun e => xmul e (Fin (3/4 * c))) l).
  { induction 1 as [|e l [r ->] _ IH]; simpl; [reflexivity|]. rewrite IH. f_equal. f_equal. ring. }
  assert (Hf : forall l, Forall fin l -> Forall fin (map (fun e => xmul e (Fin (3/4))) l)).
  { induction 1 as [|e l [r ->] _ IH]; simpl; constructor; auto. eexists; reflexivity. }
  induction flags as [|b flags IH]; intros k.
  - destruct (Classical_Prop.classic (Forall fin (cE k) /\ Forall fin (cEp k))) as [[H1 H2]|]; [left|right; auto].
    simpl. change (num RX) with xr. rewrite !Hid by auto. destruct k; reflexivity.
  - destruct (Classical_Prop.classic (Forall fin (cE k) /\ Forall fin (cEp k))) as [[H1 H2]|]; [left|right; auto].
    cbn [fold_left]. destruct b.
    + assert (E1 : mu5_new true k = {| cE := map (fun e => xmul e (Fin (3/4))) (cE k); cEp := map (fun e => xmul e (Fin (3/4))) (cEp k) |})
        by (unfold mu5_new; rewrite E34; reflexivity).
      destruct (IH (mu5_new true k)) as [EE|HN].
      * rewrite EE, E1. cbn [cE cEp count_occ]. destruct (bool_dec true true); [|congruence]. cbn [pow].
        change (num RX) with xr. rewrite !Hmul by auto. reflexivity.
      * exfalso. apply HN. rewrite E1. cbn [cE cEp]. split; apply Hf; auto.
    + unfold mu5_new at 2. destruct (IH k) as [->|HN]; [|tauto].
      cbn [count_occ]. destruct (bool_dec false true); [congruence|]. reflexivity.
Qed.
Lemma lv_Forall_fin l : Forall fin (@lv RX l).
Proof. unfold lv. apply Forall_forall. intros x H. apply in_map_iff in H. destruct H as (q & <- & _). eexists; reflexivity. Qed.

Lemma vadd_fin2 (v w : list R) : @vadd RX (map Fin v) (map Fin w) = map Fin (radd v w).
Proof. unfold vadd, radd. cbn [nadd RX]. revert w. induction v; destruct w; simpl; auto. rewrite IHv. reflexivity. Qed.
Lemma vscale_fin2 c (v : list R) : @vscale RX (Fin c) (map Fin v) = map Fin (map (Rmult c) v).
Proof. unfold vscale. cbn [nmul RX]. rewrite !map_map. reflexivity. Qed.
Definition rlin (n : nat) (ws : list R) (ks : list (list R)) (acc : list R) : list R :=
  fold_left (fun acc wk => radd acc (map (Rmult (fst wk)) (snd wk))) (combine ws ks) acc.
Lemma lincomb_fin : forall ws ks acc,
  fold_left (fun acc wk => @vadd RX acc (vscale (fst wk) (snd wk))) (combine (map Fin ws) (map (map Fin) ks)) (map Fin acc)
  = map Fin (rlin 0 ws ks acc).
Proof.
  unfold rlin. induction ws; destruct ks; intros; simpl; auto. rewrite <- IHws. f_equal.
  rewrite (vscale_fin2 a l), vadd_fin2. reflexivity.
Qed.
Lemma radd_mul c : forall u v, radd (map (Rmult c) u) (map (Rmult c) v) = map (Rmult c) (radd u v).
Proof. unfold radd. induction u; destruct v; simpl; auto. rewrite IHu. f_equal. ring. Qed.
Lemma rlin_scale c : forall ws ks acc, rlin 0 (map (fun e => e * c) ws) ks (map (Rmult c) acc) = map (Rmult c) (rlin 0 ws ks acc).
Proof.
  unfold rlin. induction ws; destruct ks; intros; simpl; auto. rewrite <- IHws. f_equal.
  rewrite <- radd_mul, map_map. f_equal. apply map_ext. intros; ring.
Qed.
Lemma lincomb_scale n c (ws : list Q) (ks : list (list R)) :
  exists r, @lincomb RX n (lv ws) (map (map Fin) ks) = map Fin r /\
   @lincomb RX n (map (fun e => xmul e (Fin c)) (lv ws)) (map (map Fin) ks) = map Fin (map (Rmult c) r).
Proof.
  unfold lincomb. assert (E1 : @lv RX ws = map Fin (map Q2R ws)) by (unfold lv; rewrite map_map; reflexivity).
  assert (E2 : map (fun e => xmul e (Fin c)) (map Fin (map Q2R ws)) = map Fin (map (fun e => e * c) (map Q2R ws))).
  { rewrite !map_map. reflexivity. }
  assert (E3 : repeat (@n0 RX) n = map Fin (repeat 0 n)) by (rewrite n0_RX; clear; induction n; cbn [repeat map]; [reflexivity|exact (f_equal (cons (Fin 0)) IHn)]).
  assert (E4 : repeat 0 n = map (Rmult c) (repeat 0 n)) by (clear; induction n; simpl; f_equal; auto; ring).
  rewrite E1, E3. eexists. split; [apply lincomb_fin|].
  change (@lv RX ws) with (map Fin (map Q2R ws)). rewrite E2. rewrite lincomb_fin. rewrite E4 at 1. rewrite rlin_scale. reflexivity.
Qed.

(** the estimate of an instance in a process, against that of the class as written *)
Lemma process_estimate flags n (h : R) (ks : list (list R)) :
  exists e, m_err (Mu5Nmb_meth n) (Fin h) (map (map Fin) ks) = map Fin e /\
    m_err (mu5_meth (mu5_process flags) n) (Fin h) (map (map Fin) ks)
    = map Fin (map (Rmult ((3/4) ^ count_occ bool_dec flags true)) e).
Proof.
  unfold mu5_process. destruct (process_scale flags mu5_import) as [->|HN];
    [|exfalso; apply HN; split; apply lv_Forall_fin].
  set (c := (3/4) ^ count_occ bool_dec flags true). cbn [mu5_import cE cEp].
  unfold mu5_meth, Mu5Nmb_meth, mu5_tab. cbn [rkn_meth m_err]. unfold rkn_err. cbn [n_E n_Ep Mu5Nmb_tab mk_tabn].
  destruct (lincomb_scale n c Mu5Nmb_E ks) as (r1 & E1 & E2). destruct (lincomb_scale n c Mu5Nmb_Ep ks) as (r2 & E3 & E4).
  exists (map (Rmult (h * h)) r1 ++ map (Rmult h) r2)%list.
  cbn [cE cEp]. change (num RX) with xr in *. rewrite E1, E2, E3, E4. cbn [nmul RX xmul]. rewrite !vscale_fin2, !map_app, !map_map. split; [reflexivity|].
  f_equal; apply map_ext; intros; f_equal; ring.
Qed.
