(** Trials and steps of SWAG for every arithmetic: no exception, the order stays
    in range, the structure of the difference table. *)
From Coq Require Import String ZArith QArith Bool Lia List Arith.
From Verif Require Import Arith Common Stiff RK HStart RKInit Ode Swag SwagArr SwagCo.
Import ListNotations.
Open Scope nat_scope.

Section Gen.
Context {A : Arith}.
Notation num := (num A).
Notation vec := (list num).
Notation cell l i := (nth i l (@n0 A)).
Notation col l i := (nth i l (@nil num)).

(** *** prediction *)
Definition zeros (y : vec) : vec := map (fun _ => n0) y.
(** column i of phi star *)
Definition star (c : Co A) (phi : list vec) (k i : nat) : vec :=
  if (ns c <=? i) && (i <? k) then vscale (cell (beta c) i) (col phi i) else col phi i.

Record predict_spec (c : Co A) (phi : list vec) (k : nat) (h : num) (y : vec) (phi' : list vec) (p : vec) : Prop := {
  ps_len : length phi' = length phi;
  ps_p : p = vadd (vscale h (lincomb (length y) (sl (gg c) 0 k) (map (star c phi k) (seq 0 k)))) y;
  ps_kp1 : col phi' (k + 1) = col phi k;
  ps_k : col phi' k = zeros y;
  ps_km1 : col phi' (k - 1) = star c phi k (k - 1);
  ps_i : forall i, i + 1 < k -> col phi' i = vadd (col phi' (i + 1)) (star c phi k i);
  ps_hi : forall i, k + 1 < i -> col phi' i = col phi i }.

Lemma predict_ok kmax c phi k h y : lens kmax c -> length phi = kmax + 2 -> 1 <= ns c -> 1 <= k <= kmax ->
  exists phi' p, predict c phi k h y = inl (phi', p) /\ predict_spec c phi k h y phi' p.
Proof.
  intros L Lp Hn Hk. destruct L. unfold predict.
  assert (Lb : length (sl (beta c) (ns c) k) = k - ns c) by (rewrite len_sl; lia).
  assert (Lf : length (sl phi (ns c) k) = k - ns c) by (rewrite len_sl; lia).
  rewrite bop_ok by lia. set (sc := map2 _ _ _). assert (Ls : length sc = k - ns c) by (unfold sc; rewrite len_map2; lia).
  assert (F1 : exists phi1, set_sl phi (ns c) k sc = inl phi1 /\ length phi1 = kmax + 2 /\ (forall i, i < k -> col phi1 i = star c phi k i) /\ (forall i, k <= i -> col phi1 i = col phi i)).
  { destruct (Nat.le_gt_cases (ns c) k) as [H|H].
    - rewrite set_sl_ok by lia. eexists. split; [reflexivity|]. split; [rewrite len_upds; lia|]. split.
      + intros i Hi. rewrite nth_upds by lia. unfold star. rewrite Ls. replace (ns c + (k - ns c)) with k by lia.
        destruct (Nat.leb_spec (ns c) i), (Nat.ltb_spec i k); cbn [andb]; try reflexivity; try lia.
        unfold sc. rewrite (nth_map2 _ _ _ n0 []) by lia. rewrite !nth_sl by lia. replace (ns c + (i - ns c)) with i by lia. reflexivity.
      + intros i Hi. rewrite nth_upds by lia. rewrite Ls. replace (i <? ns c + (k - ns c)) with false by (symmetry; apply Nat.ltb_ge; lia). rewrite andb_false_r. reflexivity.
    - clearbody sc. assert (sc = []) as -> by (apply length_zero_iff_nil; lia). assert (ES : set_sl phi (ns c) k [] = inl phi) by (unfold set_sl; rewrite Lf; replace (k - ns c) with 0 by lia; cbn [length app Nat.eqb]; rewrite Nat.add_0_r, firstn_skipn; reflexivity). rewrite ES. exists phi. repeat split; auto.
      intros i Hi. unfold star. replace (ns c <=? i) with false by (symmetry; apply Nat.leb_gt; lia). reflexivity. }
  destruct F1 as (phi1 & -> & L1 & C1 & C2).
  rewrite (aget_ok [] phi1) by lia. rewrite (aset_ok phi1) by lia. set (phi2 := upd phi1 _ _). assert (L2 : length phi2 = kmax + 2) by (unfold phi2; rewrite len_upd; lia).
  rewrite (aset_ok phi2) by lia. set (phi3 := upd phi2 _ _). assert (L3 : length phi3 = kmax + 2) by (unfold phi3; rewrite len_upd; lia).
  rewrite bop_ok by (rewrite !len_sl; lia).
  assert (S3 : sl phi3 0 k = map (star c phi k) (seq 0 k)).
  { apply (nth_ext _ _ [] []); [rewrite len_sl, map_length, seq_length; lia|]. intros i Hi. rewrite len_sl in Hi by lia. rewrite nth_sl by lia. cbn [Nat.add].
    rewrite (nth_map' _ _ 0) by (rewrite seq_length; lia). rewrite seq_nth by lia. cbn [Nat.add]. unfold phi3. rewrite nth_upd by lia. replace (i =? k) with false by (symmetry; apply Nat.eqb_neq; lia).
    unfold phi2. rewrite nth_upd by lia. replace (i =? k + 1) with false by (symmetry; apply Nat.eqb_neq; lia). apply C1. lia. }
  rewrite S3. set (st := map (star c phi k) (seq 0 k)). assert (Lst : length st = k) by (unfold st; rewrite map_length, seq_length; reflexivity).
  set (cs := rev (cumul vadd (rev st))). assert (Lcs : length cs = k) by (unfold cs; rewrite rev_length, len_cumul, rev_length; exact Lst).
  rewrite (set_sl_ok phi3) by lia. eexists _, _. split; [reflexivity|].
  assert (CC : forall i, col (upds phi3 0 cs) i = if i <? k then col cs i else col phi3 i).
  { intros i. rewrite nth_upds by lia. replace (0 <=? i) with true by reflexivity. rewrite Lcs. cbn [Nat.add andb]. destruct (i <? k); [rewrite Nat.sub_0_r|]; reflexivity. }
  assert (NS : forall i, i < k -> col st i = star c phi k i).
  { intros i Hi. unfold st. rewrite (nth_map' _ _ 0) by (rewrite seq_length; lia). rewrite seq_nth by lia. reflexivity. }
  constructor.
  - rewrite len_upds by lia. lia.
  - reflexivity.
  - rewrite CC. replace (k + 1 <? k) with false by (symmetry; apply Nat.ltb_ge; lia). unfold phi3. rewrite nth_upd by lia. replace (k + 1 =? k) with false by (symmetry; apply Nat.eqb_neq; lia).
    unfold phi2. rewrite nth_upd by lia. rewrite Nat.eqb_refl. apply C2. lia.
  - rewrite CC, Nat.ltb_irrefl. unfold phi3. rewrite nth_upd by lia. rewrite Nat.eqb_refl. reflexivity.
  - rewrite CC. replace (k - 1 <? k) with true by (symmetry; apply Nat.ltb_lt; lia). unfold cs. rewrite rev_nth by (rewrite len_cumul, rev_length; lia). rewrite len_cumul, rev_length, Lst.
    replace (k - S (k - 1)) with 0 by lia. rewrite nth_cumul_0. rewrite rev_nth by lia. rewrite Lst. rewrite NS by lia. reflexivity.
  - intros i Hi. rewrite !CC. replace (i <? k) with true by (symmetry; apply Nat.ltb_lt; lia). replace (i + 1 <? k) with true by (symmetry; apply Nat.ltb_lt; lia).
    unfold cs. rewrite !rev_nth by (rewrite len_cumul, rev_length; lia). rewrite len_cumul, rev_length, Lst.
    replace (k - S i) with (S (k - S (i + 1))) by lia. rewrite nth_cumul_S by (rewrite rev_length; lia). f_equal. rewrite rev_nth by lia. rewrite Lst. replace (k - S (S (k - S (i + 1)))) with i by lia. apply NS. lia.
  - intros i Hi. rewrite CC. replace (i <? k) with false by (symmetry; apply Nat.ltb_ge; lia). unfold phi3. rewrite nth_upd by lia. replace (i =? k) with false by (symmetry; apply Nat.eqb_neq; lia).
    unfold phi2. rewrite nth_upd by lia. replace (i =? k + 1) with false by (symmetry; apply Nat.eqb_neq; lia). apply C2. lia.
Qed.

(** *** error estimates *)
Lemma gstr_len : length (sw_gstr (A := A)) = 13. Proof. reflexivity. Qed.
Lemma two_len : length (sw_two (A := A)) = 13. Proof. reflexivity. Qed.

Lemma estimate_ok kmax c phi k absh yp wt : lens kmax c -> length phi = kmax + 2 -> 1 <= k <= kmax -> kmax <= 12 ->
  exists e, estimate c phi k absh yp wt = inl e /\ (1 < k -> erkm1 e <> None) /\ (2 < k -> erkm2 e <> None) /\
    err e = nmul A (nmul A absh (norm (map2 (nmul A) (vsub yp (col phi 0)) (map (fun x => ndiv A n1 x) wt)))) (nsub A (cell (gg c) (k - 1)) (cell (gg c) k)).
Proof.
  intros L Lp Hk H12. destruct L. unfold estimate. rewrite (aget_ok [] phi) by lia.
  assert (E2 : exists e2, (if 2 <? k then ph <- aget phi (k - 2);; s <- aget (sig c) (k - 2);; gs <- aget sw_gstr (k - 2 - 1);;
           inl (Some (nmul A (nmul A absh (norm (map2 (nmul A) (vadd ph (vsub yp (col phi 0))) (map (fun x => ndiv A n1 x) wt)))) (nmul A s gs)))
         else inl None) = (inl e2 : option num + exn) /\ (2 < k -> e2 <> None)).
  { destruct (Nat.ltb_spec 2 k).
    - rewrite (aget_ok [] phi) by lia. rewrite (aget_ok n0 (sig c)) by lia. rewrite (aget_ok n0 sw_gstr) by (rewrite gstr_len; lia). eexists. split; [reflexivity|]. discriminate.
    - eexists. split; [reflexivity|]. lia. }
  destruct E2 as (e2 & -> & N2).
  assert (E1 : exists e1, (if 1 <? k then ph <- aget phi (k - 1);; s <- aget (sig c) (k - 1);; gs <- aget sw_gstr (k - 2);;
           inl (Some (nmul A (nmul A absh (norm (map2 (nmul A) (vadd ph (vsub yp (col phi 0))) (map (fun x => ndiv A n1 x) wt)))) (nmul A s gs)))
         else inl None) = (inl e1 : option num + exn) /\ (1 < k -> e1 <> None)).
  { destruct (Nat.ltb_spec 1 k).
    - rewrite (aget_ok [] phi) by lia. rewrite (aget_ok n0 (sig c)) by lia. rewrite (aget_ok n0 sw_gstr) by (rewrite gstr_len; lia). eexists. split; [reflexivity|]. discriminate.
    - eexists. split; [reflexivity|]. lia. }
  destruct E1 as (e1 & -> & N1).
  rewrite (aget_ok n0 (gg c) (k - 1)) by lia. rewrite (aget_ok n0 (gg c) k) by lia. rewrite (aget_ok n0 (sig c)) by lia. rewrite (aget_ok n0 sw_gstr) by (rewrite gstr_len; lia).
  eexists. split; [reflexivity|]. cbn [erkm1 erkm2 err]. auto.
Qed.

Lemma pyname_ok {X} (x : option X) : x <> None -> exists a, pyname x = inl a.
Proof. destruct x; [eexists; reflexivity|congruence]. Qed.

Lemma lower_ok k e : 1 <= k -> (1 < k -> erkm1 (A := A) e <> None) -> (2 < k -> erkm2 e <> None) -> exists kn, lower_order k e = inl kn /\ ((kn = k) \/ (kn = k - 1 /\ 2 <= k)).
Proof.
  intros Hk N1 N2. unfold lower_order. destruct (Nat.ltb_spec 2 k) as [H|H].
  - destruct (pyname_ok _ (N1 ltac:(lia))) as (a & ->). destruct (pyname_ok _ (N2 H)) as (b & ->). eexists. split; [reflexivity|]. destruct (nltb A _ _); lia.
  - destruct (Nat.eqb_spec k 2) as [E|E].
    + destruct (pyname_ok _ (N1 ltac:(lia))) as (a & ->). eexists. split; [reflexivity|]. destruct (nltb A _ _); lia.
    + eexists. split; [reflexivity|]. lia.
Qed.

(** *** restoring *)
Record restore_spec (c : Co A) (phi : list vec) (k : nat) (h : num) (c' : Co A) (phi' : list vec) : Prop := {
  rs_len : length phi' = length phi;
  rs_lo : forall i, i < k -> col phi' i = map (fun x => ndiv A x (cell (beta c) i)) (vsub (col phi i) (col phi (i + 1)));
  rs_hi : forall i, k <= i -> col phi' i = col phi i;
  rs_psi : forall i, cell (psi c') i = if i + 1 <? k then nsub A (cell (psi c) (i + 1)) h else cell (psi c) i;
  rs_co : c' = with_psi c (psi c') /\ length (psi c') = length (psi c) }.
Lemma restore_ok kmax c phi k h : lens kmax c -> length phi = kmax + 2 -> 1 <= k <= kmax ->
  exists c' phi', restore c phi k h = inl (c', phi') /\ restore_spec c phi k h c' phi'.
Proof.
  intros L Lp Hk. destruct L. unfold restore. rewrite bop_ok by (rewrite !len_sl; lia). set (d := map2 _ _ _). assert (Ld : length d = k) by (unfold d; rewrite len_map2; rewrite !len_sl; lia).
  rewrite (set_sl_ok phi) by lia. set (phi1 := upds _ _ _). assert (L1 : length phi1 = kmax + 2) by (unfold phi1; rewrite len_upds; lia).
  rewrite bop_ok by (rewrite !len_sl; lia). set (q := map2 _ _ _). assert (Lq : length q = k) by (unfold q; rewrite len_map2; rewrite !len_sl; lia).
  rewrite (set_sl_ok phi1) by lia. set (phi2 := upds _ _ _). 
  rewrite (set_sl_ok (psi c)) by (rewrite ?map_length, ?len_sl; lia). set (ps := upds (psi c) _ _).
  assert (Lps : length ps = kmax) by (unfold ps; rewrite len_upds; rewrite ?map_length, ?len_sl; lia).
  eexists _, _. split; [reflexivity|]. constructor.
  - unfold phi2. rewrite len_upds by lia. lia.
  - intros i Hi. unfold phi2. rewrite nth_upds by lia. replace (0 <=? i) with true by reflexivity. rewrite Lq. replace (i <? 0 + k) with true by (symmetry; apply Nat.ltb_lt; lia). cbn [andb].
    rewrite Nat.sub_0_r. unfold q. rewrite (nth_map2 _ _ _ [] n0) by (rewrite !len_sl; lia). rewrite !nth_sl by lia. cbn [Nat.add]. f_equal.
    unfold phi1. rewrite nth_upds by lia. replace (0 <=? i) with true by reflexivity. rewrite Ld. replace (i <? 0 + k) with true by (symmetry; apply Nat.ltb_lt; lia). cbn [andb].
    rewrite Nat.sub_0_r. unfold d. rewrite (nth_map2 _ _ _ [] []) by (rewrite !len_sl; lia). rewrite !nth_sl by lia. cbn [Nat.add]. replace (S i) with (i + 1) by lia. reflexivity.
  - intros i Hi. unfold phi2. rewrite nth_upds by lia. rewrite Lq. replace (i <? 0 + k) with false by (symmetry; apply Nat.ltb_ge; lia). rewrite andb_false_r.
    unfold phi1. rewrite nth_upds by lia. rewrite Ld. replace (i <? 0 + k) with false by (symmetry; apply Nat.ltb_ge; lia). rewrite andb_false_r. reflexivity.
  - intros i. cbn [with_psi psi]. unfold ps. assert (LL : length (map (fun x => nsub A x h) (sl (psi c) 1 k)) = k - 1) by (rewrite map_length, len_sl; lia).
    rewrite nth_upds by lia. rewrite LL. replace (0 <=? i) with true by reflexivity. cbn [Nat.add andb].
    destruct (Nat.ltb_spec i (k - 1)), (Nat.ltb_spec (i + 1) k); try lia; [|reflexivity].
    rewrite Nat.sub_0_r. rewrite (nth_map' _ _ n0) by (rewrite len_sl; lia). rewrite nth_sl by lia. cbn [Nat.add]. replace (S i) with (i + 1) by lia. reflexivity.
  - split; [reflexivity|]. cbn [with_psi psi]. lia.
Qed.

(** *** next order and step size *)
Lemma next_order_ok c co phi k knew ph1 absh wt e : 1 <= k <= s_kmax (A := A) c -> s_kmax c <= 12 -> length phi = s_kmax c + 2 ->
  (knew = k \/ (knew = k - 1 /\ 2 <= k)) -> (1 < k -> erkm1 e <> None) -> (ph1 = true -> k < s_kmax c) ->
  exists k' e', next_order c co phi k knew ph1 absh wt e = inl (k', e') /\ 1 <= k' <= s_kmax c /\ k' <= k + 1 /\ k <= k' + 1.
Proof.
  intros Hk H12 Lp Hn N1 Hp. unfold next_order. destruct ph1.
  { eexists _, _. split; [reflexivity|]. specialize (Hp eq_refl). lia. }
  destruct (Nat.eqb_spec knew (k - 1)) as [E|E].
  { destruct (pyname_ok _ (N1 ltac:(lia))) as (a & ->). eexists _, _. split; [reflexivity|]. lia. }
  destruct (Nat.ltb_spec k (ns co)) as [H|H]; [|eexists _, _; split; [reflexivity|]; lia].
  rewrite (aget_ok n0 sw_gstr) by (rewrite gstr_len; lia). rewrite (aget_ok [] phi) by lia.
  destruct (Nat.eqb_spec k 1) as [E1|E1].
  - destruct (nltb A _ _ && (k <? s_kmax c)) eqn:EB.
    + apply andb_prop in EB. destruct EB as [_ EB]. apply Nat.ltb_lt in EB. eexists _, _. split; [reflexivity|]. lia.
    + eexists _, _. split; [reflexivity|]. lia.
  - destruct (pyname_ok _ (N1 ltac:(lia))) as (a & ->). destruct (nleb A _ _); [eexists _, _; split; [reflexivity|]; lia|].
    destruct (nltb A _ _ || (k =? s_kmax c)) eqn:EB; cbn [negb]; [eexists _, _; split; [reflexivity|]; lia|].
    apply orb_false_elim in EB. destruct EB as [_ EB]. apply Nat.eqb_neq in EB. eexists _, _. split; [reflexivity|]. lia.
Qed.
Lemma next_h_ok ph1 k e h absh ms : k <= 12 -> exists h', next_h (A := A) ph1 k e h absh ms = inl h'.
Proof. intros H. unfold next_h. destruct ph1; [eexists; reflexivity|]. rewrite (aget_ok n0 sw_two) by (rewrite two_len; lia). eexists. reflexivity. Qed.

(** *** block 4 *)
Definition corrected (co : Co A) (phi : list vec) (p yp : vec) (k : nat) (h : num) : vec :=
  vadd (vscale (nmul A h (cell (gg co) k)) (vsub yp (col phi 0))) p.
Record accept_spec (c : SCfg A) (s : SSt A) (co : Co A) (phi : list vec) (p yp wt : vec) (k : nat) (x h : num) (cl : list (num * vec)) (s' : SSt A) : Prop := {
  as_t : s_t s' = x; as_y : s_y s' = corrected co phi p yp k h; as_yold : s_yold s' = s_y s;
  as_hold : s_hold s' = h; as_kold : s_kold s' = k; as_co : s_co s' = co; as_wt : s_wt s' = wt;
  as_yp : s_yp s' = s_fn c x (s_y s');
  as_plen : length (s_phi s') = length phi;
  as_phik : col (s_phi s') k = vsub (s_yp s') (col phi 0);
  as_phi : forall i, i < k -> col (s_phi s') i = vadd (col phi i) (col (s_phi s') k);
  as_kp1 : col (s_phi s') (k + 1) = vsub (col (s_phi s') k) (col phi (k + 1));
  as_hi : forall i, k + 1 < i -> col (s_phi s') i = col phi i;
  as_k : 1 <= s_k s' <= s_kmax c /\ s_k s' <= k + 1 /\ k <= s_k s' + 1;
  as_calls : s_calls s' = cl ++ [(x, s_y s')] }.

Lemma block4_ok c s co phi p yp wt k knew x h ms ph e nf cl : lens (s_kmax c) co -> length phi = s_kmax c + 2 -> 1 <= k <= s_kmax c -> s_kmax c <= 12 ->
  (knew = k \/ (knew = k - 1 /\ 2 <= k)) -> (1 < k -> erkm1 e <> None) ->
  exists s', block4 c s co phi p yp wt k knew x h ms ph e nf cl = inl s' /\ accept_spec c s co phi p yp wt k x h cl s' /\
    s_phase1 s' = ph && negb (Nat.eqb knew (k - 1) || Nat.eqb k (s_kmax c)) /\ s_nfs s' = nf /\ s_kle4 s' = s_kle4 s /\ s_notes s' = s_notes s /\
    exists e', next_order c co (s_phi s') k knew (s_phase1 s') (nabs A h) wt e = inl (s_k s', e') /\ next_h (s_phase1 s') (s_k s') e' h (nabs A h) ms = inl (s_h s').
Proof.
  intros L Lp Hk H12 Hn N1. pose proof L as L0. destruct L0. unfold block4. rewrite (aget_ok n0 (gg co)) by lia. rewrite (aget_ok [] phi) by lia.
  set (y' := vadd _ p). set (yp' := s_fn c x y'). set (d := vsub yp' (col phi 0)).
  rewrite (aset_ok phi) by lia. set (phi1 := upd phi k d). assert (L1 : length phi1 = s_kmax c + 2) by (unfold phi1; rewrite len_upd; lia).
  rewrite (aget_ok [] phi1) by lia. rewrite (aset_ok phi1) by lia. set (phi2 := upd phi1 _ _). assert (L2 : length phi2 = s_kmax c + 2) by (unfold phi2; rewrite len_upd; lia).
  assert (LL : length (map (fun a => vadd a d) (sl phi2 0 k)) = k) by (rewrite map_length, len_sl; lia).
  rewrite (set_sl_ok phi2) by lia. set (phi3 := upds phi2 _ _). assert (L3 : length phi3 = s_kmax c + 2) by (unfold phi3; rewrite len_upds; lia).
  set (ph1 := ph && _).
  assert (Hp : ph1 = true -> k < s_kmax c).
  { unfold ph1. intros HP. apply andb_prop in HP. destruct HP as [_ HP]. apply negb_true_iff, orb_false_elim in HP. destruct HP as [_ HP]. apply Nat.eqb_neq in HP. lia. }
  destruct (next_order_ok c co phi3 k knew ph1 (nabs A h) wt e Hk H12 L3 Hn N1 Hp) as (k' & e' & EO & B1 & B2 & B3). rewrite EO.
  destruct (next_h_ok ph1 k' e' h (nabs A h) ms ltac:(lia)) as (h' & EH). rewrite EH.
  eexists. split; [reflexivity|]. split; [|cbn; do 4 (split; [reflexivity|]); exists e'; split; assumption].
  assert (C3 : forall i, col phi3 i = if i <? k then vadd (col phi2 i) d else col phi2 i).
  { intros i. unfold phi3. rewrite nth_upds by lia. rewrite LL. replace (0 <=? i) with true by reflexivity. cbn [Nat.add andb]. destruct (Nat.ltb_spec i k); [|reflexivity].
    rewrite Nat.sub_0_r, (nth_map' _ _ []) by (rewrite len_sl; lia). rewrite nth_sl by lia. reflexivity. }
  assert (C2 : forall i, col phi2 i = if i =? k + 1 then vsub d (col phi (k + 1)) else if i =? k then d else col phi i).
  { intros i. unfold phi2. rewrite nth_upd by lia. destruct (i =? k + 1).
    - f_equal. unfold phi1. rewrite nth_upd by lia. replace (k + 1 =? k) with false by (symmetry; apply Nat.eqb_neq; lia). reflexivity.
    - unfold phi1. rewrite nth_upd by lia. reflexivity. }
  assert (Ck : col phi3 k = d). { rewrite C3, Nat.ltb_irrefl, C2. replace (k =? k + 1) with false by (symmetry; apply Nat.eqb_neq; lia). rewrite Nat.eqb_refl. reflexivity. }
  constructor; cbn [s_t s_y s_yold s_h s_hold s_wt s_k s_kold s_phi s_yp s_co s_calls]; try reflexivity; try assumption.
  - lia.
  - intros i Hi. rewrite Ck, C3. replace (i <? k) with true by (symmetry; apply Nat.ltb_lt; lia). rewrite C2. replace (i =? k + 1) with false by (symmetry; apply Nat.eqb_neq; lia). replace (i =? k) with false by (symmetry; apply Nat.eqb_neq; lia). reflexivity.
  - rewrite Ck, C3. replace (k + 1 <? k) with false by (symmetry; apply Nat.ltb_ge; lia). rewrite C2, Nat.eqb_refl. reflexivity.
  - intros i Hi. rewrite C3. replace (i <? k) with false by (symmetry; apply Nat.ltb_ge; lia). rewrite C2. replace (i =? k + 1) with false by (symmetry; apply Nat.eqb_neq; lia). replace (i =? k) with false by (symmetry; apply Nat.eqb_neq; lia). reflexivity.
  - auto.
Qed.

(** *** one trial *)
Definition kmax_ok (c : SCfg A) : Prop := 1 <= s_kmax c <= 12.
Record sinv (c : SCfg A) (s : SSt A) : Prop := {
  si_co : coready (s_kmax c) (s_co s) (s_k s) (s_kold s);
  si_phi : length (s_phi s) = s_kmax c + 2 }.

(** all that a trial computes before the decision *)
Record trial_data (c : SCfg A) (s : SSt A) (co : Co A) (phi : list vec) (p yp wt : vec) (e : Errs A) (knew : nat) : Prop := {
  td_block1 : block1 (s_kmax c) (s_co s) (s_k s) (s_kold s) (s_h s) (s_hold s) = inl co;
  td_done : codone (s_kmax c) co (s_k s);
  td_ns : ns co = ns_trial (ns (s_co s)) (s_kold s) (s_h s) (s_hold s);
  td_arr : arrays_of (s_co s) co (s_k s) (s_h s);
  td_pred : predict_spec co (s_phi s) (s_k s) (s_h s) (s_y s) phi p;
  td_yp : yp = s_fn c (nadd A (s_t s) (s_h s)) p;
  td_wt : wt = calculate_scale_mean (s_atol c) (s_rtol c) p (s_y s);
  td_est : estimate co phi (s_k s) (nabs A (s_h s)) yp wt = inl e;
  td_knew : lower_order (s_k s) e = inl knew /\ (knew = s_k s \/ (knew = s_k s - 1 /\ 2 <= s_k s)) /\ (1 < s_k s -> erkm1 e <> None);
  td_err : err e = nmul A (nmul A (nabs A (s_h s)) (norm (map2 (nmul A) (vsub yp (col phi 0)) (map (fun x => ndiv A n1 x) wt)))) (nsub A (cell (gg co) (s_k s - 1)) (cell (gg co) (s_k s))) }.

Definition rejected (s : SSt A) (co' : Co A) (phi' : list vec) (p yp wt : vec) (e : Errs A) (knew ifail : nat) : SSt A :=
  mkSS (s_t s) (s_y s) (s_yold s) (retry_h (S ifail) (erk e) (s_h s)) (s_hold s) wt (retry_k (S ifail) knew) (s_kold s)
       phi' yp (with_ns co' 0) false (s_kle4 s) (S (s_nfs s)) (s_calls s ++ [(nadd A (s_t s) (s_h s), p)]) (s_notes s).

Definition stepped (c : SCfg A) (s : SSt A) (knew : nat) (ms : num) (e : Errs A) (wt : vec) (s' : SSt A) : Prop :=
    s_phase1 s' = s_phase1 s && negb (Nat.eqb knew (s_k s - 1) || Nat.eqb (s_k s) (s_kmax c)) /\ s_nfs s' = s_nfs s /\ s_kle4 s' = s_kle4 s /\ s_notes s' = s_notes s /\
    exists e', next_order c (s_co s') (s_phi s') (s_k s) knew (s_phase1 s') (nabs A (s_h s)) wt e = inl (s_k s', e') /\ next_h (s_phase1 s') (s_k s') e' (s_h s) (nabs A (s_h s)) ms = inl (s_h s').

Lemma swag_trial_ok c s ifail ms : kmax_ok c -> sinv c s ->
  exists co phi p yp wt e knew, trial_data c s co phi p yp wt e knew /\
   ((nleb A (err e) sw_eps = true /\ exists s', swag_trial c s ifail ms = inl (SAccept s') /\ sinv c s' /\
       accept_spec c s co phi p yp wt (s_k s) (nadd A (s_t s) (s_h s)) (s_h s) (s_calls s ++ [(nadd A (s_t s) (s_h s), p)]) s' /\ stepped c s knew ms e wt s') \/
    (nleb A (err e) sw_eps = false /\ exists co' phi', restore_spec co phi (s_k s) (s_h s) co' phi' /\
       let s' := rejected s co' phi' p yp wt e knew ifail in
       sinv c s' /\ swag_trial c s ifail ms = inl (if nltb A (nabs A (s_h s')) ms then STooSmall s' else SAgain s'))).
Proof.
  intros HK [HC HP]. pose proof HC as (HB & Hk & _). unfold kmax_ok in HK. unfold swag_trial.
  destruct (block1_ok _ _ _ _ (s_h s) (s_hold s) HC) as (co & E1 & D & En & Ar). rewrite E1.
  pose proof (proj1 (cd_base _ _ _ D)) as Lc.
  assert (Hns : 1 <= ns co) by (destruct (cd_inv _ _ _ D) as (cc & I & J); pose proof (ci_cc _ _ _ I); lia).
  destruct (predict_ok (s_kmax c) co (s_phi s) (s_k s) (s_h s) (s_y s) Lc HP Hns Hk) as (phi & p & E2 & PS). rewrite E2.
  assert (Lphi : length phi = s_kmax c + 2) by (rewrite (ps_len _ _ _ _ _ _ _ PS); exact HP).
  set (yp := s_fn c _ p). set (wt := calculate_scale_mean _ _ _ _).
  destruct (estimate_ok (s_kmax c) co phi (s_k s) (nabs A (s_h s)) yp wt Lc Lphi Hk ltac:(lia)) as (e & E3 & N1 & N2 & EE). rewrite E3.
  destruct (lower_ok (s_k s) e ltac:(lia) N1 N2) as (knew & E4 & Hkn). rewrite E4.
  exists co, phi, p, yp, wt, e, knew. split; [constructor; auto|].
  destruct (nleb A (err e) sw_eps) eqn:EB; [left|right]; (split; [reflexivity|]).
  - destruct (block4_ok c s co phi p yp wt (s_k s) knew (nadd A (s_t s) (s_h s)) (s_h s) ms (s_phase1 s) e (s_nfs s) (s_calls s ++ [(nadd A (s_t s) (s_h s), p)])) as (s' & E5 & AS & X1 & X2 & X3 & X4 & X5); try assumption; try lia.
    rewrite E5. exists s'. split; [reflexivity|]. split; [|split; [exact AS|unfold stepped; rewrite (as_co _ _ _ _ _ _ _ _ _ _ _ _ AS); auto]].
    constructor.
    + rewrite (as_co _ _ _ _ _ _ _ _ _ _ _ _ AS), (as_kold _ _ _ _ _ _ _ _ _ _ _ _ AS). destruct (as_k _ _ _ _ _ _ _ _ _ _ _ _ AS) as (K1 & K2 & K3).
      split; [exact (cd_base _ _ _ D)|]. split; [exact K1|]. right. split; [exact K2|]. split; [exact K3|].
      destruct (cd_inv _ _ _ D) as (cc & I & [(J1 & J2 & J3)|(J1 & J2 & J3)]); exists cc; (split; [exact I|]); [left|right]; lia.
    + rewrite (as_plen _ _ _ _ _ _ _ _ _ _ _ _ AS). exact Lphi.
  - destruct (restore_ok (s_kmax c) co phi (s_k s) (s_h s) Lc Lphi Hk) as (co' & phi' & E5 & RS). rewrite E5. exists co', phi'. split; [exact RS|]. split.
    + constructor; cbn [rejected s_co s_phi s_k s_kold].
      * destruct (rs_co _ _ _ _ _ _ RS) as (RC & RL). split; [|split].
        -- destruct (cd_base _ _ _ D) as (Ld & G). rewrite RC. destruct Ld. split; [constructor; cbn; try assumption; lia|exact G].
        -- unfold retry_k. destruct (3 <=? S ifail); lia.
        -- left. reflexivity.
      * rewrite (rs_len _ _ _ _ _ _ RS). exact Lphi.
    + unfold rejected. cbn [s_h]. destruct (nltb A _ ms); reflexivity.
Qed.
End Gen.
