(** * How far a change of the inputs or of the weights can move the output (C87). *)
From Coq Require Import String Reals ZArith List Lia Lra Psatz Bool Arith.
From Verif Require Import Spec Tensor Utils LagrangePolynomial Basis PolynomialLayers ProductLayer LagrangeND Layers Networks Observe ObserveNet
  SumFacts TensorFacts LagrangeFacts LayerFacts SegmentFacts LayerProofs LebesgueFacts HeapFacts NetFacts Prop_Init Prop_Bounds Prop_Approx Prop_Universal.
Import ListNotations.
Local Open Scope R_scope.

(** ** The slope of an interpolating polynomial *)
Lemma sin_mult k t : Rabs (sin (INR k * t)) <= INR k * Rabs (sin t).
Proof.
  induction k as [|k IH].
  - simpl (INR 0). rewrite !Rmult_0_l, sin_0, Rabs_R0. lra.
  - rewrite S_INR, Rmult_plus_distr_r, Rmult_1_l, sin_plus, Rmult_plus_distr_r, Rmult_1_l.
    eapply Rle_trans; [apply Rabs_triang|]. rewrite !Rabs_mult.
    assert (A : forall u, Rabs (cos u) <= 1) by (intros u; pose proof (COS_bound u); apply Rabs_le; lra).
    pose proof (A t). pose proof (A (INR k * t)). pose proof (Rabs_pos (sin t)). pose proof (Rabs_pos (sin (INR k * t))).
    pose proof (Rabs_pos (cos t)). pose proof (Rabs_pos (cos (INR k * t))). apply Rplus_le_compat; nra.
Qed.

Lemma cos_diff a b : cos a - cos b = -2 * sin ((a + b) / 2) * sin ((a - b) / 2).
Proof.
  assert (A : cos a = cos ((a + b) / 2 + (a - b) / 2)) by (f_equal; field).
  assert (B : cos b = cos ((a + b) / 2 - (a - b) / 2)) by (f_equal; field).
  rewrite A, B, cos_plus, cos_minus. ring.
Qed.

(** Chebyshev polynomials: slope at most [k^2] on [[-1,1]]. *)
Lemma cht_lip k x y : -1 <= x <= 1 -> -1 <= y <= 1 -> Rabs (cht k x - cht k y) <= INR k ^ 2 * Rabs (x - y).
Proof.
  intros Hx Hy. destruct (cos_of x Hx) as (t & ->), (cos_of y Hy) as (s & ->). rewrite !cht_cos, cos_diff.
  replace (- cos t - - cos s) with (- (cos t - cos s)) by ring. rewrite Rabs_Ropp, cos_diff.
  replace ((INR k * t + INR k * s) / 2) with (INR k * ((t + s) / 2)) by field.
  replace ((INR k * t - INR k * s) / 2) with (INR k * ((t - s) / 2)) by field.
  rewrite !Rabs_mult. pose proof (sin_mult k ((t + s) / 2)) as A. pose proof (sin_mult k ((t - s) / 2)) as B.
  pose proof (Rabs_pos (sin (INR k * ((t + s) / 2)))) as PA. pose proof (Rabs_pos (sin (INR k * ((t - s) / 2)))) as PB.
  pose proof (Rmult_le_compat _ _ _ _ PA PB A B) as C.
  replace (Rabs (-2)) with 2 by (rewrite Rabs_left; lra). nra.
Qed.

Lemma trap_le N f g : (forall k, (k <= N)%nat -> Rabs (f k) <= g k) -> Rabs (trap N f) <= trap N g.
Proof.
  intros H. unfold trap. eapply Rle_trans; [apply rsum_abs|]. apply rsum_le. intros k Hk.
  pose proof (H k ltac:(lia)) as A. pose proof (H (S k) ltac:(lia)) as B. unfold Rdiv. rewrite Rabs_mult, (Rabs_pos_eq (/ 2)) by lra. pose proof (Rabs_triang (f k) (f (S k))). lra.
Qed.

Lemma trap_squares N : trap N (fun k => INR k ^ 2) = INR N * (2 * INR N ^ 2 + 1) / 6.
Proof.
  induction N as [|N IH]; unfold trap in *; cbn [rsum].
  - simpl (INR 0). field.
  - rewrite IH, S_INR. field.
Qed.

Lemma card_lip N j x y : (1 <= N)%nat -> -1 <= x <= 1 -> -1 <= y <= 1 ->
  Rabs (card N j x - card N j y) <= 2 * endw N j * ((2 * INR N ^ 2 + 1) / 6 * Rabs (x - y)).
Proof.
  intros HN Hx Hy. assert (PN : 0 < INR N) by (apply lt_0_INR; lia).
  assert (E0 : 0 < endw N j) by (unfold endw; destruct orb; lra).
  unfold card. rewrite <- Rmult_minus_distr_l.
  replace (trap N (fun k => cos (INR k * ang N j) * cht k x) - trap N (fun k => cos (INR k * ang N j) * cht k y))
    with (trap N (fun k => cos (INR k * ang N j) * (cht k x - cht k y))).
  2: { rewrite (trap_ext N _ (fun k => cos (INR k * ang N j) * cht k x + (-1) * (cos (INR k * ang N j) * cht k y))) by (intros; ring).
       rewrite trap_plus, trap_scal. ring. }
  assert (T : Rabs (trap N (fun k => cos (INR k * ang N j) * (cht k x - cht k y))) <= INR N * (2 * INR N ^ 2 + 1) / 6 * Rabs (x - y)).
  { rewrite <- trap_squares, Rmult_comm, <- trap_scal. apply trap_le. intros k _. rewrite Rabs_mult.
    assert (Rabs (cos (INR k * ang N j)) <= 1) by (pose proof (COS_bound (INR k * ang N j)); apply Rabs_le; lra).
    pose proof (cht_lip k x y Hx Hy). pose proof (Rabs_pos (cos (INR k * ang N j))). pose proof (Rabs_pos (cht k x - cht k y)). nra. }
  assert (P : 0 < 2 * endw N j / INR N) by (apply Rdiv_lt_0_compat; lra).
  rewrite Rabs_mult, (Rabs_pos_eq (2 * endw N j / INR N)) by lra.
  apply (Rmult_le_compat_l _ _ _ (Rlt_le _ _ P)) in T. eapply Rle_trans; [exact T|]. right. field. lra.
Qed.

(** Largest slope, on [[-1,1]], of a polynomial through [n] Chebyshev-Lobatto nodes with values of size at most 1 is at most this. *)
Definition steepness (n : nat) : R := INR (n - 1) * (2 * INR (n - 1) ^ 2 + 1) / 3.

Lemma steepness_pos n : 0 <= steepness n.
Proof.
  unfold steepness. pose proof (pos_INR (n - 1)). pose proof (pow2_ge_0 (INR (n - 1))).
  assert (0 <= INR (n - 1) * (2 * INR (n - 1) ^ 2 + 1)) by (apply Rmult_le_pos; lra). lra.
Qed.

Lemma interp_lip n v W x y : (1 <= n)%nat -> (forall k, (k < n)%nat -> Rabs (v k) <= W) -> -1 <= x <= 1 -> -1 <= y <= 1 ->
  Rabs (interp n 2 v x - interp n 2 v y) <= W * steepness n * Rabs (x - y).
Proof.
  intros Hn Hv Hx Hy. destruct n as [|N]; [lia|]. unfold steepness. replace (S N - 1)%nat with N by lia.
  destruct (Nat.eq_dec N 0) as [->|HN].
  { rewrite !(interp_ext 1 2 v (fun _ => v 0%nat)) by (intros j Hj; now replace j with 0%nat by lia).
    rewrite !interp_const by (lra || lia). rewrite Rminus_diag_eq, Rabs_R0 by auto. simpl (INR 0). lra. }
  rewrite !interp_card, <- rsum_minus by lia. eapply Rle_trans; [apply rsum_abs|].
  replace (W * (INR N * (2 * INR N ^ 2 + 1) / 3) * Rabs (x - y)) with (W * ((2 * INR N ^ 2 + 1) / 6 * Rabs (x - y)) * (2 * INR N)) by field.
  rewrite <- endw_sum, <- rsum_scal by lia. apply rsum_le. intros j Hj.
  rewrite <- Rmult_minus_distr_l, Rabs_mult. pose proof (card_lip N j x y ltac:(lia) Hx Hy) as C. specialize (Hv j Hj).
  pose proof (Rabs_pos (v j)). pose proof (Rabs_pos (card N j x - card N j y)).
  eapply Rle_trans; [apply Rmult_le_compat; [apply Rabs_pos|apply Rabs_pos|exact Hv|exact C]|]. right. ring.
Qed.

(** Pieces joined at the knots. *)
Lemma paste_lip S (f : R -> R) (g : nat -> R -> R) L : (1 <= S)%nat -> 0 <= L ->
  (forall s x, (s < S)%nat -> knot S s <= x <= knot S (Datatypes.S s) -> f x = g s x) ->
  (forall s x y, (s < S)%nat -> knot S s <= x <= knot S (Datatypes.S s) -> knot S s <= y <= knot S (Datatypes.S s) ->
     Rabs (g s x - g s y) <= L * Rabs (x - y)) ->
  forall x y, -1 <= x <= 1 -> -1 <= y <= 1 -> Rabs (f x - f y) <= L * Rabs (x - y).
Proof.
  intros HS HL Hf Hg.
  assert (A : forall m x y, (m <= S)%nat -> -1 <= x -> x <= y -> y <= knot S m -> Rabs (f x - f y) <= L * (y - x)).
  { induction m as [|m IH]; intros x y Hm Hx Hxy Hy.
    - rewrite knot_0 in Hy. replace y with x by lra. rewrite !Rminus_diag_eq, Rabs_R0 by auto. lra.
    - destruct (Rle_or_lt y (knot S m)) as [C|C]; [apply IH; auto; lia|].
      assert (In : forall a, knot S m <= a <= y -> Rabs (f a - f y) <= L * (y - a)).
      { intros a Ha. rewrite !(Hf m) by (auto; lra || lia). replace (y - a) with (Rabs (a - y)) by (rewrite Rabs_left1; lra).
        apply Hg; auto; lra || lia. }
      destruct (Rle_or_lt (knot S m) x) as [D|D]; [apply In; lra|].
      pose proof (In (knot S m) ltac:(lra)) as I1. pose proof (IH x (knot S m) ltac:(lia) Hx ltac:(lra) ltac:(lra)) as I2.
      replace (f x - f y) with ((f x - f (knot S m)) + (f (knot S m) - f y)) by ring.
      eapply Rle_trans; [apply Rabs_triang|]. nra. }
  intros x y Hx Hy. destruct (Rle_or_lt x y) as [C|C].
  - rewrite (Rabs_minus_sym x y), (Rabs_pos_eq (y - x)) by lra. apply (A S); try lra; auto. rewrite knot_S by auto. lra.
  - rewrite (Rabs_minus_sym (f x)), (Rabs_pos_eq (x - y)) by lra. apply (A S); try lra; auto. rewrite knot_S by auto. lra.
Qed.

Lemma link0_lip l o i W x y : held l -> pw_length l = 2 -> continuous_class (pw_cls l) -> (o < pw_out l)%nat -> (i < pw_in l)%nat ->
  (forall i p, valid (shape (pw_w l)) [o; i; p] -> Rabs (at_ (pw_w l) [o; i; p]) <= W) ->
  -1 <= x <= 1 -> -1 <= y <= 1 ->
  Rabs (link0 l o i x - link0 l o i y) <= W * steepness (pw_n l) * INR (pw_segments l) * Rabs (x - y).
Proof.
  intros H HL Hc Ho Hi HW Hx Hy. pose proof (held_wf l H) as (Hn & HS & _). assert (PS := INR_pos _ HS).
  assert (W0 : 0 <= W). { eapply Rle_trans; [apply Rabs_pos|]. apply (HW i (weight_pos (pw_cls l) (pw_n l) 0 0)). apply wf_weight; auto. }
  pose proof (steepness_pos (pw_n l)) as St.
  assert (Cc : is_continuous_class (pw_cls l) = true) by (destruct Hc as [->| ->]; reflexivity).
  apply (paste_lip (pw_segments l) (link0 l o i) (piece l o i)); auto.
  - apply Rmult_le_pos; [now apply Rmult_le_pos|lra].
  - intros s z Hs Hz. destruct (Rlt_or_le z (knot (pw_segments l) (S s))) as [C|C].
    + unfold link0. replace (seg l z) with s; auto. symmetry. apply seg_spec; auto. repeat split; auto; right; lra.
    + replace z with (knot (pw_segments l) (S s)) by lra. destruct (Nat.eq_dec (S s) (pw_segments l)) as [E|E].
      * unfold link0. replace (seg l _) with s; auto. symmetry. apply seg_spec; auto. repeat split; auto; right; lra.
      * rewrite piece_match by auto. unfold link0. replace (seg l _) with (S s); auto. symmetry. apply seg_spec; auto; try lia.
        repeat split; try lia; right; [lra|]. apply knot_lt; auto.
  - intros s a b Hs Ha Hb. unfold piece. rewrite !x_local_seg by auto.
    assert (Lr : forall a, knot (pw_segments l) s <= a <= knot (pw_segments l) (S s) -> -1 <= seg_local (pw_segments l) s a <= 1).
    { intros c Hc'. unfold seg_local. rewrite knot_succ in Hc' by auto. split; [nra|]. destruct Hc' as (_ & Hc').
      apply (Rmult_le_compat_l (INR (pw_segments l))) in Hc'; [|lra].
      replace (INR (pw_segments l) * (knot (pw_segments l) s + 2 / INR (pw_segments l))) with (INR (pw_segments l) * knot (pw_segments l) s + 2) in Hc' by (field; lra). lra. }
    eapply Rle_trans; [apply interp_lip; auto|].
    + intros k Hk. rewrite seg_weight_eq. apply HW. now apply wf_weight.
    + right. unfold seg_local. replace (_ - _) with (INR (pw_segments l) * (a - b)) by ring. rewrite Rabs_mult, (Rabs_pos_eq (INR (pw_segments l))) by lra. ring.
Qed.

Lemma folded_lip p x y : (forall q, p = Some q -> 0 < q) -> Rabs (apply_periodicity p x - apply_periodicity p y) <= Rabs (x - y).
Proof. intros Hp. destruct p as [q|]; cbn; [|lra]. apply make_periodic_lipschitz. now apply Hp. Qed.

(** ** C87: continuous layers *)
Theorem C87_layer_lipschitz : forall l W v v' o,
  held l -> pw_length l = 2 -> pw_cls l = PiecewisePolynomial -> (o < pw_out l)%nat ->
  (forall i p, valid (shape (pw_w l)) [o; i; p] -> Rabs (at_ (pw_w l) [o; i; p]) <= W) ->
  inputs_in_range (pw_periodicity l) (pw_in l) v -> inputs_in_range (pw_periodicity l) (pw_in l) v' ->
  Rabs (layer_out l v o - layer_out l v' o) <= W * steepness (pw_n l) * INR (pw_segments l) * rsum (pw_in l) (fun i => Rabs (v i - v' i)).
Proof.
  intros l W v v' o H HL Hc Ho HW Hv Hv'. pose proof (held_wf l H) as (Hn & HS & Hi0 & _). assert (PS := INR_pos _ HS).
  assert (W0 : 0 <= W). { eapply Rle_trans; [apply Rabs_pos|]. apply (HW 0%nat (weight_pos (pw_cls l) (pw_n l) 0 0)). apply wf_weight; auto. }
  rewrite !layer_out_sum by (auto; rewrite Hc; now left). rewrite <- rsum_minus, <- rsum_scal.
  eapply Rle_trans; [apply rsum_abs|]. apply rsum_le. intros i Hi. unfold link.
  eapply Rle_trans; [apply link0_lip with (W := W); auto|].
  - rewrite Hc. now left.
  - now apply folded_range with (n := pw_in l).
  - now apply folded_range with (n := pw_in l).
  - apply Rmult_le_compat_l; [apply Rmult_le_pos; [apply Rmult_le_pos; [auto|apply steepness_pos]|lra]|]. apply folded_lip. intros q E.
    unfold inputs_in_range in Hv. rewrite E in Hv. lra.
Qed.
Print Assumptions C87_layer_lipschitz.

(** The constant is attained with two nodes. *)
Theorem C87_slope_attained : forall S W, (1 <= S)%nat -> 0 <= W -> exists l,
  held l /\ pw_cls l = PiecewisePolynomial /\ pw_length l = 2 /\ pw_periodicity l = None /\ pw_n l = 2%nat /\ pw_in l = 1%nat /\ pw_segments l = S /\
  (forall i p, valid (shape (pw_w l)) [0%nat; i; p] -> Rabs (at_ (pw_w l) [0%nat; i; p]) <= W) /\
  Rabs (layer_out l (fun _ => knot S 1) 0 - layer_out l (fun _ => -1) 0) = W * steepness 2 * INR S * Rabs (knot S 1 - -1).
Proof.
  intros S W HS HW. assert (PS := INR_pos S HS). set (l0 := new_piecewise PiecewisePolynomial 2 1 1 S 2 1 None (fun _ _ => 0)).
  set (l := with_w l0 (mkT (shape (pw_w l0)) (fun ix => if Nat.eqb (nth 2 ix 0%nat) 0 then - W else W))).
  assert (H : held l) by (apply with_w_held; [apply new_held; lia|reflexivity]).
  exists l. repeat split; auto.
  - intros i p _. cbn. destruct (Nat.eqb p 0); [rewrite Rabs_Ropp|]; rewrite Rabs_pos_eq; lra.
  - rewrite !layer_out_sum by (auto; try (now left); cbn; lia). change (pw_in l) with 1%nat. cbn [rsum]. unfold link. change (pw_periodicity l) with (@None R). cbn [apply_periodicity].
    assert (E1 : link0 l 0 0 (knot S 1) = W).
    { transitivity (link0 l 0 0 (seg_global (pw_segments l) 0 (lobatto (pw_n l) 1))).
      - f_equal. change (pw_segments l) with S. change (pw_n l) with 2%nat. replace (lobatto 2 1) with 1.
        + unfold seg_global. rewrite knot_succ by auto. field. lra.
        + unfold lobatto. cbn [Nat.eqb Nat.sub]. simpl (INR 1). replace (1 * PI / 1) with PI by field. rewrite cos_PI. ring.
      - rewrite link0_node by (auto; try (left; now left); cbn; lia). reflexivity. }
    assert (E0 : link0 l 0 0 (-1) = - W).
    { transitivity (link0 l 0 0 (seg_global (pw_segments l) 0 (lobatto (pw_n l) 0))).
      - f_equal. change (pw_segments l) with S. change (pw_n l) with 2%nat. replace (lobatto 2 0) with (-1).
        + unfold seg_global. rewrite knot_0. field. lra.
        + unfold lobatto. cbn [Nat.eqb Nat.sub]. simpl (INR 0). simpl (INR 1). replace (0 * PI / 1) with 0 by field. rewrite cos_0. ring.
      - rewrite link0_node by (auto; try (left; now left); cbn; lia). reflexivity. }
    rewrite E1, E0. unfold steepness. cbn [Nat.sub]. simpl (INR 1). rewrite knot_succ, knot_0 by auto.
    replace (-1 + 2 / INR S - -1) with (2 / INR S) by ring.
    rewrite !Rabs_pos_eq; [field; lra|apply Rlt_le, Rdiv_lt_0_compat; lra|lra].
Qed.
Print Assumptions C87_slope_attained.

(** Discontinuous layers have no such constant: however small the distance of the inputs, the outputs can differ by the jump. *)
Theorem C87_discontinuous_not_lipschitz_refuted : forall n S, (1 <= n)%nat -> (2 <= S)%nat -> exists l,
  held l /\ pw_cls l = PiecewiseDiscontinuousPolynomial /\ pw_length l = 2 /\ pw_periodicity l = None /\ pw_n l = n /\ pw_in l = 1%nat /\ pw_segments l = S /\
  (forall i p, valid (shape (pw_w l)) [0%nat; i; p] -> Rabs (at_ (pw_w l) [0%nat; i; p]) <= 1) /\
  forall L, exists v v', -1 <= v <= 1 /\ -1 <= v' <= 1 /\
    L * Rabs (v - v') < Rabs (layer_out l (fun _ => v) 0 - layer_out l (fun _ => v') 0).
Proof.
  intros n S Hn HS. assert (PS : 0 < INR S) by (apply lt_0_INR; lia).
  set (l0 := new_piecewise PiecewiseDiscontinuousPolynomial n 1 1 S 2 1 None (fun _ _ => 0)).
  set (l := with_w l0 (mkT (shape (pw_w l0)) (fun ix => if Nat.eqb (nth 2 ix 0 / n)%nat 0 then 0 else 1))).
  assert (H : held l) by (apply with_w_held; [apply new_held; lia|reflexivity]).
  assert (V : forall s x, in_segment S s x -> layer_out l (fun _ => x) 0 = if Nat.eqb s 0 then 0 else 1).
  { intros s x Hs. rewrite layer_out_sum by (auto; try (now right); cbn; lia). change (pw_in l) with 1%nat. cbn [rsum]. rewrite Rplus_0_l.
    change (link l 0 0 x) with (link0 l 0 0 x). rewrite (link0_spec l 0 0 s x (fun _ => if Nat.eqb s 0 then 0 else 1)); auto.
    split; [now apply poly_lt_const|]. intros k Hk. change (pw_n l) with n in *. cbn.
    replace ((s * n + k) / n)%nat with s; auto. apply (Nat.div_unique _ n _ k); auto. lia. }
  exists l. repeat split; auto.
  - intros i p _. cbn. destruct (Nat.eqb _ 0); rewrite Rabs_pos_eq; lra.
  - intros L. set (e := Rmin (2 / INR S) (/ (Rabs L + 1))). pose proof (Rabs_pos L) as PL.
    assert (P1 : 0 < 2 / INR S) by (apply Rdiv_lt_0_compat; lra). assert (P2 : 0 < / (Rabs L + 1)) by (apply Rinv_0_lt_compat; lra).
    assert (e0 : 0 < e) by now apply Rmin_glb_lt. assert (e1 : e <= 2 / INR S) by apply Rmin_l. assert (e2 : e <= / (Rabs L + 1)) by apply Rmin_r.
    assert (K0 := knot_0 S). assert (K1 : knot S 1 = knot S 0 + 2 / INR S) by (apply knot_succ; lia).
    assert (K2 : knot S 1 <= 1) by (apply (knot_range S 1); lia).
    exists (knot S 1), (knot S 1 - e). split; [lra|]. split; [lra|].
    rewrite (V 1%nat), (V 0%nat).
    + cbn [Nat.eqb]. replace (knot S 1 - (knot S 1 - e)) with e by ring. rewrite !Rabs_pos_eq by lra.
      apply Rle_lt_trans with (Rabs L * e); [pose proof (Rle_abs L); nra|].
      apply Rle_lt_trans with (Rabs L * / (Rabs L + 1)); [nra|]. apply (Rmult_lt_reg_r (Rabs L + 1)); [lra|]. rewrite Rmult_assoc, Rinv_l by lra. lra.
    + repeat split; [lia|now left|right; lra].
    + repeat split; [lia|right; lra|]. destruct (Nat.eq_dec S 2) as [->|N]; [now left|]. right. apply knot_lt; lia.
Qed.
Print Assumptions C87_discontinuous_not_lipschitz_refuted.

(** ** C87: weights *)
Lemma interp_minus n v w x : interp n 2 v x - interp n 2 w x = interp n 2 (fun k => v k - w k) x.
Proof.
  rewrite (interp_ext n 2 (fun k => v k - w k) (fun k => v k + (-1) * w k)) by (intros; ring). rewrite interp_linear. ring.
Qed.

(** Two layers that differ in their weights only, by at most [delta] each. *)
Theorem C87_weight_perturbation : forall l w delta v o,
  held l -> pw_length l = 2 -> sum_class (pw_cls l) -> (2 <= pw_n l)%nat -> (o < pw_out l)%nat -> shape w = shape (pw_w l) ->
  (forall i p, valid (shape (pw_w l)) [o; i; p] -> Rabs (at_ w [o; i; p] - at_ (pw_w l) [o; i; p]) <= delta) ->
  inputs_in_range (pw_periodicity l) (pw_in l) v ->
  Rabs (layer_out (with_w l w) v o - layer_out l v o) <= INR (pw_in l) * (2 * INR (pw_n l - 1) * delta).
Proof.
  intros l w delta v o H HL Hc Hn Ho Sw HW Hv. rewrite !layer_out_sum by (auto using with_w_held). change (pw_in (with_w l w)) with (pw_in l).
  rewrite <- rsum_minus. eapply Rle_trans; [apply rsum_abs|]. rewrite <- rsum_const. apply rsum_le. intros i Hi.
  assert (El : link l o i (v i) = link (with_w l (pw_w l)) o i (v i)) by now destruct l. rewrite El, !link_with_w. cbv zeta. clear El.
  pose proof (held_wf l H) as (Hn1 & HS & _). set (x := apply_periodicity (pw_periodicity l) (v i)).
  rewrite x_local_seg by auto. rewrite interp_minus. apply interp_bound; auto.
  - intros k Hk. apply HW. apply wf_weight; auto. now apply seg_lt.
  - apply local_range; auto; [now apply seg_in|]. now apply folded_range with (n := pw_in l).
Qed.
Print Assumptions C87_weight_perturbation.

(** ** Networks *)
(** A HighOrderMLP made of piecewise layers only, whatever its weights have become: the layers, in order, and what they compute. *)
Definition mlp_configs (c : pw_class) (n d m K H si sh so : nat) : list cfg :=
  pw_slot c n d H si None :: repeat (pw_slot c n H H sh None) K ++ [pw_slot c n H m so None].

Lemma mlp_sequence g t c n d m K H si sh so h0 net h1 : wf_heap h0 ->
  (t = "continuous"%string /\ c = PiecewisePolynomial \/ t = "discontinuous"%string /\ c = PiecewiseDiscontinuousPolynomial) ->
  (1 <= n)%nat -> (1 <= d)%nat -> (1 <= m)%nat -> (1 <= H)%nat -> (1 <= si)%nat -> (1 <= sh)%nat -> (1 <= so)%nat ->
  HighOrderMLP g (layers_only t n d m K H si sh so) h0 = Ok (net, h1) ->
  exists L, (forall ls, Forall held ls -> map cfg_of ls = mlp_configs c n d m K H si sh so ->
      exists h, retrained h1 h /\ Forall2 (fun k l => get h k = OPiecewise l) L ls) /\
  forall h, retrained h1 h -> network_layers h net = L /\ exists ls,
    Forall2 (fun k l => get h k = OPiecewise l) L ls /\ Forall held ls /\ map cfg_of ls = mlp_configs c n d m K H si sh so /\ chain d ls m /\
    forall x B, shape x = [B; d] -> exists y, call h net x = Ok y /\ shape y = [B; m] /\
      forall b o, (b < B)%nat -> (o < m)%nat -> at_ y [b; o] = through ls (row x b) o.
Proof.
  intros Wf Ht Hn Hd Hm HH Hsi Hsh Hso E. set (a := layers_only t n d m K H si sh so) in *.
  assert (Rt : refinable_type t) by (unfold refinable_type; tauto).
  assert (P : plain_mlp a n n n si sh so) by now apply layers_only_plain.
  destruct (mlp_view g a h0 h1 h1 net n n n si sh so Wf P ltac:(intros k Ek; discriminate) E (NetCopy.retrained_refl _))
    as (nl & dl & k1 & k2 & q & L & Wh & Ln & G & Lq & Q & B & _).
  assert (Sl : mlp_slots a n n n si sh so = map SP (mlp_configs c n d m K H si sh so)).
  { unfold mlp_slots, mlp_configs. cbn [map]. rewrite map_app. cbn [map app].
    assert (Ly : forall n I O s per, layer_slot t n I O s per = SP (pw_slot c n I O s per)).
    { intros. destruct Ht as [(-> & ->)|(-> & ->)]; reflexivity. }
    assert (Dr : drop_slots a = []) by (unfold drop_slots; cbn; destruct Rlt_dec; [lra|reflexivity]).
    unfold hidden_slots. rewrite Dr. cbn [a layers_only ma_layer_type ma_layer_type_in or_string ma_normalization ma_non_linearity between_slots app ma_in_width ma_hidden_width ma_out_width ma_periodicity ma_hidden_layers].
    rewrite !Ly. f_equal. f_equal. clear. induction K as [|K IH]; [reflexivity|]. cbn [repeat concat map app]. now rewrite IH. }
  exists L. split.
  { intros ls Hls Cls. pose proof (b_desc _ _ _ _ _ _ B) as D. rewrite Sl, <- Cls in D.
    apply (load_layers nl dl h1 L (map SP (map cfg_of ls)) ls); auto.
    - pose proof (b_leaves _ _ _ _ _ _ B) as Nd. replace (flat_map (leaves h1) L) with L in Nd; auto.
      revert D. generalize ls. clear. induction L as [|k L IH]; intros ls D; auto. destruct ls as [|x ls]; [inversion D|]. cbn [map] in D.
      assert (D' : Forall2 (describes nl dl h1) L (map SP (map cfg_of ls))) by now inversion D.
      assert (Dk : describes nl dl h1 k (SP (cfg_of x))) by now inversion D. destruct Dk as (_ & (y & Ey & _)).
      cbn [flat_map]. unfold leaves at 1. rewrite Ey. cbn [app]. f_equal. now apply (IH ls).
    - clear - Hls. induction Hls; cbn [map]; constructor; auto. }
  intros h Rh. assert (Len : length h = length h1) by apply Rh.
  pose proof (built_retrained _ _ _ _ _ _ _ Rh B) as Bh. pose proof (b_desc _ _ _ _ _ _ Bh) as D. rewrite Sl in D.
  assert (Gn : get h net = OMLP dl k1 k2 q) by (pose proof (retrained_same h1 h net Rh Ln) as X; rewrite G in X; exact X).
  assert (Gq : get h q = OSequential L) by (pose proof (retrained_same h1 h q Rh Lq) as X; rewrite Q in X; exact X).
  assert (F : exists ls, Forall2 (fun k l => get h k = OPiecewise l) L ls /\ Forall held ls /\ map cfg_of ls = mlp_configs c n d m K H si sh so).
  { revert D. generalize (mlp_configs c n d m K H si sh so). clear. induction L as [|k L IH]; intros cs D; destruct cs as [|c cs]; cbn [map] in D; try (now inversion D).
    - exists []. repeat split; constructor.
    - assert (D0 : describes nl dl h k (SP c)) by now inversion D. assert (D' : Forall2 (describes nl dl h) L (map SP cs)) by now inversion D.
      destruct D0 as (_ & l & El & Hl & Cl). subst c. destruct (IH cs D') as (ls & F & Hh & M). exists (l :: ls). repeat split; [now constructor|now constructor|]. cbn [map]. now rewrite M. }
  destruct F as (ls & F & Hh & M). split.
  { unfold network_layers, model_of. rewrite Gn, Gq. clear - F. induction F as [|k l L ls Gk F IH]; [reflexivity|]. cbn [filter]. rewrite Gk. cbn [is_layer]. now rewrite IH. }
  assert (Ch : chain d ls m).
  { clear - M Hh. unfold mlp_configs in M. destruct ls as [|l ls]; [discriminate|]. cbn [map] in M.
    injection M as E1 E2 E3 E4 E5 E6 E7 M. rewrite <- E3. pose proof (Forall_inv Hh) as Hl. pose proof (Forall_inv_tail Hh) as Hls. constructor; auto. rewrite E4.
    clear - M Hls. revert ls M Hls. induction K as [|K IH]; intros ls M Hls; cbn [repeat app] in M.
    - destruct ls as [|l ls]; [discriminate|]. cbn [map] in M. unfold cfg_of, pw_slot in M. injection M as E1 E2 E3 E4 E5 E6 E7 M. apply map_eq_nil in M. subst ls.
      rewrite <- E3, <- E4. constructor; [now apply Forall_inv in Hls|constructor].
    - destruct ls as [|l ls]; [discriminate|]. cbn [map] in M. unfold cfg_of at 1, pw_slot at 1 in M. injection M as E1 E2 E3 E4 E5 E6 E7 M.
      rewrite <- E3 at 1. constructor; [now apply Forall_inv in Hls|]. rewrite E4. apply IH; auto. now apply Forall_inv_tail in Hls. }
  exists ls. repeat split; auto. intros x Bx Hx.
  assert (Whh : wf_heap h) by (apply (retrained_wf h1); auto).
  destruct (run_through h L ls d m Whh F Ch x Bx Hx) as (y & Ey & Sy & Hy). exists y.
  rewrite call_unfold, Gn by (auto; lia). cbn [obj_forward]. rewrite call_unfold, Gq by (auto; lia). auto.
Qed.

(** The weights of a layer are so small that inputs in [[-1,1]] give outputs in [[-1,1]] (C79). *)
Definition small_weights (l : piecewise) : Prop :=
  forall o i p, valid (shape (pw_w l)) [o; i; p] -> INR (pw_in l) * (2 * INR (pw_n l - 1) * Rabs (at_ (pw_w l) [o; i; p])) <= 1.

Section Drift.
Variables (n S M : nat) (delta : R).
Hypothesis Hn : (2 <= n)%nat.
Hypothesis Hd : 0 <= delta.
Let N := INR (n - 1).
Let G := INR S * ((2 * N ^ 2 + 1) / 6).

Lemma Npos : 1 <= N.
Proof. unfold N. change 1 with (INR 1). apply le_INR. lia. Qed.
Lemma Gpos : 0 <= G.
Proof. unfold G. pose proof Npos. pose proof (pos_INR S). apply Rmult_le_pos; auto. nra. Qed.

(** Layers of one network whose inputs stay in range, and a second copy with nearby weights. *)
Definition fits_drift (l l' : piecewise) : Prop :=
  held l /\ held l' /\ cfg_of l' = cfg_of l /\ pw_cls l = PiecewisePolynomial /\ pw_length l = 2 /\ pw_periodicity l = None /\ pw_n l = n /\
  (pw_segments l <= S)%nat /\ (pw_in l <= M)%nat /\ small_weights l /\ small_weights l' /\
  forall o i p, valid (shape (pw_w l)) [o; i; p] -> Rabs (at_ (pw_w l') [o; i; p] - at_ (pw_w l) [o; i; p]) <= delta.

Lemma small_bound l o i p : (2 <= pw_n l)%nat -> held l -> small_weights l -> valid (shape (pw_w l)) [o; i; p] ->
  Rabs (at_ (pw_w l) [o; i; p]) <= / (INR (pw_in l) * (2 * INR (pw_n l - 1))).
Proof.
  intros Hn' H Sm V. specialize (Sm o i p V). pose proof (held_wf l H) as (_ & _ & Hi & _).
  assert (0 < INR (pw_in l)) by (apply lt_0_INR; lia). assert (0 < INR (pw_n l - 1)) by (apply lt_0_INR; lia).
  apply (Rmult_le_reg_l (INR (pw_in l) * (2 * INR (pw_n l - 1)))); [apply Rmult_lt_0_compat; lra|].
  rewrite Rinv_r by (apply Rgt_not_eq, Rmult_lt_0_compat; lra). lra.
Qed.

Lemma small_range l v o : held l -> pw_length l = 2 -> pw_cls l = PiecewisePolynomial -> pw_periodicity l = None -> (2 <= pw_n l)%nat -> small_weights l ->
  (o < pw_out l)%nat -> (forall i, (i < pw_in l)%nat -> -1 <= v i <= 1) -> -1 <= layer_out l v o <= 1.
Proof.
  intros H HL Hc Hp Hn' Sm Ho Hv. pose proof (held_wf l H) as (_ & _ & Hi & _).
  assert (0 < INR (pw_in l)) by (apply lt_0_INR; lia). assert (0 < INR (pw_n l - 1)) by (apply lt_0_INR; lia).
  pose proof (C79_bounded_weights_bound_output l (/ (INR (pw_in l) * (2 * INR (pw_n l - 1)))) v o H HL ltac:(rewrite Hc; now left) Hn' Ho
    ltac:(intros; now apply small_bound) ltac:(unfold inputs_in_range; now rewrite Hp)) as B.
  replace (INR (pw_in l) * (2 * INR (pw_n l - 1) * / (INR (pw_in l) * (2 * INR (pw_n l - 1))))) with 1 in B by (field; lra).
  unfold Rabs in B. destruct Rcase_abs in B; lra.
Qed.

Lemma layer_drift l l' v v' o e : fits_drift l l' -> (o < pw_out l)%nat ->
  (forall i, (i < pw_in l)%nat -> -1 <= v i <= 1) -> (forall i, (i < pw_in l)%nat -> -1 <= v' i <= 1) ->
  (forall i, (i < pw_in l)%nat -> Rabs (v i - v' i) <= e) ->
  Rabs (layer_out l v o - layer_out l' v' o) <= G * e + INR M * (2 * N * delta).
Proof.
  intros (H & H' & Cf & Hc & HL & Hp & En & HS & HM & Sm & Sm' & D) Ho Hv Hv' He. pose proof (held_wf l H) as (_ & S1 & Hi & _).
  assert (Pi : 0 < INR (pw_in l)) by (apply lt_0_INR; lia). pose proof Npos as PN.
  assert (e0 : 0 <= e) by (eapply Rle_trans; [apply Rabs_pos|apply (He 0%nat); lia]).
  replace (layer_out l v o - layer_out l' v' o) with ((layer_out l v o - layer_out l v' o) + (layer_out l v' o - layer_out l' v' o)) by ring.
  eapply Rle_trans; [apply Rabs_triang|]. apply Rplus_le_compat.
  - pose proof (C87_layer_lipschitz l (/ (INR (pw_in l) * (2 * INR (pw_n l - 1)))) v v' o H HL Hc Ho
      ltac:(intros; apply small_bound; auto; lia) ltac:(unfold inputs_in_range; now rewrite Hp) ltac:(unfold inputs_in_range; now rewrite Hp)) as B.
    assert (R1 : rsum (pw_in l) (fun i => Rabs (v i - v' i)) <= INR (pw_in l) * e) by (rewrite <- rsum_const; apply rsum_le; auto).
    eapply Rle_trans; [exact B|]. unfold steepness. rewrite En. fold N. clear B.
    assert (P : 0 <= / (INR (pw_in l) * (2 * N)) * (N * (2 * N ^ 2 + 1) / 3) * INR (pw_segments l)).
    { apply Rmult_le_pos; [|apply pos_INR]. apply Rmult_le_pos; [|nra]. apply Rlt_le, Rinv_0_lt_compat, Rmult_lt_0_compat; lra. }
    eapply Rle_trans; [apply Rmult_le_compat_l; [exact P|exact R1]|].
    replace (/ (INR (pw_in l) * (2 * N)) * (N * (2 * N ^ 2 + 1) / 3) * INR (pw_segments l) * (INR (pw_in l) * e))
      with (INR (pw_segments l) * ((2 * N ^ 2 + 1) / 6 * e)) by (field; lra).
    unfold G. rewrite Rmult_assoc. apply Rmult_le_compat_r; [nra|now apply le_INR].
  - destruct (same_layer l l' H H' (eq_sym Cf)) as (Sw & Ew). rewrite Rabs_minus_sym, <- Ew.
    eapply Rle_trans; [apply (C87_weight_perturbation l (pw_w l') delta v' o); auto; try lia|].
    + rewrite Hc. now left.
    + unfold inputs_in_range. now rewrite Hp.
    + rewrite En. fold N. apply Rmult_le_compat_r; [nra|now apply le_INR].
Qed.

Lemma through_drift ls ls' W W' : chain W ls W' -> Forall2 fits_drift ls ls' -> forall v v' o e, (o < W')%nat ->
  (forall i, (i < W)%nat -> -1 <= v i <= 1) -> (forall i, (i < W)%nat -> -1 <= v' i <= 1) ->
  (forall i, (i < W)%nat -> Rabs (v i - v' i) <= e) ->
  Rabs (through ls v o - through ls' v' o) <= G ^ length ls * e + INR M * (2 * N * delta) * rsum (length ls) (fun j => G ^ j).
Proof.
  intros C. revert ls'. induction C as [W|l ls W' Hl C IH]; intros ls' F v v' o e Ho Hv Hv' He; inversion F as [|? l' ? ls'' D F']; subst.
  - cbn [through length pow rsum]. rewrite Rmult_0_r, Rplus_0_r, Rmult_1_l. auto.
  - cbn [through]. pose proof D as D'. destruct D' as (H & H' & Cf & Hc & HL & Hp & En & HS & HM & Sm & Sm' & Dw).
    unfold cfg_of in Cf. injection Cf as C1 C2 C3 C4 C5 C6 C7.
    eapply Rle_trans; [apply (IH ls'' F' (layer_out l v) (layer_out l' v') o (G * e + INR M * (2 * N * delta)))|]; auto.
    + intros i Hi. apply small_range; auto. lia.
    + intros i Hi. rewrite <- C4 in Hi. apply small_range; auto; try congruence; try lia. intros j Hj. apply Hv'. congruence.
    + intros i Hi. now apply layer_drift.
    + right. cbn [length]. change (rsum (Datatypes.S (length ls)) (fun j => G ^ j)) with (rsum (length ls) (fun j => G ^ j) + G ^ length ls). cbn [pow]. ring.
Qed.
End Drift.

(** ** C87: HighOrderMLP with continuous layers
    As long as the weights are small enough for every layer to stay in range, changing inputs by at most [e] and all weights by
    at most [delta] moves the outputs by at most the sum of the two terms below; [S] bounds the segments, [M] the widths. *)
Theorem C87_mlp_stable : forall g n d m K H si sh so h0 net h1 h h' S M delta e x x' B,
  wf_heap h0 -> (2 <= n)%nat -> (1 <= d <= M)%nat -> (1 <= m)%nat -> (1 <= H <= M)%nat -> (1 <= si <= S)%nat -> (1 <= sh <= S)%nat -> (1 <= so <= S)%nat ->
  HighOrderMLP g (layers_only "continuous" n d m K H si sh so) h0 = Ok (net, h1) ->
  retrained h1 h -> retrained h1 h' ->
  (forall k l, In k (network_layers h1 net) -> get h k = OPiecewise l \/ get h' k = OPiecewise l -> small_weights l) ->
  (forall k l l' ix, In k (network_layers h1 net) -> get h k = OPiecewise l -> get h' k = OPiecewise l' -> valid (shape (pw_w l)) ix ->
     Rabs (at_ (pw_w l') ix - at_ (pw_w l) ix) <= delta) ->
  0 <= delta -> shape x = [B; d] -> shape x' = [B; d] ->
  (forall b i, (b < B)%nat -> (i < d)%nat -> -1 <= at_ x [b; i] <= 1 /\ -1 <= at_ x' [b; i] <= 1 /\ Rabs (at_ x [b; i] - at_ x' [b; i]) <= e) ->
  exists y y', call h net x = Ok y /\ call h' net x' = Ok y' /\ shape y = [B; m] /\ shape y' = [B; m] /\
    forall b o, (b < B)%nat -> (o < m)%nat ->
      let N := INR (n - 1) in let G := INR S * ((2 * N ^ 2 + 1) / 6) in
      Rabs (at_ y [b; o] - at_ y' [b; o]) <= G ^ (K + 2) * e + INR M * (2 * N * delta) * rsum (K + 2) (fun j => G ^ j).
Proof.
  intros g n d m K H si sh so h0 net h1 h h' S M delta e x x' B Wf Hn Hd Hm HH Hsi Hsh Hso E Rh Rh' Sm Dw D0 Hx Hx' Hr.
  destruct (mlp_sequence g "continuous" PiecewisePolynomial n d m K H si sh so h0 net h1 Wf ltac:(now left) ltac:(lia) ltac:(lia) ltac:(lia) ltac:(lia) ltac:(lia) ltac:(lia) ltac:(lia) E)
    as (L & _ & P).
  destruct (P h1 (NetCopy.retrained_refl _)) as (L1 & _). rewrite L1 in Sm, Dw.
  destruct (P h Rh) as (_ & ls & F & Hh & Cf & Ch & R). destruct (P h' Rh') as (_ & ls' & F' & Hh' & Cf' & Ch' & R').
  destruct (R x B Hx) as (y & Ey & Sy & Hy). destruct (R' x' B Hx') as (y' & Ey' & Sy' & Hy').
  exists y, y'. repeat split; auto. intros b o Hb Ho. cbv zeta. rewrite Hy, Hy' by auto.
  assert (Ln : length ls = (K + 2)%nat).
  { rewrite <- (map_length cfg_of), Cf. unfold mlp_configs. cbn [length]. rewrite app_length, repeat_length. cbn. lia. }
  rewrite <- Ln. apply (through_drift n S M delta Hn D0 ls ls' d m Ch).
  - assert (Cs : Forall (fun c => exists I O s, c = pw_slot PiecewisePolynomial n I O s None /\ (I <= M)%nat /\ (s <= S)%nat) (mlp_configs PiecewisePolynomial n d m K H si sh so)).
    { unfold mlp_configs. constructor; [exists d, H, si; repeat split; lia|]. apply Forall_app. split.
      - apply Forall_forall. intros c Hc. apply repeat_spec in Hc. exists H, H, sh. repeat split; auto; lia.
      - constructor; [exists H, m, so; repeat split; lia|constructor]. }
    clear - F F' Hh Hh' Cf Cf' Cs Sm Dw Hn. revert ls' F' Hh' Cf'. revert Cs Hh Cf. generalize (mlp_configs PiecewisePolynomial n d m K H si sh so).
    induction F as [|k l L ls Gk F IH]; intros cs Cs Hh Cf ls' F' Hh' Cf'.
    + inversion F'; subst. constructor.
    + destruct ls' as [|l' ls']; [inversion F'|]. destruct cs as [|c cs]; [discriminate|].
      assert (Gk' : get h' k = OPiecewise l') by now inversion F'. assert (F'' : Forall2 (fun k l => get h' k = OPiecewise l) L ls') by now inversion F'.
      cbn [map] in Cf, Cf'. injection Cf as Ec Ecs. injection Cf' as Ec' Ecs'.
      pose proof (Forall_inv Cs) as (I & O & s & -> & HI & Hs). constructor.
      * unfold cfg_of, pw_slot in Ec, Ec'. pose proof Ec as Ec0. injection Ec0 as C1 C2 C3 C4 C5 C6 C7. unfold fits_drift.
        split; [now apply Forall_inv in Hh|]. split; [now apply Forall_inv in Hh'|]. split; [unfold cfg_of; congruence|].
        repeat split; auto; try congruence; try lia.
        -- apply (Sm k); auto. now left.
        -- apply (Sm k); auto. now left.
        -- intros o i p V. apply (Dw k l l'); auto. now left.
      * apply (IH ltac:(intros; apply (Sm k0); auto; now right) ltac:(intros; apply (Dw k0); auto; now right) cs); auto; try (now apply Forall_inv_tail in Hh); try (now apply Forall_inv_tail in Hh').
        now apply Forall_inv_tail in Cs.
  - auto.
  - intros i Hi. now apply Hr.
  - intros i Hi. now apply Hr.
  - intros i Hi. now apply Hr.
Qed.
Print Assumptions C87_mlp_stable.

(** ** A concrete case: a 2-3-1 network with one hidden layer, all weights 1/16 or all 1/10. *)
Definition flat (c : cfg) (w : R) : piecewise :=
  let l := new_piecewise (c_cls c) (c_n c) (c_in c) (c_out c) (c_seg c) (c_len c) 1 (c_per c) (fun _ _ => 0) in
  with_w l (mkT (shape (pw_w l)) (fun _ => w)).

Lemma flat_layers cs w : Forall (fun c => (1 <= c_n c)%nat /\ (1 <= c_in c)%nat /\ (1 <= c_out c)%nat /\ (1 <= c_seg c)%nat) cs ->
  Forall held (map (fun c => flat c w) cs) /\ map cfg_of (map (fun c => flat c w) cs) = cs.
Proof.
  induction 1 as [|c cs (P1 & P2 & P3 & P4) F (IH1 & IH2)]; cbn [map]; [split; constructor|]. split.
  - constructor; auto. apply with_w_held; [now apply new_held|reflexivity].
  - rewrite IH2. f_equal. now destruct c.
Qed.

Lemma in_Forall2 {A B} (P : A -> B -> Prop) L l k : Forall2 P L l -> In k L -> exists y, In y l /\ P k y.
Proof. induction 1 as [|x y L l Pxy F IH]; intros []; [subst; exists y; split; auto; now left|]. destruct IH as (z & Hz & Pz); auto. exists z. split; auto. now right. Qed.

Example C87_case : forall g x x',
  shape x = [1%nat; 2%nat] -> shape x' = [1%nat; 2%nat] ->
  (forall i, (i < 2)%nat -> -1 <= at_ x [0%nat; i] <= 1 /\ -1 <= at_ x' [0%nat; i] <= 1 /\ Rabs (at_ x [0%nat; i] - at_ x' [0%nat; i]) <= 1/100) ->
  exists net h1 h h' y y', HighOrderMLP g (layers_only "continuous" 2 2 1 1 3 4 4 4) [] = Ok (net, h1) /\ retrained h1 h /\ retrained h1 h' /\
    call h net x = Ok y /\ call h' net x' = Ok y' /\
    Rabs (at_ y [0%nat; 0%nat] - at_ y' [0%nat; 0%nat]) <= (4 * (3 / 6)) ^ 3 * (1/100) + 3 * (2 * 1 * (3/80)) * 7.
Proof.
  intros g x x' Hx Hx' Hr.
  set (cs := mlp_configs PiecewisePolynomial 2 2 1 1 3 4 4 4).
  assert (Cs : Forall (fun c => (1 <= c_n c)%nat /\ (1 <= c_in c)%nat /\ (1 <= c_out c)%nat /\ (1 <= c_seg c)%nat) cs).
  { unfold cs, mlp_configs. cbn. repeat constructor. }
  assert (Wf : wf_heap []) by (intros k Hk; cbn in Hk; lia).
  assert (F : forall w c, In c cs -> held (flat c w)).
  { intros w c Hc. pose proof (proj1 (flat_layers cs w Cs)) as A. rewrite Forall_forall in A. apply A, (in_map (fun c => flat c w)), Hc. }
  destruct (load_mlp g "continuous" 2 2 1 1 3 4 4 4 [] (flat (pw_slot PiecewisePolynomial 2 2 3 4 None) 0)
     [flat (pw_slot PiecewisePolynomial 2 3 3 4 None) 0] (flat (pw_slot PiecewisePolynomial 2 3 1 4 None) 0) PiecewisePolynomial Wf)
     as (net & h1 & _ & E & _); auto.
  { apply F. unfold cs, mlp_configs. now left. }
  { constructor; [|constructor]. split; [|reflexivity]. apply F. unfold cs, mlp_configs. right. now left. }
  { apply F. unfold cs, mlp_configs. right. right. now left. }
  destruct (mlp_sequence g "continuous" PiecewisePolynomial 2 2 1 1 3 4 4 4 [] net h1 Wf ltac:(now left) ltac:(lia) ltac:(lia) ltac:(lia) ltac:(lia) ltac:(lia) ltac:(lia) ltac:(lia) E)
    as (L & Ld & P).
  destruct (P h1 (NetCopy.retrained_refl _)) as (EL & _).
  destruct (flat_layers cs (1/16) Cs) as (A1 & A2). destruct (flat_layers cs (1/10) Cs) as (B1 & B2).
  destruct (Ld _ A1 A2) as (h & Rh & G). destruct (Ld _ B1 B2) as (h' & Rh' & G').
  assert (V : forall k l w (h : heap), In k L -> Forall2 (fun k l => get h k = OPiecewise l) L (map (fun c => flat c w) cs) -> get h k = OPiecewise l -> exists c, In c cs /\ l = flat c w).
  { intros k l w hh Hk Fk Ek. destruct (in_Forall2 _ _ _ k Fk Hk) as (l' & Hl & El). rewrite Ek in El. injection El as <-.
    apply in_map_iff in Hl. destruct Hl as (c & <- & Hc). eauto. }
  assert (Small : forall c w, In c cs -> 0 <= w <= 1/6 -> small_weights (flat c w)).
  { intros c w Hc Hw o i p _. unfold cs, mlp_configs in Hc. cbn in Hc. destruct Hc as [<-|[<-|[<-|[]]]]; cbn; rewrite Rabs_pos_eq; lra. }
  destruct (C87_mlp_stable g 2 2 1 1 3 4 4 4 [] net h1 h h' 4 3 (3/80) (1/100) x x' 1 Wf) as (y & y' & Ey & Ey' & _ & _ & Q); auto; try lra.
  - intros k l Hk Hl. rewrite EL in Hk. destruct Hl as [Hl|Hl].
    + destruct (V k l _ h Hk G Hl) as (c & Hc & ->). apply Small; auto. lra.
    + destruct (V k l _ h' Hk G' Hl) as (c & Hc & ->). apply Small; auto. lra.
  - intros k l l' ix Hk Hl Hl' _. rewrite EL in Hk. destruct (V k l _ h Hk G Hl) as (c & Hc & ->). destruct (V k l' _ h' Hk G' Hl') as (c' & Hc' & ->).
    cbn. rewrite Rabs_pos_eq; lra.
  - intros b i Hb Hi. replace b with 0%nat by lia. auto.
  - exists net, h1, h, h', y, y'. repeat split; auto; try apply Rh; try apply Rh'.
    specialize (Q 0%nat 0%nat ltac:(lia) ltac:(lia)). cbv zeta in Q. eapply Rle_trans; [exact Q|]. right.
    cbn [Nat.sub Nat.add rsum pow]. replace (INR 4) with 4 by (simpl; ring). replace (INR 3) with 3 by (simpl; ring). simpl (INR 1). field.
Qed.
