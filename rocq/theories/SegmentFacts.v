(** * Segments: selection, local coordinates, continuity of the link functions. *)
From Coq Require Import Reals ZArith List Lia Lra Psatz.
From Flocq Require Import Core.Raux.
From Verif Require Import Spec Tensor Utils LagrangePolynomial Basis PolynomialLayers SumFacts TensorFacts LagrangeFacts LayerFacts.
Import ListNotations.
Local Open Scope R_scope.

Lemma clamp_trunc S s v : (s < S)%nat ->
  (clampZ 0 (Z.of_nat S - 1) (Ztrunc v) = Z.of_nat s <->
   (s = 0%nat \/ INR s <= v) /\ (S = Datatypes.S s \/ v < INR s + 1)).
Proof.
  intros Hs.
  assert (Hv : (0 <= v -> Ztrunc v = Zfloor v) /\ (v < 0 -> (Ztrunc v <= 0)%Z)).
  { split; intros H; [now apply Ztrunc_floor|].
    rewrite Ztrunc_ceil by lra. apply Zceil_glb. simpl. lra. }
  destruct Hv as [Hv1 Hv2].
  assert (Hf := Zfloor_lb v). assert (Hf' := Zfloor_ub v).
  rewrite !INR_IZR_INZ.
  destruct (Rle_or_lt 0 v) as [H0|H0].
  - rewrite (Hv1 H0). assert (F0 : (0 <= Zfloor v)%Z) by (apply Zfloor_lub; simpl; lra).
    unfold clampZ. split.
    + intros E. split.
      * destruct (Nat.eq_dec s 0); auto. right.
        apply Rle_trans with (IZR (Zfloor v)); auto. apply IZR_le. lia.
      * destruct (Nat.eq_dec S (Datatypes.S s)); auto. right.
        apply Rlt_le_trans with (IZR (Zfloor v) + 1); auto.
        apply Rplus_le_compat_r, IZR_le. lia.
    + intros [[->|A] B].
      * destruct B as [B|B]; [lia|].
        assert (Zfloor v < 1)%Z; [|lia]. apply lt_IZR. simpl in *. lra.
      * assert (Z.of_nat s <= Zfloor v)%Z by now apply Zfloor_lub.
        destruct B as [B|B]; [lia|].
        assert (Zfloor v < Z.of_nat s + 1)%Z; [|lia]. apply lt_IZR. rewrite plus_IZR. lra.
  - specialize (Hv2 H0). unfold clampZ. split.
    + intros E. assert (s = 0)%nat as -> by lia. split; auto.
      right. simpl. lra.
    + intros [[->|A] B]; [lia|]. assert (s = 0%nat); [|lia].
      destruct s; auto. exfalso. assert (0 <= IZR (Z.of_nat (Datatypes.S s))) by (apply IZR_le; lia). lra.
Qed.

Lemma INR_pos S : (1 <= S)%nat -> 0 < INR S.
Proof. intros. apply lt_0_INR. lia. Qed.

(** The segment chosen by the code is the one holding x (length 2). *)
Lemma seg_spec l x s : pw_length l = 2 -> (1 <= pw_segments l)%nat -> (s < pw_segments l)%nat ->
  (seg l x = s <-> in_segment (pw_segments l) s x).
Proof.
  intros HL HS Hs. unfold seg, segment_index, to_long.
  set (v := (x + pw_half l) / pw_length l * INR (pw_segments l)).
  assert (P := INR_pos _ HS).
  pose proof (clampZ_range 0 (Z.of_nat (pw_segments l) - 1) (Ztrunc v)) as Hr.
  assert (Ev : v = (x + 1) / 2 * INR (pw_segments l)).
  { unfold v, pw_half. rewrite HL. field. }
  transitivity (clampZ 0 (Z.of_nat (pw_segments l) - 1) (Ztrunc v) = Z.of_nat s); [lia|].
  rewrite clamp_trunc by auto. unfold in_segment, knot. rewrite Ev, S_INR.
  assert (A : INR s <= (x + 1) / 2 * INR (pw_segments l) <-> -1 + 2 * INR s / INR (pw_segments l) <= x).
  { split; intros H.
    - apply Rmult_le_reg_r with (INR (pw_segments l)); auto.
      replace ((-1 + 2 * INR s / INR (pw_segments l)) * INR (pw_segments l)) with (2 * INR s - INR (pw_segments l)) by (field; lra). lra.
    - apply Rmult_le_compat_r with (r := INR (pw_segments l)) in H; [|lra].
      replace ((-1 + 2 * INR s / INR (pw_segments l)) * INR (pw_segments l)) with (2 * INR s - INR (pw_segments l)) in H by (field; lra). lra. }
  assert (B : (x + 1) / 2 * INR (pw_segments l) < INR s + 1 <-> x < -1 + 2 * (INR s + 1) / INR (pw_segments l)).
  { split; intros H.
    - apply Rmult_lt_reg_r with (INR (pw_segments l)); auto.
      replace ((-1 + 2 * (INR s + 1) / INR (pw_segments l)) * INR (pw_segments l)) with (2 * (INR s + 1) - INR (pw_segments l)) by (field; lra). lra.
    - apply Rmult_lt_compat_r with (r := INR (pw_segments l)) in H; [|lra].
      replace ((-1 + 2 * (INR s + 1) / INR (pw_segments l)) * INR (pw_segments l)) with (2 * (INR s + 1) - INR (pw_segments l)) in H by (field; lra). lra. }
  tauto.
Qed.

Lemma seg_in l x : pw_length l = 2 -> (1 <= pw_segments l)%nat -> in_segment (pw_segments l) (seg l x) x.
Proof. intros HL HS. apply (seg_spec l x); auto. now apply seg_lt. Qed.

(** ** Knots and coordinates *)

Lemma knot_lt S s t : (1 <= S)%nat -> (s < t)%nat -> knot S s < knot S t.
Proof.
  intros HS H. unfold knot. assert (P := INR_pos S HS). apply lt_INR in H.
  apply Rplus_lt_compat_l. apply Rmult_lt_compat_r; [now apply Rinv_0_lt_compat|lra].
Qed.

Lemma knot_le S s t : (1 <= S)%nat -> (s <= t)%nat -> knot S s <= knot S t.
Proof.
  intros HS H. destruct (Nat.eq_dec s t) as [->|]; [lra|]. left. apply knot_lt; auto; lia.
Qed.

Lemma knot_0 S : knot S 0 = -1.
Proof. unfold knot. simpl. unfold Rdiv. ring. Qed.

Lemma knot_S S : (1 <= S)%nat -> knot S S = 1.
Proof. intros H. unfold knot. assert (P := INR_pos S H). field. lra. Qed.

Lemma knot_succ S s : (1 <= S)%nat -> knot S (Datatypes.S s) = knot S s + 2 / INR S.
Proof. intros H. unfold knot. rewrite S_INR. assert (P := INR_pos S H). field. lra. Qed.

Lemma eta_knot l s : (1 <= pw_segments l)%nat -> eta l (Z.of_nat s) = knot (pw_segments l) s.
Proof. intros H. unfold eta, knot. rewrite <- INR_IZR_INZ. assert (P := INR_pos _ H). field. lra. Qed.

Lemma x_local_eq l x s : (1 <= pw_segments l)%nat ->
  x_local l x (Z.of_nat s) = pw_length l / 2 * (INR (pw_segments l) * (x - knot (pw_segments l) s) - 1).
Proof.
  intros H. unfold x_local. replace (Z.of_nat s + 1)%Z with (Z.of_nat (S s)) by lia.
  rewrite !eta_knot by auto. rewrite knot_succ by auto. unfold pw_half.
  assert (P := INR_pos _ H). field. lra.
Qed.

Lemma x_global_eq l t s : (1 <= pw_segments l)%nat -> pw_length l <> 0 ->
  x_global l t (Z.of_nat s) = knot (pw_segments l) s + (2 / pw_length l * t + 1) / INR (pw_segments l).
Proof.
  intros H HL. unfold x_global. replace (Z.of_nat s + 1)%Z with (Z.of_nat (S s)) by lia.
  rewrite !eta_knot by auto. rewrite knot_succ by auto. unfold pw_half.
  assert (P := INR_pos _ H). field. split; lra.
Qed.

Lemma x_global_seg l t s : (1 <= pw_segments l)%nat -> pw_length l = 2 ->
  x_global l t (Z.of_nat s) = seg_global (pw_segments l) s t.
Proof.
  intros H HL. rewrite x_global_eq by (auto; lra). rewrite HL. unfold seg_global. f_equal. f_equal. field.
Qed.

Lemma x_local_global l t s : (1 <= pw_segments l)%nat -> pw_length l <> 0 ->
  x_local l (x_global l t (Z.of_nat s)) (Z.of_nat s) = t.
Proof.
  intros H HL. rewrite x_local_eq, x_global_eq by auto. assert (P := INR_pos _ H). field. split; lra.
Qed.

Lemma x_global_local l x s : (1 <= pw_segments l)%nat -> pw_length l <> 0 ->
  x_global l (x_local l x (Z.of_nat s)) (Z.of_nat s) = x.
Proof.
  intros H HL. rewrite x_global_eq, x_local_eq by auto. assert (P := INR_pos _ H). field. split; lra.
Qed.

(** ** Pieces *)

Lemma piece_poly l o i s : (1 <= pw_segments l)%nat -> poly_lt (pw_n l) (piece l o i s).
Proof.
  intros H. unfold piece.
  apply (poly_lt_ext _ (fun x => interp (pw_n l) 2 (seg_weight l o i s)
     (pw_length l / 2 * INR (pw_segments l) * x + pw_length l / 2 * (- INR (pw_segments l) * knot (pw_segments l) s - 1)))).
  - intros x. rewrite x_local_eq by auto. f_equal. ring.
  - apply (poly_lt_comp_affine (pw_n l) _ _ (interp (pw_n l) 2 (seg_weight l o i s))), interp_poly.
Qed.

Lemma piece_continuous l o i s : (1 <= pw_segments l)%nat -> continuity (piece l o i s).
Proof. intros H. apply (poly_lt_continuous (pw_n l)). now apply piece_poly. Qed.

(** Value of a piece at the image of a node. *)
Lemma piece_node l o i s k : (1 <= pw_segments l)%nat -> pw_length l <> 0 -> (k < pw_n l)%nat ->
  piece l o i s (x_global l (cheb (pw_n l) k) (Z.of_nat s)) = seg_weight l o i s k.
Proof.
  intros H HL Hk. unfold piece. rewrite x_local_global by auto. rewrite <- node_2.
  apply interp_node; [lra|auto].
Qed.

Lemma piece_left l o i s : (1 <= pw_segments l)%nat -> pw_length l = 2 -> (2 <= pw_n l)%nat ->
  piece l o i s (knot (pw_segments l) s) = seg_weight l o i s 0.
Proof.
  intros H HL Hn. rewrite <- (piece_node l o i s 0) by (auto; try lia; lra). f_equal.
  rewrite x_global_seg by auto. unfold seg_global. rewrite cheb_first by auto. unfold Rdiv. ring.
Qed.

Lemma piece_right l o i s : (1 <= pw_segments l)%nat -> pw_length l = 2 -> (2 <= pw_n l)%nat ->
  piece l o i s (knot (pw_segments l) (S s)) = seg_weight l o i s (pw_n l - 1).
Proof.
  intros H HL Hn. rewrite <- (piece_node l o i s (pw_n l - 1)) by (auto; try lia; lra). f_equal.
  rewrite x_global_seg by auto. unfold seg_global. rewrite cheb_last by auto.
  rewrite knot_succ by auto. unfold Rdiv. ring.
Qed.

Lemma seg_weight_shared l o i s : is_continuous_class (pw_cls l) = true ->
  seg_weight l o i s (pw_n l - 1) = seg_weight l o i (S s) 0.
Proof.
  intros Hc. unfold seg_weight, pw_stride. rewrite Hc. f_equal. f_equal. f_equal. f_equal. lia.
Qed.

(** Neighbouring pieces of a continuous layer agree at the common knot. *)
Lemma piece_match l o i s : (1 <= pw_segments l)%nat -> pw_length l = 2 -> (1 <= pw_n l)%nat ->
  is_continuous_class (pw_cls l) = true ->
  piece l o i s (knot (pw_segments l) (S s)) = piece l o i (S s) (knot (pw_segments l) (S s)).
Proof.
  intros H HL Hn Hc. destruct (Nat.eq_dec (pw_n l) 1) as [E|E].
  - unfold piece. rewrite E. unfold interp. simpl. rewrite !lag_1. f_equal. f_equal.
    unfold seg_weight. do 4 f_equal. unfold pw_stride. rewrite Hc, E. simpl. lia.
  - rewrite piece_right, piece_left by (auto; lia). now apply seg_weight_shared.
Qed.

(** ** Ramps: continuity of the continuous link *)

Definition ramp (c : R) (d : R -> R) (x : R) : R := if Rle_dec c x then d x else 0.

Lemma ramp_continuous c d : continuity d -> d c = 0 -> continuity (ramp c d).
Proof.
  intros Hd Hc x. apply continuity_eps. intros eps Heps.
  destruct (proj1 (continuity_eps d x) (Hd x) eps Heps) as (e & He & P).
  destruct (Rtotal_order x c) as [H|[H|H]].
  - exists (c - x). split; [lra|]. intros y Hy. unfold ramp.
    apply Rabs_def2 in Hy. destruct (Rle_dec c y), (Rle_dec c x); try lra.
    rewrite Rminus_diag_eq, Rabs_R0; auto.
  - subst x. exists e. split; auto. intros y Hy. unfold ramp.
    destruct (Rle_dec c c); [|lra]. destruct (Rle_dec c y).
    + now apply P.
    + rewrite Hc, Rminus_diag_eq, Rabs_R0; auto.
  - exists (Rmin e (x - c)). split; [apply Rmin_pos; lra|]. intros y Hy. unfold ramp.
    assert (Rabs (y - x) < e) by (eapply Rlt_le_trans; [apply Hy|apply Rmin_l]).
    assert (A : Rabs (y - x) < x - c) by (eapply Rlt_le_trans; [apply Hy|apply Rmin_r]).
    apply Rabs_def2 in A. destruct (Rle_dec c y), (Rle_dec c x); try lra. now apply P.
Qed.

(** Telescoping form of a piecewise function. *)
Lemma pieces_telescope S (P : nat -> R -> R) s x : (1 <= S)%nat -> in_segment S s x ->
  P s x = P 0%nat x + rsum (S - 1) (fun k => ramp (knot S (k + 1)) (fun y => P (k + 1)%nat y - P k y) x).
Proof.
  intros HS (Hs & Hl & Hr).
  replace (S - 1)%nat with (s + (S - 1 - s))%nat by lia. rewrite rsum_add.
  rewrite (rsum_zero (S - 1 - s)).
  - rewrite Rplus_0_r.
    assert (T : forall m, (m <= s)%nat -> P m x = P 0%nat x + rsum m (fun k => ramp (knot S (k + 1)) (fun y => P (k + 1)%nat y - P k y) x)).
    { induction m; intros Hm; [simpl; lra|]. simpl.
      rewrite <- Rplus_assoc, <- IHm by lia. unfold ramp.
      destruct (Rle_dec (knot S (m + 1)) x) as [_|N].
      - replace (m + 1)%nat with (Datatypes.S m) by lia. lra.
      - exfalso. apply N. destruct Hl as [->|Hl]; [lia|]. apply Rle_trans with (knot S s); auto.
        apply knot_le; auto. lia. }
    now apply T.
  - intros k Hk. unfold ramp. destruct (Rle_dec (knot S (s + k + 1)) x) as [Y|_]; auto.
    exfalso. destruct Hr as [Hr|Hr]; [lia|].
    assert (knot S (Datatypes.S s) <= knot S (s + k + 1)) by (apply knot_le; auto; lia). lra.
Qed.

Lemma link0_continuous_gen l o i : (1 <= pw_segments l)%nat -> pw_length l = 2 ->
  (forall s, (S s < pw_segments l)%nat ->
     piece l o i s (knot (pw_segments l) (S s)) = piece l o i (S s) (knot (pw_segments l) (S s))) ->
  continuity (link0 l o i).
Proof.
  intros HS HL Hm.
  apply (continuity_ext (fun x => piece l o i 0 x + rsum (pw_segments l - 1) (fun k =>
     ramp (knot (pw_segments l) (k + 1)) (fun y => piece l o i (k + 1) y - piece l o i k y) x))).
  - intros x. unfold link0. symmetry. apply (pieces_telescope (pw_segments l) (fun s => piece l o i s)); auto.
    now apply seg_in.
  - apply (continuity_plus (piece l o i 0)); [now apply piece_continuous|].
    apply continuity_rsum. intros k Hk. apply ramp_continuous.
    + apply continuity_minus; now apply piece_continuous.
    + replace (k + 1)%nat with (S k) by lia. rewrite Hm by lia. lra.
Qed.

Lemma link0_continuous l o i : (1 <= pw_segments l)%nat -> (1 <= pw_n l)%nat -> pw_length l = 2 ->
  is_continuous_class (pw_cls l) = true -> continuity (link0 l o i).
Proof.
  intros HS Hn HL Hc. apply link0_continuous_gen; auto. intros s _. now apply piece_match.
Qed.

(** ** make_periodic *)

Lemma remainder_range a b : 0 < b -> 0 <= remainder a b < b.
Proof.
  intros Hb. unfold remainder. assert (H := Zfloor_lb (a / b)). assert (H' := Zfloor_ub (a / b)).
  assert (E : a = b * (a / b)) by (field; lra).
  split.
  - apply Rmult_le_compat_l with (r := b) in H; lra.
  - apply Rmult_lt_compat_l with (r := b) in H'; lra.
Qed.

Lemma remainder_shift a b k : b <> 0 -> remainder (a + b * IZR k) b = remainder a b.
Proof.
  intros Hb. unfold remainder. replace ((a + b * IZR k) / b) with (a / b + IZR k) by (field; auto).
  assert (E : Zfloor (a / b + IZR k) = (Zfloor (a / b) + k)%Z).
  { apply Zfloor_imp. rewrite !plus_IZR. assert (H := Zfloor_lb (a / b)). assert (H' := Zfloor_ub (a / b)). lra. }
  rewrite E, plus_IZR. ring.
Qed.

Lemma remainder_small a b : 0 <= a < b -> remainder a b = a.
Proof.
  intros H. unfold remainder. rewrite (Zfloor_imp 0); [ring|].
  assert (0 < b) by lra. split; simpl.
  - apply Rmult_le_pos; [lra|]. left. now apply Rinv_0_lt_compat.
  - apply Rmult_lt_reg_r with b; auto. unfold Rdiv. rewrite Rmult_assoc, Rinv_l by lra. lra.
Qed.

(** Every real differs by a whole number of periods from one in the fundamental domain. *)
Lemma period_rep a b : 0 < b -> exists k r, a = r + b * IZR k /\ 0 <= r < b.
Proof.
  intros Hb. exists (Zfloor (a / b)), (remainder a b). split; [unfold remainder; ring|].
  now apply remainder_range.
Qed.

Definition fold_ (p r : R) : R := (if Rlt_dec p r then 2 * p - r else r) - 1/2 * p.

Lemma make_periodic_eq p x r k : 0 < p -> 0 <= r < 2 * p -> x + 1/2 * p = r + 2 * p * IZR k ->
  make_periodic x p = fold_ p r.
Proof.
  intros Hp Hr E. unfold make_periodic. rewrite E, remainder_shift, remainder_small; auto; lra.
Qed.

Lemma make_periodic_range x p : 0 < p -> - (p / 2) <= make_periodic x p <= p / 2.
Proof.
  intros Hp. destruct (period_rep (x + 1/2 * p) (2 * p)) as (k & r & E & Hr); [lra|].
  rewrite (make_periodic_eq p x r k) by (auto; lra). unfold fold_. destruct (Rlt_dec p r); lra.
Qed.

Lemma make_periodic_id x p : 0 < p -> - (p / 2) <= x <= p / 2 -> make_periodic x p = x.
Proof.
  intros Hp Hx. rewrite (make_periodic_eq p x (x + 1/2 * p) 0) by (try lra; simpl; lra).
  unfold fold_. destruct (Rlt_dec p (x + 1/2 * p)); lra.
Qed.

Lemma make_periodic_period x p k : 0 < p -> make_periodic (x + 2 * p * IZR k) p = make_periodic x p.
Proof.
  intros Hp. destruct (period_rep (x + 1/2 * p) (2 * p)) as (j & r & E & Hr); [lra|].
  rewrite (make_periodic_eq p x r j) by (auto; lra).
  apply (make_periodic_eq p _ r (j + k)); auto. rewrite plus_IZR. lra.
Qed.

Lemma make_periodic_mirror x p : 0 < p -> make_periodic (p - x) p = make_periodic x p.
Proof.
  intros Hp. destruct (period_rep (x + 1/2 * p) (2 * p)) as (j & r & E & Hr); [lra|].
  rewrite (make_periodic_eq p x r j) by (auto; lra).
  destruct (Req_dec r 0) as [->|N].
  - rewrite (make_periodic_eq p (p - x) 0 (1 - j)) by (auto; try lra; rewrite minus_IZR; lra). reflexivity.
  - rewrite (make_periodic_eq p (p - x) (2 * p - r) (- j)) by (auto; try lra; rewrite opp_IZR; lra).
    unfold fold_. destruct (Rlt_dec p r), (Rlt_dec p (2 * p - r)); lra.
Qed.

Lemma make_periodic_lipschitz_aux x y p : 0 < p -> x <= y -> Rabs (make_periodic y p - make_periodic x p) <= y - x.
Proof.
  intros Hp Hxy.
  destruct (period_rep (x + 1/2 * p) (2 * p)) as (k & r & E & Hr); [lra|].
  rewrite (make_periodic_eq p x r k) by (auto; lra).
  destruct (Rle_or_lt (2 * p) (y - x)) as [Hbig|Hsm].
  - (* far apart: the range is at most p *)
    assert (R1 := make_periodic_range y p Hp). assert (R2 := make_periodic_range x p Hp).
    rewrite (make_periodic_eq p x r k) in R2 by (auto; lra).
    apply Rabs_le. lra.
  - destruct (Rlt_or_le (r + (y - x)) (2 * p)) as [H|H].
    + rewrite (make_periodic_eq p y (r + (y - x)) k) by lra.
      unfold fold_. apply Rabs_le. destruct (Rlt_dec p r), (Rlt_dec p (r + (y - x))); lra.
    + rewrite (make_periodic_eq p y (r + (y - x) - 2 * p) (k + 1)) by (rewrite ?plus_IZR; lra).
      unfold fold_. apply Rabs_le. destruct (Rlt_dec p r), (Rlt_dec p (r + (y - x) - 2 * p)); lra.
Qed.

Lemma make_periodic_lipschitz x y p : 0 < p -> Rabs (make_periodic x p - make_periodic y p) <= Rabs (x - y).
Proof.
  intros Hp. destruct (Rle_or_lt x y).
  - rewrite (Rabs_minus_sym x y), (Rabs_minus_sym (make_periodic x p)), (Rabs_pos_eq (y - x)) by lra.
    now apply make_periodic_lipschitz_aux.
  - rewrite (Rabs_pos_eq (x - y)) by lra. apply make_periodic_lipschitz_aux; lra.
Qed.

Lemma apply_periodicity_continuous p : (forall q, p = Some q -> 0 < q) -> continuity (apply_periodicity p).
Proof.
  intros H. destruct p as [p|]; simpl.
  - intros x. apply continuity_eps. intros eps Heps. exists eps. split; auto. intros y Hy.
    eapply Rle_lt_trans; [apply make_periodic_lipschitz; auto|auto].
  - apply derivable_continuous, derivable_id.
Qed.

Lemma link_continuous l o i : (1 <= pw_segments l)%nat -> (1 <= pw_n l)%nat -> pw_length l = 2 ->
  is_continuous_class (pw_cls l) = true -> (forall q, pw_periodicity l = Some q -> 0 < q) ->
  continuity (link l o i).
Proof.
  intros HS Hn HL Hc Hp. apply (continuity_comp (apply_periodicity (pw_periodicity l)) (link0 l o i)).
  - now apply apply_periodicity_continuous.
  - now apply link0_continuous.
Qed.
