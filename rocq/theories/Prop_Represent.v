(** * What one layer cannot represent and two layers can (C82, C83). *)
From Coq Require Import Reals ZArith List Lia Lra Psatz.
From Coquelicot Require Import Coquelicot.
From Verif Require Import Spec Tensor Utils LagrangePolynomial Basis PolynomialLayers Observe
  SumFacts TensorFacts LagrangeFacts LayerFacts SegmentFacts LayerProofs LebesgueFacts ContinuityFacts CompactFacts Prop_Bounds Prop_Approx.
Import ListNotations.
Local Open Scope R_scope.

(** The function of the xor example (examples/xor.py 31-35): -1/2 where x*y > 0, 1/2 elsewhere. *)
Definition xor (x y : R) : R := if Rlt_dec 0 (x * y) then -1/2 else 1/2.
Definition pair_ (x y : R) : nat -> R := fun i => if Nat.eqb i 0 then x else y.

(** ** C82: a single layer of sum units adds functions of one input each *)
Lemma rsum_set2 m i j (F : nat -> R -> R) v a b : (i < m)%nat -> (j < m)%nat -> i <> j ->
  rsum m (fun k => F k (set_entry (set_entry v i a) j b k))
  = rsum m (fun k => F k (v k)) + (F i a - F i (v i)) + (F j b - F j (v j)).
Proof.
  intros Hi Hj D.
  assert (A : rsum m (fun k => F k (set_entry (set_entry v i a) j b k) - F k (v k)) = (F i a - F i (v i)) + (F j b - F j (v j))).
  { transitivity (rsum m (fun k => (if Nat.eqb k i then F i a - F i (v i) else 0) + (if Nat.eqb k j then F j b - F j (v j) else 0))).
    - apply rsum_ext. intros k Hk. unfold set_entry.
      destruct (Nat.eqb_spec k j) as [Ej|Nj]; destruct (Nat.eqb_spec k i) as [Ei|Ni]; subst; try ring. contradiction.
    - rewrite rsum_plus. f_equal.
      + rewrite (rsum_single m i) by (auto; intros k _ N; apply Nat.eqb_neq in N; now rewrite N). now rewrite Nat.eqb_refl.
      + rewrite (rsum_single m j) by (auto; intros k _ N; apply Nat.eqb_neq in N; now rewrite N). now rewrite Nat.eqb_refl. }
  rewrite rsum_minus in A. lra.
Qed.

Theorem C82_no_interaction : forall l o v i j a b c d,
  held l -> sum_class (pw_cls l) -> (o < pw_out l)%nat -> (i < pw_in l)%nat -> (j < pw_in l)%nat -> i <> j ->
  layer_out l (set_entry (set_entry v i a) j b) o - layer_out l (set_entry (set_entry v i a) j d) o
  = layer_out l (set_entry (set_entry v i c) j b) o - layer_out l (set_entry (set_entry v i c) j d) o.
Proof.
  intros l o v i j a b c d H Hc Ho Hi Hj D. rewrite !layer_out_sum by auto.
  rewrite !(rsum_set2 _ _ _ (link l o)) by auto. ring.
Qed.
Print Assumptions C82_no_interaction.

Lemma product_out l v o : held l -> ~ sum_class (pw_cls l) -> (o < pw_out l)%nat ->
  1 + layer_out l v o = rprod (pw_in l) (fun i => link l o i (v i) + 1).
Proof.
  intros H Hc Ho. rewrite layer_out_eq by auto.
  assert (Ha : alpha_of (pw_cls l) = Some 1) by (unfold sum_class in Hc; destruct (pw_cls l); cbn; tauto).
  rewrite Ha. cbn [combine_links]. ring.
Qed.

Theorem C82_product_no_interaction : forall l o v i j a b c d,
  held l -> ~ sum_class (pw_cls l) -> (o < pw_out l)%nat -> (i < pw_in l)%nat -> (j < pw_in l)%nat -> i <> j ->
  (1 + layer_out l (set_entry (set_entry v i a) j b) o) * (1 + layer_out l (set_entry (set_entry v i c) j d) o)
  = (1 + layer_out l (set_entry (set_entry v i a) j d) o) * (1 + layer_out l (set_entry (set_entry v i c) j b) o).
Proof.
  intros l o v i j a b c d H Hc Ho Hi Hj D. rewrite !product_out by auto.
  rewrite <- !rprod_mult. apply rprod_ext. intros k Hk. unfold set_entry.
  destruct (Nat.eqb_spec k j) as [Ej|Nj]; destruct (Nat.eqb_spec k i) as [Ei|Ni]; subst; try ring.
Qed.
Print Assumptions C82_product_no_interaction.

Lemma xor_four : xor (1/2) (1/2) = -1/2 /\ xor (-1/2) (-1/2) = -1/2 /\ xor (1/2) (-1/2) = 1/2 /\ xor (-1/2) (1/2) = 1/2.
Proof. unfold xor. repeat split; destruct Rlt_dec; lra. Qed.

(** The xor example without hidden layer: every layer, of sum or of product units, of any order and number of segments and
    with any weights, is off by at least 1/2 at one of the four points. *)
Theorem C82_xor_without_hidden_layer_refuted : forall l, held l -> pw_in l = 2%nat ->
  exists x y, (x = 1/2 \/ x = -1/2) /\ (y = 1/2 \/ y = -1/2) /\
    1/2 <= Rabs (layer_out l (pair_ x y) 0 - xor x y).
Proof.
  intros l H Hi. pose proof (held_wf l H) as (_ & _ & _ & Ho & _).
  destruct xor_four as (X1 & X2 & X3 & X4).
  set (u := layer_out l (pair_ (1/2) (1/2)) 0). set (v := layer_out l (pair_ (-1/2) (-1/2)) 0).
  set (s := layer_out l (pair_ (1/2) (-1/2)) 0). set (t := layer_out l (pair_ (-1/2) (1/2)) 0).
  assert (C : u + v = s + t \/ (1 + u) * (1 + v) = (1 + s) * (1 + t)).
  { assert (Dec : sum_class (pw_cls l) \/ ~ sum_class (pw_cls l)) by (unfold sum_class; destruct (pw_cls l); (left; now auto) || (right; intros [A|A]; discriminate)).
    destruct Dec as [Hc|Hc].
    - left. unfold u, v, s, t. rewrite !layer_out_sum, Hi by auto. cbn. ring.
    - right. unfold u, v, s, t. rewrite !product_out, Hi by auto. cbn. ring. }
  assert (F : 0 <= u \/ 0 <= v \/ s <= 0 \/ t <= 0 \/ u <= -1 \/ v <= -1).
  { destruct C as [C|C]; [lra|].
    destruct (Rle_dec 0 u); [tauto|]. destruct (Rle_dec 0 v); [tauto|]. destruct (Rle_dec s 0); [tauto|]. destruct (Rle_dec t 0); [tauto|].
    destruct (Rle_dec u (-1)); [tauto|]. destruct (Rle_dec v (-1)); [tauto|]. exfalso. nra. }
  destruct F as [F|[F|[F|[F|[F|F]]]]].
  - exists (1/2), (1/2). repeat split; auto. rewrite X1. fold u. rewrite Rabs_pos_eq; lra.
  - exists (-1/2), (-1/2). repeat split; auto. rewrite X2. fold v. rewrite Rabs_pos_eq; lra.
  - exists (1/2), (-1/2). repeat split; auto. rewrite X3. fold s. rewrite Rabs_left1; lra.
  - exists (-1/2), (1/2). repeat split; auto. rewrite X4. fold t. rewrite Rabs_left1; lra.
  - exists (1/2), (1/2). repeat split; auto. rewrite X1. fold u. rewrite Rabs_left1; lra.
  - exists (-1/2), (-1/2). repeat split; auto. rewrite X2. fold v. rewrite Rabs_left1; lra.
Qed.
Print Assumptions C82_xor_without_hidden_layer_refuted.

(** ** Two layers *)
(** A discontinuous layer can hold any step functions on its segments. *)
Lemma step_layer n I O S (c : nat -> nat -> nat -> R) : (1 <= n)%nat -> (1 <= I)%nat -> (1 <= O)%nat -> (1 <= S)%nat ->
  exists w, let l := with_w (new_piecewise PiecewiseDiscontinuousPolynomial n I O S 2 1 None (fun _ _ => 0)) w in
    shape w = [O; I; pw_num_weights PiecewiseDiscontinuousPolynomial n S] /\
    forall v o (sel : nat -> nat), (o < O)%nat -> (forall i, (i < I)%nat -> in_segment S (sel i) (v i)) ->
      layer_out l v o = rsum I (fun i => c o i (sel i)).
Proof.
  intros Hn HI HO HS.
  set (w := mkT [O; I; pw_num_weights PiecewiseDiscontinuousPolynomial n S]
    (fun ix => c (nth 0 ix 0%nat) (nth 1 ix 0%nat) (nth 2 ix 0%nat / n)%nat)).
  exists w. set (l := with_w _ w). cbv zeta. split; [reflexivity|].
  assert (H : held l) by (apply with_w_held; [now apply new_held|reflexivity]).
  intros v o sel Ho Hsel.
  rewrite layer_out_sum by (auto; now right). apply rsum_ext. intros i Hi.
  change (link l o i (v i)) with (link0 l o i (v i)).
  rewrite (link0_spec l o i (sel i) (v i) (fun _ => c o i (sel i))); auto.
  split; [now apply poly_lt_const|]. intros k Hk. change (pw_n l) with n in *. cbn.
  f_equal. apply (Nat.div_unique _ n _ k); auto. lia.
Qed.

Definition two_layers (l1 l2 : piecewise) (v : nat -> R) (o : nat) : R := layer_out l2 (layer_out l1 v) o.

Lemma segment_of_sign x : in_segment 2 (if Rle_dec 0 x then 1 else 0) x.
Proof.
  unfold in_segment, knot. destruct Rle_dec; simpl INR; (split; [lia|split]);
    [right; lra|now left|now left|right; lra].
Qed.

(** Two inputs, two hidden units, one output, two segments, any number of nodes: off the axes xor is matched exactly. *)
Theorem C82_xor_exact_with_hidden_layer : forall n, (1 <= n)%nat ->
  exists l1 l2, held l1 /\ held l2 /\
    pw_cls l1 = PiecewiseDiscontinuousPolynomial /\ pw_cls l2 = PiecewiseDiscontinuousPolynomial /\
    pw_n l1 = n /\ pw_n l2 = n /\ pw_segments l1 = 2%nat /\ pw_segments l2 = 2%nat /\
    pw_in l1 = 2%nat /\ pw_out l1 = 2%nat /\ pw_in l2 = 2%nat /\ pw_out l2 = 1%nat /\
    pw_length l1 = 2 /\ pw_length l2 = 2 /\ pw_periodicity l1 = None /\ pw_periodicity l2 = None /\
    forall x y, x <> 0 -> y <> 0 -> two_layers l1 l2 (pair_ x y) 0 = xor x y.
Proof.
  intros n Hn.
  destruct (step_layer n 2 2 2 (fun o i s => (if Nat.eqb s 0 then -1 else 1) / 4 + (if Nat.eqb o 0 then -1 else 1) / 8) Hn) as (w1 & W1 & L1); try lia.
  destruct (step_layer n 2 1 2 (fun o i s => if Nat.eqb i 0 then (if Nat.eqb s 0 then 0 else -1) else (if Nat.eqb s 0 then -1/2 else 1/2)) Hn) as (w2 & W2 & L2); try lia.
  cbv zeta in L1, L2. set (l1 := with_w _ w1) in *. set (l2 := with_w _ w2) in *.
  exists l1, l2. split; [apply with_w_held; [apply new_held; lia|exact W1]|]. split; [apply with_w_held; [apply new_held; lia|exact W2]|].
  repeat split. intros x y Hx Hy.
  set (sx := if Rle_dec 0 x then 1%nat else 0%nat). set (sy := if Rle_dec 0 y then 1%nat else 0%nat).
  assert (Hh : forall o, (o < 2)%nat -> layer_out l1 (pair_ x y) o =
     (if Nat.eqb sx 0 then -1 else 1) / 4 + (if Nat.eqb sy 0 then -1 else 1) / 4 + (if Nat.eqb o 0 then -1 else 1) / 4).
  { intros o Ho. rewrite (L1 (pair_ x y) o (fun i => if Nat.eqb i 0 then sx else sy) Ho).
    - cbn. field.
    - intros i Hi. unfold pair_. destruct (Nat.eqb i 0); apply segment_of_sign. }
  unfold two_layers. rewrite (L2 _ 0%nat (fun i => if Rle_dec 0 (layer_out l1 (pair_ x y) i) then 1%nat else 0%nat));
    [|lia|intros; apply segment_of_sign].
  cbn [rsum Nat.eqb]. rewrite !Hh by lia. cbn [Nat.eqb]. unfold xor, sx, sy.
  destruct (Rle_dec 0 x) as [A|A]; destruct (Rle_dec 0 y) as [B|B]; cbn [Nat.eqb];
    repeat (match goal with |- context [Rle_dec ?a ?b] => destruct (Rle_dec a b); try lra end); cbn [Nat.eqb];
    destruct (Rlt_dec 0 (x * y)) as [C|C]; try lra; exfalso.
  - apply C. apply Rmult_lt_0_compat; lra.
  - assert (x * y < 0) by (apply Ropp_lt_cancel; rewrite Ropp_0, Ropp_mult_distr_r; apply Rmult_lt_0_compat; lra). lra.
  - assert (x * y < 0) by (apply Ropp_lt_cancel; rewrite Ropp_0, Ropp_mult_distr_l; apply Rmult_lt_0_compat; lra). lra.
  - apply C. replace (x * y) with ((- x) * (- y)) by ring. apply Rmult_lt_0_compat; lra.
Qed.
Print Assumptions C82_xor_exact_with_hidden_layer.

(** No continuous function, hence no network of continuous layers, gets closer than 1/2 everywhere off the axes. *)
Theorem C82_continuous_never_matches_xor : forall F eps, continuous_vec 2 F -> 0 < eps ->
  exists x y, x <> 0 /\ y <> 0 /\ 1/2 - eps < Rabs (F (pair_ x y) - xor x y).
Proof.
  intros F eps HF He.
  destruct (HF (pair_ 0 1) eps He) as (d & Hd & P).
  assert (N : forall t, t = d / 2 \/ t = - (d / 2) -> Rabs (F (pair_ t 1) - F (pair_ 0 1)) < eps).
  { intros t Ht. apply P. intros i Hi. unfold pair_. destruct (Nat.eqb i 0).
    - destruct Ht as [-> | ->]; unfold Rabs; destruct Rcase_abs; lra.
    - replace (1 - 1) with 0 by ring. rewrite Rabs_R0. auto. }
  assert (X1 : xor (d / 2) 1 = -1/2) by (unfold xor; destruct Rlt_dec; lra).
  assert (X2 : xor (- (d / 2)) 1 = 1/2) by (unfold xor; destruct Rlt_dec; lra).
  pose proof (N (d / 2) (or_introl eq_refl)) as N1. pose proof (N (- (d / 2)) (or_intror eq_refl)) as N2.
  apply Rabs_def2 in N1. apply Rabs_def2 in N2.
  destruct (Rle_dec 0 (F (pair_ 0 1))).
  - exists (d / 2), 1. repeat split; try lra. rewrite X1. eapply Rlt_le_trans; [|apply Rle_abs]. lra.
  - exists (- (d / 2)), 1. repeat split; try lra. rewrite X2. rewrite <- Rabs_Ropp. eapply Rlt_le_trans; [|apply Rle_abs]. lra.
Qed.
Print Assumptions C82_continuous_never_matches_xor.

(** A layer meeting the hypotheses: two inputs, three nodes, two segments, weights all different; its output at (1/2, 1/2) can
    be computed from three other points. *)
Example C82_case : exists l, held l /\ sum_class (pw_cls l) /\ pw_in l = 2%nat /\ pw_n l = 3%nat /\ pw_segments l = 2%nat /\
  layer_out l (pair_ (1/2) (1/2)) 0 = layer_out l (pair_ (1/2) (-1/2)) 0 + layer_out l (pair_ (-1/2) (1/2)) 0 - layer_out l (pair_ (-1/2) (-1/2)) 0.
Proof.
  set (l := with_w (new_piecewise PiecewisePolynomial 3 2 1 2 2 1 None (fun _ _ => 0)) (mkT [1; 2; 5]%nat (fun ix => INR (nth 2 ix 0%nat)))).
  assert (H : held l) by (apply with_w_held; [apply new_held; lia|reflexivity]).
  exists l. split; auto. split; [now left|]. repeat split.
  pose proof (C82_no_interaction l 0 (fun _ => 0) 0 1 (1/2) (1/2) (-1/2) (-1/2) H ltac:(now left) ltac:(cbn; lia) ltac:(cbn; lia) ltac:(cbn; lia) ltac:(lia)) as E.
  rewrite !layer_out_sum in * by (auto; try (now left); cbn; lia). change (pw_in l) with 2%nat in *. cbn [rsum pair_ set_entry Nat.eqb] in *. lra.
Qed.

(** ** C83: one hidden unit and step functions approximate every continuous function *)
(** Number written with the digits [s] to base [S]. *)
Fixpoint number (S d : nat) (s : nat -> nat) : nat :=
  match d with O => 0%nat | Datatypes.S d => (number S d s + s d * S ^ d)%nat end.

Lemma number_lt S d s : (forall i, (i < d)%nat -> (s i < S)%nat) -> (number S d s < S ^ d)%nat.
Proof.
  induction d; intros H; cbn [number Nat.pow]; [lia|].
  assert (A := IHd (fun i Hi => H i ltac:(lia))). assert (B := H d ltac:(lia)). nia.
Qed.

Lemma number_digit S d s i : (forall i, (i < d)%nat -> (s i < S)%nat) -> (i < d)%nat -> ((number S d s / S ^ i) mod S = s i)%nat.
Proof.
  induction d; intros H Hi; [lia|]. cbn [number].
  assert (S0 : S <> 0%nat) by (pose proof (H d ltac:(lia)); lia).
  assert (Si : (S ^ i <> 0)%nat) by now apply Nat.pow_nonzero.
  destruct (Nat.eq_dec i d) as [->|N].
  - rewrite Nat.div_add by auto. rewrite (Nat.div_small (number S d s)) by (apply number_lt; intros; apply H; lia).
    cbn. apply Nat.mod_small. apply H. lia.
  - replace (S ^ d)%nat with (S ^ (d - i - 1) * S * S ^ i)%nat.
    + replace (s d * (S ^ (d - i - 1) * S * S ^ i))%nat with (s d * S ^ (d - i - 1) * S * S ^ i)%nat by ring.
      rewrite Nat.div_add, Nat.mod_add by auto. apply IHd; [intros; apply H; lia|lia].
    + replace d with (d - i - 1 + (1 + i))%nat at 2 by lia. rewrite Nat.pow_add_r, Nat.pow_add_r. cbn [Nat.pow]. ring.
Qed.

Lemma number_INR S d s : INR (number S d s) = rsum d (fun i => INR (s i) * INR S ^ i).
Proof. induction d; cbn [number rsum]; auto. now rewrite plus_INR, mult_INR, pow_INR, IHd. Qed.

(** The hidden value of the cell with number [N] is the middle of segment [N] of the output layer. *)
Lemma cell_value S d (s : nat -> nat) : (1 <= S)%nat -> (1 <= d)%nat ->
  rsum d (fun i => 2 * INR (s i) * INR S ^ i / INR (S ^ d) + (-1 + / INR (S ^ d)) / INR d)
  = -1 + (2 * INR (number S d s) + 1) / INR (S ^ d).
Proof.
  intros HS Hd. assert (Pd := INR_pos d Hd).
  assert (PS : 0 < INR (S ^ d)) by (apply INR_pos; pose proof (Nat.pow_nonzero S d); lia).
  rewrite rsum_plus, rsum_const, number_INR.
  rewrite (rsum_ext d _ (fun i => 2 / INR (S ^ d) * (INR (s i) * INR S ^ i))) by (intros; field; lra).
  rewrite rsum_scal. field. lra.
Qed.

Theorem C83_two_layers_approximate : forall n d m (f : nat -> (nat -> R) -> R) eps,
  (1 <= n)%nat -> (1 <= d)%nat -> (1 <= m)%nat -> (forall o, (o < m)%nat -> continuous_vec d (f o)) -> 0 < eps ->
  exists l1 l2, held l1 /\ held l2 /\
    pw_cls l1 = PiecewiseDiscontinuousPolynomial /\ pw_cls l2 = PiecewiseDiscontinuousPolynomial /\
    pw_n l1 = n /\ pw_n l2 = n /\ pw_in l1 = d /\ pw_out l1 = 1%nat /\ pw_in l2 = 1%nat /\ pw_out l2 = m /\
    pw_length l1 = 2 /\ pw_length l2 = 2 /\ pw_periodicity l1 = None /\ pw_periodicity l2 = None /\
    forall v o, (o < m)%nat -> (forall i, (i < d)%nat -> -1 <= v i <= 1) ->
      Rabs (two_layers l1 l2 v o - f o v) < eps.
Proof.
  intros n d m f eps Hn Hd Hm Hf He.
  destruct (uniformly_continuous_all d m f eps Hf He) as (delta & Hdel & U).
  destruct (archimed (1 / delta)) as [Ar _].
  assert (Pd : 0 < 1 / delta) by (apply Rdiv_lt_0_compat; lra).
  set (S := Z.to_nat (up (1 / delta))).
  assert (Up : (0 < up (1 / delta))%Z) by (apply lt_IZR; lra).
  assert (HS : (1 <= S)%nat) by (unfold S; lia).
  assert (ES : 1 / delta < INR S) by (unfold S; rewrite INR_IZR_INZ, Z2Nat.id by lia; lra).
  assert (PS := INR_pos S HS).
  assert (IS : / INR S < delta).
  { apply (Rmult_lt_reg_r (INR S)); auto. rewrite Rinv_l by lra.
    apply (Rmult_lt_compat_l delta) in ES; auto. replace (delta * (1 / delta)) with 1 in ES by (field; lra). lra. }
  assert (HSd : (1 <= S ^ d)%nat) by (pose proof (Nat.pow_nonzero S d); lia).
  assert (PSd := INR_pos (S ^ d) HSd).
  set (center := fun N i => knot S ((N / S ^ i) mod S) + / INR S).
  destruct (step_layer n d 1 S (fun _ i s => 2 * INR s * INR S ^ i / INR (S ^ d) + (-1 + / INR (S ^ d)) / INR d)) as (w1 & W1 & L1); auto.
  destruct (step_layer n 1 m (S ^ d) (fun o _ N => f o (center N))) as (w2 & W2 & L2); auto.
  cbv zeta in L1, L2. set (l1 := with_w _ w1) in *. set (l2 := with_w _ w2) in *.
  assert (H1 : held l1) by (apply with_w_held; [apply new_held; lia|exact W1]).
  assert (H2 : held l2) by (apply with_w_held; [apply new_held; lia|exact W2]).
  exists l1, l2. do 2 (split; [assumption|]). do 12 (split; [reflexivity|]).
  intros v o Ho Hv.
  set (s := fun i => seg l1 (v i)).
  assert (Hs : forall i, in_segment S (s i) (v i)) by (intros i; apply (seg_in l1 (v i) eq_refl HS)).
  assert (Lt : forall i, (i < d)%nat -> (s i < S)%nat) by (intros i _; apply Hs).
  assert (Hh : layer_out l1 v 0 = -1 + (2 * INR (number S d s) + 1) / INR (S ^ d)).
  { rewrite (L1 v 0%nat s) by (auto; lia). now apply cell_value. }
  assert (NL := number_lt S d s Lt).
  unfold two_layers. rewrite (L2 _ o (fun _ => number S d s)); auto.
  - cbn [rsum]. rewrite Rplus_0_l. apply U; auto. intros i Hi. unfold center. rewrite number_digit by auto.
    pose proof (local_range S (s i) (v i) HS (Hs i) (Hv i Hi)) as T.
    pose proof (seg_global_local S (s i) (v i) HS) as G. unfold seg_global in G.
    replace (knot S (s i) + / INR S - v i) with (- seg_local S (s i) (v i) * / INR S) by (rewrite <- G at 2; field; lra).
    assert (0 < / INR S) by now apply Rinv_0_lt_compat.
    rewrite Rabs_mult, (Rabs_pos_eq (/ INR S)), Rabs_Ropp by lra.
    assert (Rabs (seg_local S (s i) (v i)) <= 1) by (apply Rabs_le; lra). nra.
  - intros i Hi. replace i with 0%nat by lia. rewrite Hh. set (N := number S d s) in *.
    assert (PI0 : 0 < / INR (S ^ d)) by now apply Rinv_0_lt_compat.
    split; [auto|]. unfold knot, Rdiv. rewrite S_INR. split; right; nra.
Qed.
Print Assumptions C83_two_layers_approximate.

Example C83_case : exists l1 l2, held l1 /\ held l2 /\ pw_in l1 = 2%nat /\ pw_out l1 = 1%nat /\ pw_n l1 = 1%nat /\
  forall x y, -1 <= x <= 1 -> -1 <= y <= 1 -> Rabs (two_layers l1 l2 (pair_ x y) 0 - sin (x * y)) < 1 / 100.
Proof.
  destruct (C83_two_layers_approximate 1 2 1 (fun _ v => sin (v 0%nat * v 1%nat)) (1/100)) as (l1 & l2 & H); try lia; [|lra|].
  - intros o _. apply (cv_continuity 2 sin (fun v => v 0%nat * v 1%nat)).
    + apply continuity_sin.
    + apply cv_mult; apply cv_proj; lia.
  - exists l1, l2. destruct H as (H1 & H2 & _ & _ & H3 & _ & H4 & H5 & _ & _ & _ & _ & _ & _ & P).
    repeat split; auto. intros x y Hx Hy. apply (P (pair_ x y) 0%nat); [lia|].
    intros i Hi. unfold pair_. destruct (Nat.eqb i 0); auto.
Qed.
