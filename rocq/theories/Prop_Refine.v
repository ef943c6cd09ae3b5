(** * Properties of the functions that refine, smooth or initialise layers (C15-C19, C22, C23, C56-C58). *)
From Coq Require Import Reals ZArith List Lia Lra Psatz.
From Verif Require Import Spec Tensor Utils LagrangePolynomial Basis PolynomialLayers Observe Refine
  SumFacts TensorFacts LagrangeFacts LayerFacts SegmentFacts LayerProofs RefineFacts.
Import ListNotations.
Local Open Scope R_scope.

(** A layer used in the examples: 2 inputs, 1 output, weights 0, 1, 2, ... *)
Definition demo2 (c : pw_class) (n S : nat) : piecewise :=
  let l := new_piecewise c n 2 1 S 2 1 None (fun _ _ => 1/2) in
  with_w l (mkT (shape (pw_w l)) (fun ix => INR (nth 2 ix 0%nat))).
Example demo2_held : forall c n S, (1 <= n)%nat -> (1 <= S)%nat -> held (demo2 c n S).
Proof. intros c n S H1 H2. apply with_w_held; [apply new_held; lia|reflexivity]. Qed.

(** ** C15 *)
Theorem C15_p_refinement_preserves : forall li lo,
  held li -> held lo -> pw_cls lo = pw_cls li -> sum_class (pw_cls li) ->
  pw_segments lo = pw_segments li -> pw_in lo = pw_in li -> pw_out lo = pw_out li ->
  pw_length lo = pw_length li -> pw_periodicity lo = pw_periodicity li ->
  (pw_n li <= pw_n lo)%nat ->
  exists w', interpolate_polynomial_layer li lo = (w', None) /\ shape w' = shape (pw_w lo) /\
    same_function li (with_w lo w').
Proof.
  intros li lo Hi Ho Hc Hsum HS HI HO HL HP Hn.
  pose proof (held_wf li Hi) as (Ni & _).
  assert (H2 : pw_cls li = PiecewisePolynomial -> (2 <= pw_n lo)%nat \/ pw_n li = 1%nat) by lia.
  assert (Hd : (pw_num_weights (pw_cls li) (pw_n lo) (pw_segments lo) <= pw_num_weights (pw_cls lo) (pw_n lo) (pw_segments lo))%nat)
    by now rewrite Hc.
  destruct (interpolate_wrote li lo Hi Ho Hsum Hd HS HI HO H2) as (w' & E & Sh & V & _).
  exists w'. split; auto. split; auto.
  apply same_function_links; auto; [now apply with_w_held|cbn; now rewrite Hc|].
  intros o i x Ho' Hi'. unfold link, link0. cbn [with_w pw_periodicity]. rewrite HP.
  set (xp := apply_periodicity _ x). rewrite !piece_local.
  change (seg (with_w lo w') xp) with (seg lo xp). change (x_local (with_w lo w')) with (x_local lo).
  rewrite (seg_same li lo), (x_local_same li lo) by auto.
  apply interpolate_pieces; auto. apply seg_lt. now destruct (held_wf li Hi) as (_ & ? & _).
Qed.
Print Assumptions C15_p_refinement_preserves.

Example C15_case : exists w',
  interpolate_polynomial_layer (demo2 PiecewisePolynomial 3 4) (demo2 PiecewisePolynomial 5 4) = (w', None) /\
  same_function (demo2 PiecewisePolynomial 3 4) (with_w (demo2 PiecewisePolynomial 5 4) w').
Proof.
  destruct (C15_p_refinement_preserves (demo2 PiecewisePolynomial 3 4) (demo2 PiecewisePolynomial 5 4)) as (w' & A & _ & B);
    try reflexivity; try (apply demo2_held; lia); [now left|cbn; lia|eauto].
Qed.

(** ** C16 *)
(** Every weight position of the target is [weight_pos s k] for some node, and holds the value of the
    polynomial of that segment of the source at that node. *)
Theorem C16_interpolation_samples_source : forall li lo (P : nat -> nat -> nat -> R -> R),
  held li -> held lo -> pw_cls lo = pw_cls li -> sum_class (pw_cls li) ->
  pw_segments lo = pw_segments li -> pw_in lo = pw_in li -> pw_out lo = pw_out li -> (2 <= pw_n lo)%nat ->
  (forall o i s, interpolates (pw_n li)
     (fun k => at_ (pw_w li) [o; i; weight_pos (pw_cls li) (pw_n li) s k]) (P o i s)) ->
  exists w' m, interpolate_polynomial_layer li lo = (w', None) /\ shape w' = [pw_out lo; pw_in lo; m] /\
    (forall o i s k, (o < pw_out li)%nat -> (i < pw_in li)%nat -> (s < pw_segments li)%nat -> (k < pw_n lo)%nat ->
       at_ w' [o; i; weight_pos (pw_cls li) (pw_n lo) s k] = P o i s (lobatto (pw_n lo) k)) /\
    (forall p, (p < m)%nat -> exists s k, (s < pw_segments li)%nat /\ (k < pw_n lo)%nat /\
       p = weight_pos (pw_cls li) (pw_n lo) s k).
Proof.
  intros li lo P Hi Ho Hc Hsum HS HI HO H2 HP.
  pose proof (held_wf li Hi) as (Ni & Si & _). pose proof (held_wf lo Ho) as (No & So & _ & _ & _ & Wo).
  assert (Hd : (pw_num_weights (pw_cls li) (pw_n lo) (pw_segments lo) <= pw_num_weights (pw_cls lo) (pw_n lo) (pw_segments lo))%nat)
    by now rewrite Hc.
  destruct (interpolate_wrote li lo Hi Ho Hsum Hd HS HI HO (fun _ => or_introl H2)) as (w' & E & Sh & V & _).
  exists w', (pw_num_weights (pw_cls lo) (pw_n lo) (pw_segments lo)). rewrite Sh, Wo. repeat split; auto.
  - intros o i s k Ho' Hi' Hs Hk. rewrite V, lobatto_cheb by auto. unfold local_poly.
    rewrite <- (interpolates_interp (pw_n li) _ (P o i s) Ni (HP o i s)).
    apply interp_ext. intros. apply seg_weight_eq.
  - intros p Hp. rewrite HS in Hp. rewrite Hc in Hp. now apply pos_cover.
Qed.
Print Assumptions C16_interpolation_samples_source.

Example C16_case : held (demo2 PiecewiseDiscontinuousPolynomial 5 3) /\ held (demo2 PiecewiseDiscontinuousPolynomial 2 3) /\
  (2 < 5)%nat.
Proof. repeat split; try (apply demo2_held); lia. Qed.

(** ** C17 *)
Theorem C17_different_segments_rejected : forall li lo, pw_segments li <> pw_segments lo ->
  interpolate_polynomial_layer li lo = (pw_w lo, Some ValueError).
Proof.
  intros li lo H. unfold interpolate_polynomial_layer. destruct (Nat.eqb_spec (pw_segments li) (pw_segments lo)); [contradiction|reflexivity].
Qed.
Print Assumptions C17_different_segments_rejected.

Lemma einsum2_exn la lb lo A B e : einsum2 la lb lo A B = Err e -> e = RuntimeError.
Proof.
  unfold einsum2. destruct (add_dims _ (shape A) _); [|congruence]. destruct (add_dims _ (shape B) _); congruence.
Qed.
Lemma poly_interpolate_exn p x w e : poly_interpolate p x w = Err e -> e = RuntimeError.
Proof.
  unfold poly_interpolate, Basis_interpolate, BasisProd_interpolate, stack_basis, rbind.
  destruct (poly_alpha p), (Nat.eqb (poly_n p) 0); try congruence.
  - destruct (einsum2 _ _ _ _ _) eqn:E; [congruence|]. apply einsum2_exn in E. congruence.
  - apply einsum2_exn.
Qed.

Theorem C17_same_segments_not_rejected : forall li lo, pw_segments li = pw_segments lo ->
  snd (interpolate_polynomial_layer li lo) <> Some ValueError.
Proof.
  intros li lo H. unfold interpolate_polynomial_layer. rewrite H, Nat.eqb_refl. cbn [negb].
  unfold mbind at 1. destruct (view_infer _ _ _) as [x|e] eqn:Ex.
  2:{ cbn. unfold view_infer, reshape in Ex. repeat match type of Ex with context [if ?b then _ else _] => destruct b end; congruence. }
  apply (mfor_exn _ _ (fun e => e <> Some ValueError)); [discriminate|]. intros a s Ha.
  apply (mfor_exn _ _ (fun e => e <> Some ValueError)); [discriminate|]. intros b t Hb.
  apply (mfor_exn _ _ (fun e => e <> Some ValueError)); [discriminate|]. intros i u Hi.
  destruct (offset_end (pw_cls li)) as [[st e]|]; [|cbn; discriminate].
  unfold mbind, rbind. destruct (slice3 _ _ _ _ _) as [w|e1] eqn:E1.
  2:{ cbn. unfold slice3 in E1.
      destruct (shape (pw_w li)) as [|d0 [|d1 [|d2 [|]]]]; try (destruct (_ && _)%bool); congruence. }
  destruct (as_weights w) as [w4|e1] eqn:E2.
  2:{ cbn. unfold as_weights, reshape in E2. destruct (Nat.eqb _ _); congruence. }
  destruct (poly_interpolate _ _ _) as [y|e1] eqn:E3.
  2:{ cbn. apply poly_interpolate_exn in E3. congruence. }
  unfold assign3. destruct (shape u) as [|d0 [|d1 [|d2 [|]]]]; cbn; try discriminate.
  destruct (_ && _)%bool; cbn; try discriminate. destruct (_ || _)%bool; cbn; discriminate.
Qed.
Print Assumptions C17_same_segments_not_rejected.

Example C17_case : pw_segments (demo2 PiecewisePolynomial 3 4) <> pw_segments (demo2 PiecewisePolynomial 3 5).
Proof. cbn. lia. Qed.

(** ** C18 *)
Theorem C18_weights_are_samples : forall li lo (P : nat -> nat -> nat -> R -> R),
  held li -> held lo -> continuous_class (pw_cls li) -> continuous_class (pw_cls lo) ->
  pw_length li = 2 -> pw_length lo = 2 -> (forall p, pw_periodicity li = Some p -> 2 <= p) ->
  pw_in lo = pw_in li -> pw_out lo = pw_out li -> (2 <= pw_n lo)%nat ->
  (forall o i s, interpolates (pw_n li)
     (fun k => at_ (pw_w li) [o; i; weight_pos (pw_cls li) (pw_n li) s k]) (P o i s)) ->
  exists w', refine_polynomial_layer li lo = (w', None) /\ shape w' = shape (pw_w lo) /\
    forall o i j k s, (o < pw_out li)%nat -> (i < pw_in li)%nat -> (j < pw_segments lo)%nat -> (k < pw_n lo)%nat ->
      let x := seg_global (pw_segments lo) j (lobatto (pw_n lo) k) in
      in_segment (pw_segments li) s x ->
      at_ w' [o; i; weight_pos (pw_cls lo) (pw_n lo) j k] = P o i s (seg_local (pw_segments li) s x).
Proof.
  intros li lo P Hi Ho Hci Hco HLi HLo Hper HI HO H2 HP.
  destruct (refine_wrote li lo Hi Ho Hci Hco HLo Hper HI HO H2) as (w' & E & Sh & V).
  exists w'. split; auto. split; auto. intros o i j k s Ho' Hi' Hj Hk x Hx.
  rewrite weight_pos_eq. unfold pw_stride. rewrite (proj1 (cont_class _) Hco).
  rewrite V by auto. unfold x in *. rewrite lobatto_cheb in * by lia.
  now apply link0_spec.
Qed.
Print Assumptions C18_weights_are_samples.

Theorem C18_h_refinement_preserves : forall li lo m,
  held li -> held lo -> continuous_class (pw_cls li) -> pw_cls lo = pw_cls li ->
  pw_length li = 2 -> pw_length lo = 2 ->
  pw_periodicity lo = pw_periodicity li -> (forall p, pw_periodicity li = Some p -> 2 <= p) ->
  pw_in lo = pw_in li -> pw_out lo = pw_out li -> (2 <= pw_n lo)%nat -> (pw_n li <= pw_n lo)%nat ->
  pw_segments lo = (m * pw_segments li)%nat ->
  exists w', refine_polynomial_layer li lo = (w', None) /\ shape w' = shape (pw_w lo) /\
    same_function li (with_w lo w').
Proof.
  intros li lo m Hi Ho Hci Hc HLi HLo HP Hper HI HO H2 Hn HS.
  assert (Hco : continuous_class (pw_cls lo)) by now rewrite Hc.
  destruct (refine_wrote li lo Hi Ho Hci Hco HLo Hper HI HO H2) as (w' & E & Sh & V).
  exists w'. split; auto. split; auto.
  apply same_function_links; auto; [now apply with_w_held|cbn; now rewrite Hc|].
  intros o i x Ho' Hi'. unfold link. cbn [with_w pw_periodicity]. rewrite HP.
  now apply refine_link0 with (m := m).
Qed.
Print Assumptions C18_h_refinement_preserves.

Example C18_case : exists w',
  refine_polynomial_layer (demo2 PiecewisePolynomial 3 4) (demo2 PiecewisePolynomial 5 12) = (w', None) /\
  same_function (demo2 PiecewisePolynomial 3 4) (with_w (demo2 PiecewisePolynomial 5 12) w').
Proof.
  destruct (C18_h_refinement_preserves (demo2 PiecewisePolynomial 3 4) (demo2 PiecewisePolynomial 5 12) 3) as (w' & A & _ & B);
    try reflexivity; try (apply demo2_held; lia); [now left|discriminate|cbn; lia|cbn; lia|eauto].
Qed.

(** Segment counts that are not multiples: for every such pair of counts there is a source whose
    function the refined layer does not have. *)
Definition kink_layer (n S : nat) : piecewise :=
  let l := new_piecewise PiecewisePolynomial n 1 1 S 2 1 None (fun _ _ => 0) in
  with_w l (mkT (shape (pw_w l)) (fun ix =>
    let p := nth 2 ix 0%nat in
    Rmax 0 (seg_global S (p / (n - 1)) (cheb n (p mod (n - 1))) - knot S 1))).

Lemma kink_weights n S s k : (2 <= n)%nat -> (1 <= S)%nat -> (k < n)%nat ->
  seg_weight (kink_layer n S) 0 0 s k = match s with O => 0 | _ => seg_global S s (cheb n k) - knot S 1 end.
Proof.
  intros Hn HS Hk. assert (P := INR_pos S HS). assert (IP := Rinv_0_lt_compat _ P).
  transitivity (Rmax 0 (seg_global S s (cheb n k) - knot S 1)).
  - unfold seg_weight, kink_layer. cbn. destruct (Nat.eq_dec k (n - 1)) as [->|Nk].
    + replace (s * (n - 1) + (n - 1))%nat with (Datatypes.S s * (n - 1))%nat by lia.
      rewrite Nat.div_mul, Nat.mod_mul by lia. rewrite cheb_first, cheb_last by auto.
      unfold seg_global. rewrite knot_succ by auto. f_equal. lra.
    + rewrite div_add_l, mod_add_l by lia. reflexivity.
  - pose proof (cheb_range n k Hk) as C. unfold seg_global. destruct s.
    + apply Rmax_left. rewrite (knot_succ S 0 HS), knot_0. unfold Rdiv. nra.
    + apply Rmax_right. pose proof (knot_le S 1 (Datatypes.S s) HS ltac:(lia)). unfold Rdiv. nra.
Qed.

Lemma kink_link0 n S x : (2 <= n)%nat -> (2 <= S)%nat ->
  link0 (kink_layer n S) 0 0 x = if Rlt_dec x (knot S 1) then 0 else x - knot S 1.
Proof.
  intros Hn HS. assert (HS1 : (1 <= S)%nat) by lia.
  set (l := kink_layer n S).
  pose proof (seg_in l x eq_refl HS1) as (Hs & Hl & Hr). change (pw_segments l) with S in *.
  unfold link0. set (s := seg l x) in *.
  assert (E : piece l 0 0 s x = match s with O => 0 | _ => x - knot S 1 end).
  { unfold piece. change (pw_n l) with n.
    rewrite (interp_ext n 2 _ (fun k => match s with O => 0 | _ => seg_global S s (cheb n k) - knot S 1 end))
      by (intros; now apply kink_weights).
    destruct s as [|s0].
    - apply interp_const; [lra|lia].
    - set (g := fun t => seg_global S (Datatypes.S s0) t - knot S 1).
      assert (X : forall t, interp n 2 (fun k => seg_global S (Datatypes.S s0) (cheb n k) - knot S 1) t = g t).
      { intros t. rewrite <- (interp_exact n 2 g); [|lra|].
        - apply interp_ext. intros k Hk. rewrite node_2. reflexivity.
        - unfold g, seg_global. apply (poly_lt_mono 2); [lia|].
          exists (fun j => match j with O => knot S (Datatypes.S s0) + 1 / INR S - knot S 1 | _ => 1 / INR S end).
          intros t'. simpl. unfold Rdiv. ring. }
      rewrite X. unfold g. rewrite (x_local_seg l) by auto. change (pw_segments l) with S.
      unfold seg_global, seg_local. field. apply Rgt_not_eq. now apply INR_pos. }
  rewrite E. destruct s as [|s0].
  - destruct (Rlt_dec x (knot S 1)); auto. destruct Hr as [Hr|Hr]; [lia|contradiction].
  - destruct (Rlt_dec x (knot S 1)); auto. destruct Hl as [Hl|Hl]; [lia|].
    pose proof (knot_le S 1 (Datatypes.S s0) HS1 ltac:(lia)). lra.
Qed.

Theorem C18_not_multiple_refuted : forall n_in n_out S_in S_out,
  (2 <= n_in)%nat -> (2 <= n_out)%nat -> (1 <= S_in)%nat -> (1 <= S_out)%nat ->
  ~ Nat.divide S_in S_out ->
  exists li, held li /\ pw_cls li = PiecewisePolynomial /\ pw_n li = n_in /\ pw_segments li = S_in /\
    pw_in li = 1%nat /\ pw_out li = 1%nat /\ pw_length li = 2 /\ pw_periodicity li = None /\
  forall lo, held lo -> pw_cls lo = PiecewisePolynomial -> pw_n lo = n_out -> pw_segments lo = S_out ->
    pw_in lo = 1%nat -> pw_out lo = 1%nat -> pw_length lo = 2 -> pw_periodicity lo = None ->
    snd (refine_polynomial_layer li lo) = None /\
    exists x, layer_out (with_w lo (fst (refine_polynomial_layer li lo))) (fun _ => x) 0 <> layer_out li (fun _ => x) 0.
Proof.
  intros n_in n_out S T Hni Hno HS HT Hdiv.
  assert (HS2 : (2 <= S)%nat) by (destruct (Nat.eq_dec S 1) as [->|]; [exfalso; apply Hdiv, Nat.divide_1_l|lia]).
  set (li := kink_layer n_in S).
  assert (Hi : held li) by (apply with_w_held; [apply new_held; lia|reflexivity]).
  exists li. do 8 (split; [auto|]). intros lo Ho Hc Hn HSo HI HO HL Hp. split.
  - destruct (refine_wrote li lo) as (w' & E & _); auto; [now left|left; auto|discriminate|lia|now rewrite E].
  - destruct (refine_wrote li lo) as (w' & E & Sh & V); auto; [now left|left; auto|discriminate|lia|].
    rewrite E. cbn [fst].
    assert (Hw : held (with_w lo w')) by now apply with_w_held.
    assert (F : forall x, layer_out (with_w lo w') (fun _ => x) 0 = link0 (with_w lo w') 0 0 x).
    { intros x. rewrite layer_out_sum; auto; [|left; auto|cbn; lia]. cbn [with_w pw_in]. rewrite HI. cbn [rsum].
      unfold link. cbn [with_w pw_periodicity]. rewrite Hp. cbn. ring. }
    assert (G : forall x, layer_out li (fun _ => x) 0 = if Rlt_dec x (knot S 1) then 0 else x - knot S 1).
    { intros x. rewrite (layer_out_sum li _ 0%nat Hi (or_introl eq_refl) (le_n 1)). rewrite <- (kink_link0 n_in) by auto.
      change (pw_in li) with 1%nat. cbn [rsum]. apply Rplus_0_l. }
    (* the target segment that contains the kink *)
    set (j := (T / S)%nat).
    assert (PS := INR_pos S HS). assert (PT := INR_pos T HT).
    pose proof (Nat.div_mod T S ltac:(lia)) as DM. pose proof (Nat.mod_upper_bound T S ltac:(lia)) as MB. fold j in DM.
    assert (Hmod : (0 < T mod S)%nat).
    { destruct (Nat.eq_dec (T mod S) 0) as [Z|]; [|lia]. exfalso. apply Hdiv. exists j. lia. }
    assert (Hj : (j < T)%nat) by (apply Nat.div_lt; lia).
    assert (KA : knot T j < knot S 1).
    { unfold knot. assert (X : INR S * INR j < INR T) by (rewrite <- mult_INR; apply lt_INR; lia).
      simpl (INR 1). apply Rplus_lt_compat_l. unfold Rdiv. apply Rmult_lt_reg_r with (INR T * INR S); [nra|].
      replace (2 * INR j * / INR T * (INR T * INR S)) with (2 * (INR S * INR j)) by (field; lra).
      replace (2 * 1 * / INR S * (INR T * INR S)) with (2 * INR T) by (field; lra). lra. }
    assert (KB : knot S 1 < knot T (Datatypes.S j)).
    { unfold knot. assert (X : INR T < INR S * INR (Datatypes.S j)) by (rewrite <- mult_INR; apply lt_INR; nia).
      simpl (INR 1). apply Rplus_lt_compat_l. unfold Rdiv. apply Rmult_lt_reg_r with (INR T * INR S); [nra|].
      replace (2 * INR (Datatypes.S j) * / INR T * (INR T * INR S)) with (2 * (INR S * INR (Datatypes.S j))) by (field; lra).
      replace (2 * 1 * / INR S * (INR T * INR S)) with (2 * INR T) by (field; lra). lra. }
    set (c := knot S 1) in *. set (a := knot T j) in *. set (b := knot T (Datatypes.S j)) in *.
    set (g := piece (with_w lo w') 0 0 j).
    assert (FG : forall x, a <= x < b -> layer_out (with_w lo w') (fun _ => x) 0 = g x).
    { intros x Hx. rewrite F. unfold link0, g. replace (seg (with_w lo w') x) with j; auto. symmetry.
      apply seg_spec; cbn [with_w pw_segments pw_length]; rewrite ?HSo; auto.
      split; [auto|split; right; [apply Hx|apply Hx]]. }
    (* if the functions agreed, g would vanish on the left of the kink, hence everywhere *)
    destruct (Req_dec (g ((c + b) / 2)) ((c + b) / 2 - c)) as [Y|N].
    2:{ exists ((c + b) / 2). rewrite FG, G by lra. destruct (Rlt_dec ((c + b) / 2) c); [lra|exact N]. }
    assert (Pn : forall k, (k < n_out)%nat -> 0 <= INR k < INR n_out) by (intros; split; [apply pos_INR|now apply lt_INR]).
    assert (PN := INR_pos n_out ltac:(lia)).
    set (X := fun k => a + (c - a) * (INR k / INR n_out)).
    assert (XR : forall k, (k < n_out)%nat -> a <= X k < c).
    { intros k Hk. unfold X. specialize (Pn k Hk).
      assert (0 <= INR k / INR n_out < 1).
      { split; [apply Rmult_le_pos; [lra|left; now apply Rinv_0_lt_compat]|].
        apply Rmult_lt_reg_r with (INR n_out); auto. unfold Rdiv. rewrite Rmult_assoc, Rinv_l; lra. }
      nra. }
    assert (DEC : (exists k, (k < n_out)%nat /\ g (X k) <> 0) \/ (forall k, (k < n_out)%nat -> g (X k) = 0)).
    { clear - X g. generalize n_out. intros m. induction m as [|m IH]; [right; intros; lia|].
      destruct IH as [(k & Hk & A)|A]; [left; exists k; split; auto|].
      destruct (Req_dec (g (X m)) 0) as [Z|Z]; [right|left; exists m; split; auto].
      intros k Hk. destruct (Nat.eq_dec k m) as [->|]; auto. apply A. lia. }
    destruct DEC as [(k & Hk & A)|A].
    + exists (X k). specialize (XR k Hk). rewrite FG, G by lra. destruct (Rlt_dec (X k) c); [exact A|lra].
    + exfalso.
      assert (Z : g ((c + b) / 2) = 0).
      { apply (poly_unique n_out g (fun _ => 0) X); auto.
        - rewrite <- Hn. apply (piece_poly (with_w lo w')). cbn. lia.
        - apply poly_lt_zero.
        - intros p q Hp' Hq Hpq Eq. unfold X in Eq.
          assert (INR p / INR n_out = INR q / INR n_out) by nra.
          apply Hpq, INR_eq. apply Rmult_eq_reg_r with (/ INR n_out); auto. apply Rgt_not_eq. now apply Rinv_0_lt_compat. }
      lra.
Qed.
Print Assumptions C18_not_multiple_refuted.

Example C18_not_multiple_case : ~ Nat.divide 2 3.
Proof. intros [k Hk]. lia. Qed.

(** ** C19 *)
Theorem C19_refine_discontinuous_fails : forall li lo,
  held li -> (1 <= pw_segments lo)%nat ->
  refine_discontinuous_polynomial_layer li lo = (pw_w lo, Some ValueError).
Proof.
  intros li lo Hi HS. pose proof (held_wf li Hi) as (_ & _ & I & O & _ & W).
  unfold refine_discontinuous_polynomial_layer, dim. rewrite W. cbn [nth].
  apply mfor_fail; [lia|]. apply mfor_fail; [lia|]. apply mfor_fail; [lia|]. reflexivity.
Qed.
Print Assumptions C19_refine_discontinuous_fails.

Theorem C19_refine_method_fails : forall li lo,
  held li -> discontinuous_class (pw_cls li) -> (1 <= pw_segments lo)%nat -> pw_refine li lo = (pw_w lo, Some ValueError).
Proof.
  intros li lo Hi Hc HS. unfold pw_refine. rewrite (proj1 (disc_class _) Hc). now apply C19_refine_discontinuous_fails.
Qed.
Print Assumptions C19_refine_method_fails.

Example C19_case : pw_refine (demo2 PiecewiseDiscontinuousPolynomial 3 2) (demo2 PiecewiseDiscontinuousPolynomial 3 4)
  = (pw_w (demo2 PiecewiseDiscontinuousPolynomial 3 4), Some ValueError).
Proof. apply C19_refine_method_fails; [apply demo2_held; lia|now left|cbn; lia]. Qed.

(** ** C22 *)
(** [k] successive calls on the same layer. *)
Definition smooth_times (k : nat) (l : piecewise) (factor : R) : mut (tensor R) :=
  mfor k (fun _ w => smooth_discontinuous_layer (with_w l w) factor) (pw_w l).

(** The two weights at the interior boundary between segments [s] and [s+1] of a link. *)
Definition left_pos (n s : nat) : nat := (s * n + (n - 1))%nat.
Definition right_pos (n s : nat) : nat := ((s + 1) * n)%nat.

Theorem C22_smoothing_shrinks_jumps : forall l factor k,
  held l -> discontinuous_class (pw_cls l) -> (2 <= pw_n l)%nat ->
  exists w', smooth_times k l factor = (w', None) /\ shape w' = shape (pw_w l) /\
  (forall o i s, (s + 1 < pw_segments l)%nat ->
     let L (w : tensor R) := at_ w [o; i; left_pos (pw_n l) s] in
     let R (w : tensor R) := at_ w [o; i; right_pos (pw_n l) s] in
     R w' - L w' = (1 - factor) ^ k * (R (pw_w l) - L (pw_w l)) /\
     R w' + L w' = R (pw_w l) + L (pw_w l)) /\
  (forall ix, (forall o i s, (s + 1 < pw_segments l)%nat ->
      ix <> [o; i; left_pos (pw_n l) s] /\ ix <> [o; i; right_pos (pw_n l) s]) ->
     at_ w' ix = at_ (pw_w l) ix).
Proof.
  intros l f k H Hc Hn. unfold smooth_times.
  destruct (mfor_inv (fun k w' => shape w' = shape (pw_w l) /\
  (forall o i s, (s + 1 < pw_segments l)%nat ->
     let L (w : tensor R) := at_ w [o; i; left_pos (pw_n l) s] in
     let R (w : tensor R) := at_ w [o; i; right_pos (pw_n l) s] in
     R w' - L w' = (1 - f) ^ k * (R (pw_w l) - L (pw_w l)) /\
     R w' + L w' = R (pw_w l) + L (pw_w l)) /\
  (forall ix, (forall o i s, (s + 1 < pw_segments l)%nat ->
      ix <> [o; i; left_pos (pw_n l) s] /\ ix <> [o; i; right_pos (pw_n l) s]) ->
     at_ w' ix = at_ (pw_w l) ix)) k (fun _ w => smooth_discontinuous_layer (with_w l w) f) (pw_w l)) as (w' & E & P).
  - repeat split; auto. simpl. ring.
  - intros q w Hq (Sh & J & U).
    destruct (smooth_spec (with_w l w) f) as (w' & E & Sh' & J' & U'); auto; [now apply with_w_held|].
    cbn [with_w pw_w pw_n pw_segments] in *.
    exists w'. split; auto. split; [congruence|]. split.
    + intros o i s Hs. destruct (J o i s Hs) as [A B]. destruct (J' o i s ltac:(lia)) as [A' B'].
      unfold left_pos, right_pos in *. replace ((s + 1) * pw_n l)%nat with (S s * pw_n l)%nat in * by lia.
      rewrite A', B'. cbn [pow]. split; [|lra].
      replace ((1 - f) * (1 - f) ^ q) with ((1 - f) ^ q * (1 - f)) by ring. rewrite Rmult_assoc, (Rmult_comm (1 - f)), <- Rmult_assoc.
      rewrite <- A. lra.
    + intros ix Hix. rewrite U'; [now apply U|]. intros o i s Hs.
      destruct (Hix o i s ltac:(lia)) as [X Y]. unfold left_pos, right_pos in *.
      replace ((s + 1) * pw_n l)%nat with (S s * pw_n l)%nat in * by lia. auto.
  - exists w'. split; [exact E|exact P].
Qed.
Print Assumptions C22_smoothing_shrinks_jumps.

Theorem C22_full_smoothing_is_continuous : forall l o,
  held l -> discontinuous_class (pw_cls l) -> (2 <= pw_n l)%nat -> pw_length l = 2 ->
  (forall p, pw_periodicity l = Some p -> 0 < p) -> (o < pw_out l)%nat ->
  snd (smooth_discontinuous_layer l 1) = None /\
  continuous_vec (pw_in l) (fun v => layer_out (with_w l (fst (smooth_discontinuous_layer l 1))) v o).
Proof.
  intros l o H Hc Hn HL Hp Ho. pose proof (held_wf l H) as (_ & HS & _).
  destruct (smooth_spec l 1 H Hc Hn) as (w' & E & Sh & J & _). rewrite E. split; [reflexivity|]. cbn [fst].
  assert (Hw : held (with_w l w')) by now apply with_w_held.
  change (pw_in l) with (pw_in (with_w l w')). apply layer_continuous_links; auto. intros i.
  apply (continuity_comp (apply_periodicity (pw_periodicity l)) (link0 (with_w l w') o i)).
  - now apply apply_periodicity_continuous.
  - apply link0_continuous_gen; auto. intros s Hs. rewrite piece_right, piece_left by auto.
    rewrite !seg_weight_eq, !weight_pos_eq. cbn [with_w pw_w pw_n pw_cls pw_segments] in *.
    unfold pw_stride. rewrite (proj1 (disc_class _) Hc). rewrite Nat.add_0_r.
    destruct (J o i s Hs) as [-> ->]. lra.
Qed.
Print Assumptions C22_full_smoothing_is_continuous.

Example C22_case : held (demo2 PiecewiseDiscontinuousPolynomial 3 4) /\
  (1 + 1 < pw_segments (demo2 PiecewiseDiscontinuousPolynomial 3 4))%nat /\
  at_ (pw_w (demo2 PiecewiseDiscontinuousPolynomial 3 4)) [0; 0; right_pos 3 1]%nat <>
  at_ (pw_w (demo2 PiecewiseDiscontinuousPolynomial 3 4)) [0; 0; left_pos 3 1]%nat.
Proof. split; [apply demo2_held; lia|]. split; [cbn; lia|]. cbn. lra. Qed.

(** ** C23 *)
Lemma init_link l ms mo ra rb : held l -> pw_cls l <> PiecewisePolynomialProd -> pw_length l = 2 -> (2 <= pw_n l)%nat ->
  exists w', initialize_polynomial_layer l ms mo ra rb = (w', None) /\ shape w' = shape (pw_w l) /\
    forall o i t, (o < pw_out l)%nat -> (i < pw_in l)%nat ->
      link (with_w l w') o i t = ms * (2 * ra o i - 1) * apply_periodicity (pw_periodicity l) t + mo * (2 * rb o i - 1).
Proof.
  intros H Hc HL Hn. pose proof (held_wf l H) as (_ & HS & _).
  destruct (initialize_wrote l ms mo ra rb) as (w' & E & Sh & V); auto.
  exists w'. split; auto. split; auto. intros o i t Ho Hi. assert (Hw : held (with_w l w')) by now apply with_w_held.
  unfold link. cbn [with_w pw_periodicity]. set (x := apply_periodicity _ t).
  assert (P := INR_pos _ HS).
  pose proof (seg_in l x HL HS) as Hin.
  unfold link0, piece. cbn [with_w pw_n]. change (seg (with_w l w') x) with (seg l x). set (s := seg l x) in *.
  set (g := fun t => ms * (ra o i * 2 - 1) * seg_global (pw_segments l) s t + mo * (rb o i * 2 - 1)).
  rewrite (interp_ext _ 2 _ (fun k => g (cheb (pw_n l) k))).
  2:{ intros k Hk. rewrite seg_weight_eq. cbn [with_w pw_w pw_cls pw_n]. apply V; auto. now apply seg_lt. }
  rewrite (interp_ext _ 2 _ (fun k => g (node (pw_n l) 2 k))) by (intros; now rewrite node_2).
  rewrite interp_exact; [|lra|].
  - unfold g. rewrite (x_local_seg (with_w l w')) by auto. cbn [with_w pw_segments].
    unfold seg_global, seg_local. field. lra.
  - unfold g, seg_global. apply (poly_lt_mono 2); [lia|].
    exists (fun j => match j with O => ms * (ra o i * 2 - 1) * (knot (pw_segments l) s + 1 / INR (pw_segments l)) + mo * (rb o i * 2 - 1)
                     | _ => ms * (ra o i * 2 - 1) / INR (pw_segments l) end).
    intros u. simpl. unfold Rdiv. ring.
Qed.

Theorem C23_linear_initialisation : forall l ms mo ra rb,
  held l -> sum_class (pw_cls l) -> pw_length l = 2 -> (2 <= pw_n l)%nat -> 0 <= ms -> 0 <= mo ->
  (forall o i, 0 <= ra o i < 1) -> (forall o i, 0 <= rb o i < 1) ->
  exists w' a b, initialize_polynomial_layer l ms mo ra rb = (w', None) /\ shape w' = shape (pw_w l) /\
    (forall o i, a o i = ms * (2 * ra o i - 1) /\ Rabs (a o i) <= ms) /\
    (forall o i, b o i = mo * (2 * rb o i - 1) /\ Rabs (b o i) <= mo) /\
    forall v o, (o < pw_out l)%nat ->
      layer_out (with_w l w') v o =
      rsum (pw_in l) (fun i => a o i * apply_periodicity (pw_periodicity l) (v i) + b o i).
Proof.
  intros l ms mo ra rb H Hsum HL Hn Hms Hmo Hra Hrb.
  destruct (init_link l ms mo ra rb) as (w' & E & Sh & V); auto.
  { destruct Hsum as [-> | ->]; discriminate. }
  exists w', (fun o i => ms * (2 * ra o i - 1)), (fun o i => mo * (2 * rb o i - 1)).
  split; auto. split; auto. split; [|split].
  - intros o i. split; auto. specialize (Hra o i). apply Rabs_le. nra.
  - intros o i. split; auto. specialize (Hrb o i). apply Rabs_le. nra.
  - intros v o Ho. assert (Hw : held (with_w l w')) by now apply with_w_held.
    rewrite layer_out_sum by auto. cbn [with_w pw_in]. apply rsum_ext. intros i Hi. now apply V.
Qed.
Print Assumptions C23_linear_initialisation.

(** Continuous product layers are not touched. *)
Theorem C23_other_types_untouched : forall l ms mo ra rb, pw_cls l = PiecewisePolynomialProd ->
  initialize_polynomial_layer l ms mo ra rb = (pw_w l, None).
Proof. intros l ms mo ra rb H. unfold initialize_polynomial_layer. now rewrite H. Qed.
Print Assumptions C23_other_types_untouched.

Example C23_case : held (demo2 PiecewisePolynomial 3 4) /\ sum_class (pw_cls (demo2 PiecewisePolynomial 3 4)) /\
  pw_length (demo2 PiecewisePolynomial 3 4) = 2.
Proof. split; [apply demo2_held; lia|]. split; [now left|reflexivity]. Qed.

(** ** C56: product layers cannot be p-refined *)
Theorem C56_product_layers_not_interpolated : forall li lo,
  held li -> held lo -> ~ sum_class (pw_cls li) -> pw_segments li = pw_segments lo ->
  interpolate_polynomial_layer li lo = (pw_w lo, Some UnboundLocalError).
Proof.
  intros li lo Hi Ho Hc HS. pose proof (held_wf li Hi) as (_ & S & I & O & _ & W).
  pose proof (held_wf lo Ho) as (_ & _ & _ & _ & Po & _).
  unfold interpolate_polynomial_layer. rewrite HS, Nat.eqb_refl. cbn [negb].
  destruct (column_ok (lb_X (poly_basis (pw_poly lo))) (pw_n lo)) as (x & Ex & _).
  { rewrite Po, pw_poly_of_eq. cbn. apply basis_X_shape. }
  rewrite Ex. cbn [mbind]. unfold dim. rewrite W. cbn [nth].
  assert (N : offset_end (pw_cls li) = None).
  { unfold sum_class in Hc. destruct (pw_cls li); cbn; auto; exfalso; auto. }
  rewrite N. apply mfor_fail; [lia|]. apply mfor_fail; [lia|]. apply mfor_fail; [lia|]. reflexivity.
Qed.
Print Assumptions C56_product_layers_not_interpolated.

Example C56_case : interpolate_polynomial_layer (demo2 PiecewisePolynomialProd 3 4) (demo2 PiecewisePolynomialProd 5 4)
  = (pw_w (demo2 PiecewisePolynomialProd 5 4), Some UnboundLocalError).
Proof.
  apply C56_product_layers_not_interpolated; try (apply demo2_held; lia); [|reflexivity].
  intros [X|X]; discriminate.
Qed.

(** ** C57: p-refinement from a continuous into a discontinuous layer is accepted but wrong *)
Theorem C57_mixed_kinds_silently_wrong : forall li n_out,
  held li -> pw_cls li = PiecewisePolynomial -> pw_length li = 2 -> pw_periodicity li = None ->
  (2 <= pw_segments li)%nat -> (2 <= n_out)%nat ->
  exists lo, held lo /\ pw_cls lo = PiecewiseDiscontinuousPolynomial /\ pw_n lo = n_out /\
    pw_segments lo = pw_segments li /\ pw_in lo = pw_in li /\ pw_out lo = pw_out li /\
    pw_length lo = 2 /\ pw_periodicity lo = None /\
    snd (interpolate_polynomial_layer li lo) = None /\
    exists v o, (o < pw_out li)%nat /\
      layer_out (with_w lo (fst (interpolate_polynomial_layer li lo))) v o <> layer_out li v o.
Proof.
  intros li n Hi Hc HL Hp HS Hn. pose proof (held_wf li Hi) as (Ni & Si & Ii & Oi & Pi & Wi).
  set (S := pw_segments li) in *.
  set (val := (layer_out li (fun _ => 1) 0 + 1) / INR (pw_in li)).
  set (l0 := new_piecewise PiecewiseDiscontinuousPolynomial n (pw_in li) (pw_out li) S 2 1 None (fun _ _ => 0)).
  set (lo := with_w l0 (mkT (shape (pw_w l0)) (fun _ => val))).
  assert (Ho : held lo) by (apply with_w_held; [apply new_held; lia|reflexivity]).
  destruct (interpolate_wrote li lo Hi Ho) as (w' & E & Sh & V & U); auto; [left; auto| |].
  { rewrite Hc. cbn -[Nat.mul]. fold S. nia. }
  exists lo. do 8 (split; [auto|]). rewrite E. split; [reflexivity|]. cbn [fst].
  exists (fun _ => 1), 0%nat. split; [lia|].
  assert (Hw : held (with_w lo w')) by now apply with_w_held.
  assert (X : layer_out (with_w lo w') (fun _ => 1) 0 = layer_out li (fun _ => 1) 0 + 1).
  { rewrite layer_out_sum; [|auto|now right|cbn; lia].
    rewrite (rsum_ext _ _ (fun _ => val)).
    - change (pw_in (with_w lo w')) with (pw_in li). rewrite rsum_const. unfold val. field.
      apply Rgt_not_eq. now apply INR_pos.
    - intros i Hi'. unfold link. cbn [with_w pw_periodicity lo l0 new_piecewise apply_periodicity].
      assert (Es : seg (with_w lo w') 1 = (S - 1)%nat).
      { apply seg_spec; try reflexivity; [exact Si|change (pw_segments (with_w lo w')) with S; lia|].
        change (pw_segments (with_w lo w')) with S. split; [lia|split; [right|left; lia]].
        rewrite <- (knot_S S Si). apply knot_le; auto. lia. }
      unfold link0. rewrite Es.
      assert (K : 1 = knot S (Datatypes.S (S - 1))) by (replace (Datatypes.S (S - 1)) with S by lia; now rewrite knot_S).
      rewrite K. change S with (pw_segments (with_w lo w')) at 2.
      rewrite piece_right by (try reflexivity; auto).
      rewrite seg_weight_eq. cbn [with_w pw_w]. rewrite U; [reflexivity|].
      intros o' i' s k Hs Hk Q. injection Q as _ _ Q. rewrite Hc in Q.
      change (pw_cls (with_w lo w')) with PiecewiseDiscontinuousPolynomial in Q.
      change (pw_n (with_w lo w')) with n in Q. change (pw_n lo) with n in *. cbn [weight_pos] in Q. fold S in Hs.
      assert (s * (n - 1) + k <= S * (n - 1))%nat by nia. nia. }
  rewrite X. lra.
Qed.
Print Assumptions C57_mixed_kinds_silently_wrong.

Example C57_case : held (demo2 PiecewisePolynomial 3 4) /\ (2 <= pw_segments (demo2 PiecewisePolynomial 3 4))%nat.
Proof. split; [apply demo2_held; lia|cbn; lia]. Qed.

(** ** C58 *)
(** Smoothing a piecewise constant layer (n = 1): the slices do not line up. *)
Theorem C58_smoothing_constant_layers_fails : forall l factor,
  held l -> discontinuous_class (pw_cls l) -> pw_n l = 1%nat -> (2 <= pw_segments l)%nat ->
  snd (smooth_discontinuous_layer l factor) = Some RuntimeError /\
  (pw_segments l <> 3%nat -> fst (smooth_discontinuous_layer l factor) = pw_w l).
Proof.
  intros l f H Hc Hn HS. pose proof (held_wf l H) as (_ & _ & _ & _ & _ & W). apply disc_class in Hc.
  unfold smooth_discontinuous_layer. rewrite Hc, Hn. unfold dim. rewrite W. cbn [nth].
  unfold pw_num_weights. rewrite Hc, Hn, Nat.mul_1_l. set (S := pw_segments l) in *. clearbody S.
  assert (Q : S = 2%nat \/ S = 3%nat \/ exists q, S = (4 + q)%nat).
  { destruct S as [|[|[|[|q]]]]; try lia; auto. right; right; exists q; lia. }
  destruct Q as [->|[->|[q ->]]].
  - split; reflexivity.
  - split; [reflexivity|congruence].
  - assert (A : slice_len (1 - 1) (4 + q - 1) 1 = (3 + q)%nat).
    { unfold slice_len. destruct (Nat.leb_spec (4 + q - 1) (1 - 1)); [lia|]. rewrite Nat.div_1_r. lia. }
    assert (B : slice_len 1 (4 + q - 1) 1 = (2 + q)%nat).
    { unfold slice_len. destruct (Nat.leb_spec (4 + q - 1) 1); [lia|]. rewrite Nat.div_1_r. lia. }
    rewrite A, B. unfold bsize.
    destruct (Nat.eqb_spec (3 + q) (2 + q)); [lia|]. destruct (Nat.eqb_spec (2 + q) 1); [lia|].
    destruct (Nat.eqb_spec (3 + q) 1); [lia|]. split; reflexivity.
Qed.
Print Assumptions C58_smoothing_constant_layers_fails.
Example C58_case : snd (smooth_discontinuous_layer (demo2 PiecewiseDiscontinuousPolynomial 1 5) (1/2)) = Some RuntimeError.
Proof. apply C58_smoothing_constant_layers_fails; [apply demo2_held; lia|now left|reflexivity|cbn; lia]. Qed.
