(** * Properties of the fully connected layers (C04-C12, C14, C53). *)
From Coq Require Import Reals ZArith List Lia Lra Psatz.
From Flocq Require Import Core.Raux.
From Verif Require Import Spec Tensor Utils LagrangePolynomial Basis PolynomialLayers Observe
  SumFacts TensorFacts LagrangeFacts LayerFacts SegmentFacts LayerProofs.
Import ListNotations.
Local Open Scope R_scope.

(** A layer used in the examples: 3 nodes, 2 inputs, 1 output, 4 segments, weights 0, 1, 2, ... *)
Definition demo (c : pw_class) : piecewise :=
  let l := new_piecewise c 3 2 1 4 2 1 None (fun _ _ => 1/2) in
  with_w l (mkT (shape (pw_w l)) (fun ix => INR (nth 2 ix 0%nat))).
Example demo_held : forall c, held (demo c).
Proof. intros c. apply with_w_held; [apply new_held; lia|reflexivity]. Qed.

(** ** C04 *)
Theorem C04_constant_init_piecewise : forall c n I O S len mag per draw v o,
  (1 <= n)%nat -> (1 <= S)%nat -> (1 <= I)%nat -> (o < O)%nat -> sum_class c ->
  layer_out (new_piecewise c n I O S len mag per draw) v o
  = rsum I (fun i => draw o i * mag / INR I).
Proof.
  intros c n I O S len mag per draw v o Hn HS HI Ho Hc.
  assert (H : held (new_piecewise c n I O S len mag per draw)) by (apply new_held; lia).
  rewrite layer_out_sum by auto. apply rsum_ext. intros i Hi.
  apply link_const; auto.
Qed.
Print Assumptions C04_constant_init_piecewise.

Theorem C04_constant_init_polynomial : forall n I O len mag per draw x B,
  (1 <= n)%nat -> 0 < len -> shape x = [B; I] ->
  exists y, Function_forward (Polynomial n I O len mag per draw) x = Ok y /\ shape y = [B; O] /\
   forall b o, (b < B)%nat -> (o < O)%nat -> at_ y [b; o] = rsum I (fun i => draw o i * mag / INR I).
Proof.
  intros n I O len mag per draw x B Hn Hlen Hx.
  set (b0 := lb_basis (get_lagrange_basis n len)).
  assert (Hnb : BasisFlat_num_basis n b0 = n).
  { unfold BasisFlat_num_basis, b0, get_lagrange_basis. destruct (Nat.eqb_spec n 1) as [->|]; [reflexivity|].
    destruct n; [lia|reflexivity]. }
  destruct (function_spec n b0 per (constant_random_initialization O I (BasisFlat_num_basis n b0) mag draw) x B I O) as (y & E & Hs & Hy);
    [auto|cbn; now rewrite Hnb|auto|].
  exists y. split; [exact E|]. split; [exact Hs|]. intros b o Hb Ho. rewrite Hy by auto.
  apply rsum_ext. intros i Hi. cbn [at_ constant_random_initialization].
  rewrite rsum_scal_r.
  assert (P := lag_partition n len (apply_periodicity per (at_ x [b; i])) ltac:(lra) Hn).
  change (rsum n (call b0 (apply_periodicity per (at_ x [b; i]))) = 1) in P.
  etransitivity; [apply f_equal2; [exact P|reflexivity]|]. apply Rmult_1_l.
Qed.
Print Assumptions C04_constant_init_polynomial.

(** With draws in [[0,1)] the constant is between 0 and the weight magnitude. *)
Theorem C04_constant_init_range : forall c n I O S len mag per draw v o,
  (1 <= n)%nat -> (1 <= S)%nat -> (1 <= I)%nat -> (o < O)%nat -> sum_class c -> 0 <= mag ->
  (forall o i, 0 <= draw o i < 1) ->
  0 <= layer_out (new_piecewise c n I O S len mag per draw) v o <= mag.
Proof.
  intros c n I O S len mag per draw v o Hn HS HI Ho Hc Hm Hd.
  rewrite C04_constant_init_piecewise by auto.
  assert (P := INR_pos I HI).
  assert (B : forall i, 0 <= draw o i * mag / INR I <= mag / INR I).
  { intros i. specialize (Hd o i). assert (0 < / INR I) by now apply Rinv_0_lt_compat.
    unfold Rdiv. split; [apply Rmult_le_pos; [nra|lra]|]. apply Rmult_le_compat_r; [lra|]. nra. }
  split; [apply rsum_nonneg; intros; apply B|].
  apply Rle_trans with (rsum I (fun _ => mag / INR I)); [apply rsum_le; intros; apply B|].
  rewrite rsum_const. right. field. lra.
Qed.
Print Assumptions C04_constant_init_range.

Theorem C04_constant_init_polynomial_range : forall n I O len mag per draw x B,
  (1 <= n)%nat -> (1 <= I)%nat -> 0 < len -> 0 <= mag -> (forall o i, 0 <= draw o i < 1) -> shape x = [B; I] ->
  exists y, Function_forward (Polynomial n I O len mag per draw) x = Ok y /\
   forall b o, (b < B)%nat -> (o < O)%nat -> 0 <= at_ y [b; o] <= mag.
Proof.
  intros n I O len mag per draw x B Hn HI Hlen Hm Hd Hx.
  destruct (C04_constant_init_polynomial n I O len mag per draw x B Hn Hlen Hx) as (y & E & _ & V).
  exists y. split; [exact E|]. intros b o Hb Ho. rewrite V by auto.
  rewrite <- (C04_constant_init_piecewise PiecewisePolynomial n I O 1 len mag per draw (fun _ => 0) o) by (auto; now left).
  apply C04_constant_init_range; auto. now left.
Qed.
Print Assumptions C04_constant_init_polynomial_range.

Example C04_case : layer_out (new_piecewise PiecewisePolynomial 5 2 1 7 2 1 (Some 2) (fun _ _ => 1/2)) (fun _ => 37) 0 = 1/2.
Proof. rewrite C04_constant_init_piecewise; try lia; [|now left]. simpl. lra. Qed.

(** Number of weights per link: neighbouring segments of a continuous layer share one. *)
Theorem C04_number_of_weights : forall n I O S len mag per draw, (1 <= n)%nat ->
  (forall c, continuous_class c -> shape (pw_w (new_piecewise c n I O S len mag per draw)) = [O; I; (n - 1) * S + 1]%nat) /\
  (forall c, discontinuous_class c -> shape (pw_w (new_piecewise c n I O S len mag per draw)) = [O; I; n * S]%nat) /\
  shape (f_w (Polynomial n I O len mag per draw)) = [O; I; n] /\
  shape (f_w (FourierSeries n I O len mag per draw)) = [O; I; n].
Proof.
  intros n I O S len mag per draw Hn. split; [|split; [|split]].
  - intros c [-> | ->]; reflexivity.
  - intros c [-> | ->]; reflexivity.
  - unfold Polynomial. cbn [f_w constant_random_initialization shape]. unfold BasisFlat_num_basis, get_lagrange_basis. destruct (Nat.eqb_spec n 1) as [->|]; [reflexivity|]. now destruct n.
  - reflexivity.
Qed.
Print Assumptions C04_number_of_weights.

(** ** C05 *)
Theorem C05_segment_in_range : forall l x, held l ->
  (0 <= which_segment l x < Z.of_nat (pw_segments l))%Z.
Proof. intros l x H. apply held_wf in H. destruct H as (_ & HS & _). now apply segment_index_range. Qed.
Print Assumptions C05_segment_in_range.

(** Whatever integer [k] the float-to-integer cast returns, clamping puts it in range. *)
Theorem C05_any_cast_in_range : forall l k, held l ->
  (0 <= clampZ 0 (Z.of_nat (pw_segments l) - 1) k < Z.of_nat (pw_segments l))%Z.
Proof.
  intros l k H. apply held_wf in H. destruct H as (_ & HS & _).
  pose proof (clampZ_range 0 (Z.of_nat (pw_segments l) - 1) k). lia.
Qed.
Print Assumptions C05_any_cast_in_range.

Theorem C05_segment_contains_input : forall l x s, held l -> pw_length l = 2 -> pw_periodicity l = None ->
  (which_segment l x = Z.of_nat s <-> in_segment (pw_segments l) s x).
Proof.
  intros l x s H HL Hp. apply held_wf in H. destruct H as (_ & HS & _).
  rewrite which_segment_seg by auto. rewrite Hp. cbn [apply_periodicity].
  split.
  - intros E. apply Nat2Z.inj in E. apply seg_spec; auto. subst s. now apply seg_lt.
  - intros Hin. f_equal. apply seg_spec; auto. apply Hin.
Qed.
Print Assumptions C05_segment_contains_input.

(** Below the domain the first segment, above it the last one. *)
Theorem C05_outside_uses_end_segments : forall l x, held l -> pw_length l = 2 -> pw_periodicity l = None ->
  (x < -1 -> which_segment l x = 0%Z) /\ (1 <= x -> which_segment l x = (Z.of_nat (pw_segments l) - 1)%Z).
Proof.
  intros l x H HL Hp. pose proof (held_wf l H) as (_ & HS & _). split; intros Hx.
  - apply (C05_segment_contains_input l x 0); auto. split; [lia|split; [now left|]].
    right. pose proof (knot_lt (pw_segments l) 0 1 HS ltac:(lia)) as K. rewrite knot_0 in K. lra.
  - replace (Z.of_nat (pw_segments l) - 1)%Z with (Z.of_nat (pw_segments l - 1)) by lia.
    apply C05_segment_contains_input; auto. split; [lia|split; [|left; lia]].
    right. assert (knot (pw_segments l) (pw_segments l - 1) <= knot (pw_segments l) (pw_segments l)) by (apply knot_le; auto; lia).
    rewrite knot_S in * by auto. lra.
Qed.
Print Assumptions C05_outside_uses_end_segments.

Example C05_case : which_segment (demo PiecewisePolynomial) (1/4) = 2%Z.
Proof.
  apply (C05_segment_contains_input (demo PiecewisePolynomial) (1/4) 2); [apply demo_held|reflexivity|reflexivity|].
  unfold in_segment, knot. simpl. repeat split; try lia; right; lra.
Qed.

(** ** C06 *)
(** The weights of segment s of link (o,i) determine, by interpolation at the Chebyshev-Lobatto
    points, a polynomial P o i s in the local coordinate; the output is the sum over the inputs of
    the polynomial of the segment the input lies in. *)
Theorem C06_piecewise_layer_function : forall l x B (P : nat -> nat -> nat -> R -> R),
  held l -> pw_length l = 2 -> pw_periodicity l = None -> sum_class (pw_cls l) ->
  shape x = [B; pw_in l] ->
  (forall o i s, interpolates (pw_n l)
     (fun k => at_ (pw_w l) [o; i; weight_pos (pw_cls l) (pw_n l) s k]) (P o i s)) ->
  exists y, Piecewise_forward l x = Ok y /\ shape y = [B; pw_out l] /\
    forall b o (sel : nat -> nat), (b < B)%nat -> (o < pw_out l)%nat ->
      (forall i, (i < pw_in l)%nat -> in_segment (pw_segments l) (sel i) (at_ x [b; i])) ->
      at_ y [b; o] = rsum (pw_in l) (fun i =>
        P o i (sel i) (seg_local (pw_segments l) (sel i) (at_ x [b; i]))).
Proof.
  intros l x B P H HL Hp Hc Hx HP.
  destruct (forward_rows l x B H Hx) as (y & E & Hs & Hy). exists y. repeat split; auto.
  intros b o sel Hb Ho Hsel. rewrite Hy by auto.
  apply (layer_spec l (row x b) o (fun i s => P o i s) sel); auto.
Qed.
Print Assumptions C06_piecewise_layer_function.

(** Such polynomials exist and every input lies in a segment, so the statement is not vacuous. *)
Theorem C06_pieces_exist : forall n v, (1 <= n)%nat -> exists P, interpolates n v P.
Proof. intros n v Hn. exists (interp n 2 v). now apply interp_interpolates. Qed.
Theorem C06_segment_exists : forall S x, (1 <= S)%nat -> exists s, in_segment S s x.
Proof.
  intros S x HS. set (l := new_piecewise PiecewisePolynomial 1 1 1 S 2 1 None (fun _ _ => 0)).
  exists (seg l x). apply (seg_in l x); auto.
Qed.
Theorem C06_product_layer_function : forall l x B (P : nat -> nat -> nat -> R -> R),
  held l -> pw_length l = 2 -> pw_periodicity l = None -> ~ sum_class (pw_cls l) ->
  shape x = [B; pw_in l] ->
  (forall o i s, interpolates (pw_n l)
     (fun k => at_ (pw_w l) [o; i; weight_pos (pw_cls l) (pw_n l) s k]) (P o i s)) ->
  exists y, Piecewise_forward l x = Ok y /\ shape y = [B; pw_out l] /\
    forall b o (sel : nat -> nat), (b < B)%nat -> (o < pw_out l)%nat ->
      (forall i, (i < pw_in l)%nat -> in_segment (pw_segments l) (sel i) (at_ x [b; i])) ->
      at_ y [b; o] = rprod (pw_in l) (fun i =>
        1 + P o i (sel i) (seg_local (pw_segments l) (sel i) (at_ x [b; i]))) - 1.
Proof.
  intros l x B P H HL Hp Hc Hx HP.
  destruct (forward_rows l x B H Hx) as (y & E & Hs & Hy). exists y. repeat split; auto.
  intros b o sel Hb Ho Hsel. rewrite Hy, layer_out_eq by auto.
  assert (Ha : alpha_of (pw_cls l) = Some 1).
  { unfold sum_class in Hc. destruct (pw_cls l); cbn; tauto. }
  rewrite Ha. cbn [combine_links]. replace (1 - 1) with 0 by ring. rewrite Rmult_0_l, Rplus_0_r.
  f_equal. apply rprod_ext. intros i Hi. rewrite Rplus_comm. f_equal.
  unfold link. rewrite Hp. cbn [apply_periodicity]. eapply link0_spec; eauto.
Qed.
Print Assumptions C06_product_layer_function.

(** ** C07 *)
Theorem C07_weights_are_node_values : forall l v o (s k : nat -> nat),
  held l -> pw_length l = 2 -> pw_periodicity l = None -> sum_class (pw_cls l) -> (o < pw_out l)%nat ->
  (forall i, (i < pw_in l)%nat -> (s i < pw_segments l)%nat /\ (k i < pw_n l)%nat /\
     v i = seg_global (pw_segments l) (s i) (lobatto (pw_n l) (k i)) /\
     (continuous_class (pw_cls l) \/ (k i + 1 < pw_n l)%nat \/ (s i + 1)%nat = pw_segments l)) ->
  layer_out l v o = rsum (pw_in l) (fun i => at_ (pw_w l) [o; i; weight_pos (pw_cls l) (pw_n l) (s i) (k i)]).
Proof.
  intros l v o s k H HL Hp Hc Ho Hv. rewrite layer_out_sum by auto. apply rsum_ext. intros i Hi.
  destruct (Hv i Hi) as (H1 & H2 & -> & H4). unfold link. rewrite Hp. cbn [apply_periodicity].
  apply link0_node; auto. tauto.
Qed.
Print Assumptions C07_weights_are_node_values.

Example C07_case : layer_out (demo PiecewisePolynomial) (fun i => if Nat.eqb i 0 then -1 else 0) 0 = 0 + 4.
Proof.
  rewrite (C07_weights_are_node_values _ _ _ (fun i => if Nat.eqb i 0 then 0%nat else 1%nat) (fun i => if Nat.eqb i 0 then 0%nat else 2%nat));
    try apply demo_held; try reflexivity; [|now left|cbn; lia|].
  - cbn. lra.
  - intros i Hi. change (i < 2)%nat in Hi.
    change (pw_segments (demo PiecewisePolynomial)) with 4%nat. change (pw_n (demo PiecewisePolynomial)) with 3%nat.
    assert (L0 : lobatto 3 0 = -1) by (rewrite lobatto_cheb by lia; apply cheb_first; lia).
    assert (L2 : lobatto 3 2 = 1) by (rewrite lobatto_cheb by lia; apply (cheb_last 3); lia).
    assert (I4 : INR 4 = 4) by (simpl; ring). assert (I1 : INR 1 = 1) by reflexivity. assert (I0 : INR 0 = 0) by reflexivity.
    destruct i as [|[|]]; cbn [Nat.eqb]; [| |lia]; (split; [lia|split; [lia|split; [|left; now left]]]);
      unfold seg_global, knot; rewrite ?L0, ?L2, ?I4, ?I1, ?I0; lra.
Qed.

(** ** C08 *)
Theorem C08_continuous_everywhere : forall l o,
  held l -> pw_length l = 2 -> continuous_class (pw_cls l) ->
  (forall p, pw_periodicity l = Some p -> 0 < p) -> (o < pw_out l)%nat ->
  continuous_vec (pw_in l) (fun v => layer_out l v o).
Proof. exact layer_continuous_all. Qed.
Print Assumptions C08_continuous_everywhere.

Example C08_case : continuous_vec 2 (fun v => layer_out (demo PiecewisePolynomial) v 0).
Proof.
  apply (C08_continuous_everywhere (demo PiecewisePolynomial)); [apply demo_held|reflexivity|now left|discriminate|cbn; lia].
Qed.

(** ** C09 *)
Theorem C09_continuous_off_boundaries : forall l o v,
  held l -> pw_length l = 2 -> pw_periodicity l = None -> sum_class (pw_cls l) -> (o < pw_out l)%nat ->
  (forall i s, (i < pw_in l)%nat -> (0 < s < pw_segments l)%nat -> v i <> knot (pw_segments l) s) ->
  forall eps, 0 < eps -> exists d, 0 < d /\
    forall u, (forall i, (i < pw_in l)%nat -> Rabs (u i - v i) < d) ->
      Rabs (layer_out l u o - layer_out l v o) < eps.
Proof.
  intros l o v H HL Hp Hc Ho Hv.
  assert (G : forall m, (m <= pw_in l)%nat -> forall eps, 0 < eps -> exists d, 0 < d /\
    forall u, (forall i, (i < pw_in l)%nat -> Rabs (u i - v i) < d) ->
      Rabs (rsum m (fun i => link l o i (u i)) - rsum m (fun i => link l o i (v i))) < eps).
  { induction m; intros Hm eps Heps.
    - exists 1. split; [lra|]. intros. simpl. rewrite Rminus_diag_eq, Rabs_R0; auto.
    - destruct (IHm ltac:(lia) (eps/2) ltac:(lra)) as (d1 & Hd1 & P1).
      assert (C : continuity_pt (link0 l o m) (v m)) by (apply link0_cont_off_knots; auto).
      destruct (proj1 (continuity_eps _ _) C (eps/2) ltac:(lra)) as (d2 & Hd2 & P2).
      exists (Rmin d1 d2). split; [now apply Rmin_pos|]. intros u Hu. simpl.
      assert (A1 := P1 u (fun i Hi => Rlt_le_trans _ _ _ (Hu i Hi) (Rmin_l d1 d2))).
      assert (A2 := P2 (u m) (Rlt_le_trans _ _ _ (Hu m Hm) (Rmin_r d1 d2))).
      unfold link at 2 4. rewrite Hp. cbn [apply_periodicity].
      replace (_ - _) with ((rsum m (fun i => link l o i (u i)) - rsum m (fun i => link l o i (v i))) + (link0 l o m (u m) - link0 l o m (v m))) by ring.
      eapply Rle_lt_trans; [apply Rabs_triang|lra]. }
  intros eps Heps. destruct (G (pw_in l) (Nat.le_refl _) eps Heps) as (d & Hd & P).
  exists d. split; auto. intros u Hu. rewrite !layer_out_sum by auto. auto.
Qed.
Print Assumptions C09_continuous_off_boundaries.

(** At the boundary between segments s and s+1 of input i the output jumps, from left to right, by
    the first weight of segment s+1 minus the last weight of segment s. *)
Theorem C09_jump_is_weight_difference : forall l o i s v,
  held l -> pw_length l = 2 -> pw_periodicity l = None -> pw_cls l = PiecewiseDiscontinuousPolynomial ->
  (2 <= pw_n l)%nat -> (o < pw_out l)%nat -> (i < pw_in l)%nat -> (s + 1 < pw_segments l)%nat ->
  let k := knot (pw_segments l) (s + 1) in
  let jump := at_ (pw_w l) [o; i; (s + 1) * pw_n l]%nat - at_ (pw_w l) [o; i; s * pw_n l + (pw_n l - 1)]%nat in
  forall eps, 0 < eps -> exists d, 0 < d /\ forall y, k - d < y < k ->
    Rabs ((layer_out l (set_entry v i k) o - layer_out l (set_entry v i y) o) - jump) < eps.
Proof.
  intros l o i s v H HL Hp Hc Hn Ho Hi Hs.
  replace (s + 1)%nat with (S s) in * by lia. intros k jump eps Heps.
  destruct (link0_left_limit l o i s H HL Hn Hs eps Heps) as (d & Hd & P).
  exists d. split; auto. intros y Hy.
  assert (E : layer_out l (set_entry v i k) o - layer_out l (set_entry v i y) o = link0 l o i k - link0 l o i y).
  { rewrite !layer_out_sum by (auto; right; auto). rewrite <- rsum_minus.
    rewrite (rsum_single (pw_in l) i); auto.
    - unfold link, set_entry. rewrite Hp, Nat.eqb_refl. reflexivity.
    - intros j _ Hj. unfold set_entry. apply Nat.eqb_neq in Hj. rewrite Hj. ring. }
  rewrite E. unfold k at 1. rewrite link0_at_knot by (auto; lia).
  assert (J : jump = seg_weight l o i (S s) 0 - seg_weight l o i s (pw_n l - 1)).
  { unfold jump. rewrite !seg_weight_eq, Hc. cbn [weight_pos]. now rewrite Nat.add_0_r. }
  rewrite J. specialize (P y Hy).
  replace (_ - _) with (- (link0 l o i y - seg_weight l o i s (pw_n l - 1))) by ring.
  now rewrite Rabs_Ropp.
Qed.
Print Assumptions C09_jump_is_weight_difference.

(** At the boundary itself the right segment is used. *)
Theorem C09_right_value_at_boundary : forall l o s v,
  held l -> pw_length l = 2 -> pw_periodicity l = None -> pw_cls l = PiecewiseDiscontinuousPolynomial ->
  (2 <= pw_n l)%nat -> (o < pw_out l)%nat ->
  (forall i, (i < pw_in l)%nat -> (s i < pw_segments l)%nat /\ v i = knot (pw_segments l) (s i)) ->
  layer_out l v o = rsum (pw_in l) (fun i => at_ (pw_w l) [o; i; s i * pw_n l]%nat).
Proof.
  intros l o s v H HL Hp Hc Hn Ho Hv. rewrite layer_out_sum by (auto; right; auto).
  apply rsum_ext. intros i Hi. destruct (Hv i Hi) as [Hs ->]. unfold link. rewrite Hp. cbn [apply_periodicity].
  rewrite link0_at_knot, seg_weight_eq, Hc by auto. cbn. now rewrite Nat.add_0_r.
Qed.
Print Assumptions C09_right_value_at_boundary.

Example C09_case : held (demo PiecewiseDiscontinuousPolynomial) /\ (1 + 1 < pw_segments (demo PiecewiseDiscontinuousPolynomial))%nat
  /\ knot 4 2 = 0.
Proof. split; [apply demo_held|]. split; [cbn; lia|]. unfold knot. simpl. lra. Qed.

(** ** C10 *)
Theorem C10_only_active_segment_matters : forall l w1 w2 v o,
  held l -> shape w1 = shape (pw_w l) -> shape w2 = shape (pw_w l) -> (o < pw_out l)%nat ->
  (forall i k, (i < pw_in l)%nat -> (k < pw_n l)%nat ->
     let s := Z.to_nat (which_segment l (v i)) in
     at_ w1 [o; i; weight_pos (pw_cls l) (pw_n l) s k] = at_ w2 [o; i; weight_pos (pw_cls l) (pw_n l) s k]) ->
  layer_out (with_w l w1) v o = layer_out (with_w l w2) v o.
Proof. exact locality. Qed.
Print Assumptions C10_only_active_segment_matters.

Example C10_case :
  layer_out (with_w (demo PiecewisePolynomial) (upd (pw_w (demo PiecewisePolynomial)) [0; 0; 0]%nat 99)) (fun _ => 1/4) 0
  = layer_out (demo PiecewisePolynomial) (fun _ => 1/4) 0.
Proof.
  apply (C10_only_active_segment_matters (demo PiecewisePolynomial) _ (pw_w (demo PiecewisePolynomial)));
    [apply demo_held|reflexivity|reflexivity|cbn; lia|].
  intros i k Hi Hk. cbv zeta. rewrite C05_case. rewrite upd_other; auto. intros E. injection E as _ E. cbn in E. lia.
Qed.

(** ** C11 *)
Theorem C11_gradient_zero_outside_active_segment : forall l v o o' i p t,
  held l -> sum_class (pw_cls l) -> (o < pw_out l)%nat -> (i < pw_in l)%nat ->
  (o <> o' \/ forall k, (k < pw_n l)%nat ->
      p <> weight_pos (pw_cls l) (pw_n l) (Z.to_nat (which_segment l (v i))) k) ->
  derivable_pt_lim (fun t => layer_out (with_w l (upd (pw_w l) [o'; i; p] t)) v o) t 0.
Proof.
  intros l v o o' i p t H Hc Ho Hi Hcase.
  pose proof (weight_derivative l v o o' i p t H Hc Ho Hi) as D.
  destruct (Nat.eqb_spec o o') as [E|E]; [|exact D].
  destruct Hcase as [N|N]; [contradiction|].
  rewrite (interp_ext _ _ _ (fun _ => 0)) in D.
  - pose proof (held_wf l H) as (Hn & _). rewrite interp_const in D by (auto; lra). exact D.
  - intros k Hk. unfold delta_at. destruct (Nat.eqb_spec (weight_pos (pw_cls l) (pw_n l) (Z.to_nat (which_segment l (v i))) k) p); auto.
    exfalso. apply (N k Hk). auto.
Qed.
Print Assumptions C11_gradient_zero_outside_active_segment.

(** In the active segment the derivative is the cardinal polynomial of the node. *)
Theorem C11_gradient_in_active_segment : forall l v o i s k t C,
  held l -> sum_class (pw_cls l) -> pw_length l = 2 -> pw_periodicity l = None ->
  (o < pw_out l)%nat -> (i < pw_in l)%nat -> (k < pw_n l)%nat ->
  in_segment (pw_segments l) s (v i) ->
  interpolates (pw_n l) (fun j => if Nat.eqb j k then 1 else 0) C ->
  derivable_pt_lim (fun t => layer_out
     (with_w l (upd (pw_w l) [o; i; weight_pos (pw_cls l) (pw_n l) s k] t)) v o) t
     (C (seg_local (pw_segments l) s (v i))).
Proof.
  intros l v o i s k t C H Hc HL Hp Ho Hi Hk Hin HC. pose proof (held_wf l H) as (Hn & HS & _).
  pose proof (weight_derivative l v o o i (weight_pos (pw_cls l) (pw_n l) s k) t H Hc Ho Hi) as D.
  rewrite Nat.eqb_refl in D.
  assert (E : which_segment l (v i) = Z.of_nat s) by (apply C05_segment_contains_input; auto).
  rewrite E, Nat2Z.id, Hp in D. cbn [apply_periodicity] in D. rewrite x_local_seg in D by auto.
  rewrite <- (interpolates_interp (pw_n l) _ C Hn HC).
  rewrite (interp_ext _ _ _ (fun j => if Nat.eqb j k then 1 else 0)) in D; auto.
  intros j Hj. unfold delta_at. destruct (Nat.eqb_spec j k) as [->|N]; [now rewrite Nat.eqb_refl|].
  destruct (Nat.eqb_spec (weight_pos (pw_cls l) (pw_n l) s j) (weight_pos (pw_cls l) (pw_n l) s k)) as [W|W]; auto.
  apply weight_pos_inj in W; auto. contradiction.
Qed.
Print Assumptions C11_gradient_in_active_segment.

Example C11_case : which_segment (demo PiecewisePolynomial) (1/4) = 2%Z /\
  (forall k, (k < 3)%nat -> 3%nat <> weight_pos PiecewisePolynomial 3 2 k).
Proof. split; [exact C05_case|]. cbn. lia. Qed.

(** ** C12 *)
Theorem C12_samples_independent_piecewise : forall l x x' y y' B B' b b' o,
  held l -> shape x = [B; pw_in l] -> shape x' = [B'; pw_in l] -> (b < B)%nat -> (b' < B')%nat -> (o < pw_out l)%nat ->
  (forall i, (i < pw_in l)%nat -> at_ x [b; i] = at_ x' [b'; i]) ->
  Piecewise_forward l x = Ok y -> Piecewise_forward l x' = Ok y' ->
  at_ y [b; o] = at_ y' [b'; o].
Proof.
  intros l x x' y y' B B' b b' o H Hx Hx' Hb Hb' Ho E Hy Hy'.
  destruct (forward_rows l x B H Hx) as (y1 & E1 & _ & V1).
  destruct (forward_rows l x' B' H Hx') as (y2 & E2 & _ & V2).
  rewrite Hy in E1. injection E1 as <-. rewrite Hy' in E2. injection E2 as <-.
  rewrite V1, V2, !layer_out_eq by auto. apply combine_ext. intros i Hi. unfold row. now rewrite E.
Qed.
Print Assumptions C12_samples_independent_piecewise.

Theorem C12_samples_independent_function : forall n bs p w x x' y y' B B' I O b b' o,
  (1 <= n)%nat -> shape w = [O; I; n] -> shape x = [B; I] -> shape x' = [B'; I] ->
  (b < B)%nat -> (b' < B')%nat -> (o < O)%nat ->
  (forall i, (i < I)%nat -> at_ x [b; i] = at_ x' [b'; i]) ->
  Function_forward (mkFunc n bs p w) x = Ok y -> Function_forward (mkFunc n bs p w) x' = Ok y' ->
  at_ y [b; o] = at_ y' [b'; o].
Proof.
  intros n bs p w x x' y y' B B' I O b b' o Hn Hw Hx Hx' Hb Hb' Ho E Hy Hy'.
  destruct (function_spec n bs p w x B I O Hn Hw Hx) as (y1 & E1 & _ & V1).
  destruct (function_spec n bs p w x' B' I O Hn Hw Hx') as (y2 & E2 & _ & V2).
  rewrite Hy in E1. injection E1 as <-. rewrite Hy' in E2. injection E2 as <-.
  rewrite V1, V2 by auto. apply rsum_ext. intros i Hi. now rewrite E.
Qed.
Print Assumptions C12_samples_independent_function.

(** Forward never fails on a batch of the right width, so the previous statements are about all
    batches. *)
Theorem C12_forward_total : forall l x B, held l -> shape x = [B; pw_in l] ->
  exists y, Piecewise_forward l x = Ok y /\ shape y = [B; pw_out l] /\
    forall b o, (b < B)%nat -> (o < pw_out l)%nat -> at_ y [b; o] = layer_out l (row x b) o.
Proof. exact forward_rows. Qed.
Print Assumptions C12_forward_total.

(** ** C14 *)
Theorem C14_layers_mirror_periodic : forall l v o p k i,
  held l -> pw_periodicity l = Some p -> 0 < p -> (o < pw_out l)%nat ->
  layer_out l (set_entry v i (v i + 2 * p * IZR k)) o = layer_out l v o /\
  layer_out l (set_entry v i (p - v i)) o = layer_out l v o.
Proof.
  intros l v o p k i H Hp Hpos Ho. rewrite !layer_out_eq by auto.
  split; apply combine_ext; intros j Hj; unfold set_entry, link; rewrite Hp; cbn [apply_periodicity];
    destruct (Nat.eqb_spec j i) as [->|]; auto.
  - now rewrite make_periodic_period.
  - now rewrite make_periodic_mirror.
Qed.
Print Assumptions C14_layers_mirror_periodic.

Theorem C14_polynomial_mirror_periodic : forall n I O len w p x x' B y y' b o,
  (1 <= n)%nat -> 0 < p -> shape w = [O; I; n] -> shape x = [B; I] -> shape x' = [B; I] ->
  (forall b i, (b < B)%nat -> (i < I)%nat ->
     at_ x' [b; i] = at_ x [b; i] \/ at_ x' [b; i] = p - at_ x [b; i] \/
     exists k, at_ x' [b; i] = at_ x [b; i] + 2 * p * IZR k) ->
  let l := with_fw (Polynomial n I O len 1 (Some p) (fun _ _ => 0)) w in
  Function_forward l x = Ok y -> Function_forward l x' = Ok y' ->
  (b < B)%nat -> (o < O)%nat -> at_ y' [b; o] = at_ y [b; o].
Proof.
  intros n I O len w p x x' B y y' b o Hn Hp Hw Hx Hx' E l Hy Hy' Hb Ho.
  destruct (function_spec n (lb_basis (get_lagrange_basis n len)) (Some p) w x B I O Hn Hw Hx) as (y1 & E1 & _ & V1).
  destruct (function_spec n (lb_basis (get_lagrange_basis n len)) (Some p) w x' B I O Hn Hw Hx') as (y2 & E2 & _ & V2).
  unfold l, with_fw, Polynomial in Hy, Hy'. cbn in Hy, Hy'.
  rewrite Hy in E1. injection E1 as <-. rewrite Hy' in E2. injection E2 as <-.
  rewrite V1, V2 by auto. apply rsum_ext. intros i Hi. cbn [apply_periodicity].
  assert (M : make_periodic (at_ x' [b; i]) p = make_periodic (at_ x [b; i]) p); [|now rewrite M].
  destruct (E b i Hb Hi) as [->|[->|(k & ->)]]; auto; [now apply make_periodic_mirror|now apply make_periodic_period].
Qed.
Print Assumptions C14_polynomial_mirror_periodic.

Example C14_case : held (new_piecewise PiecewisePolynomial 3 2 1 4 2 1 (Some 2) (fun _ _ => 0)).
Proof. apply new_held; lia. Qed.

(** ** C53: a length other than 2 breaks continuity *)

Definition bad_layer (len : R) : piecewise :=
  let l := new_piecewise PiecewisePolynomial 2 1 1 2 len 1 None (fun _ _ => 0) in
  with_w l (mkT (shape (pw_w l)) (fun ix => if Nat.eqb (nth 2 ix 0%nat) 0 then 1 else 0)).

Lemma bad_held len : held (bad_layer len).
Proof. apply with_w_held; [apply new_held; lia|reflexivity]. Qed.

Lemma bad_out len v : 0 < len -> layer_out (bad_layer len) v 0 =
  if Rlt_dec (v 0%nat) 0 then (1 - (len * (v 0%nat + 1) - len / 2)) / 2 else 0.
Proof.
  intros Hlen. rewrite layer_out_sum; [|apply bad_held|now left|cbn; lia].
  cbn [bad_layer with_w new_piecewise pw_in rsum]. rewrite Rplus_0_l.
  unfold link. cbn [apply_periodicity bad_layer with_w new_piecewise pw_periodicity].
  set (x := v 0%nat). unfold link0.
  assert (N0 : node 2 2 0 = -1) by (rewrite node_2; apply cheb_first; lia).
  assert (N1 : node 2 2 1 = 1) by (rewrite node_2; apply (cheb_last 2); lia).
  assert (V : (x + len / 2) / len * 2 = 1 + 2 * x / len) by (field; lra).
  assert (Seg : seg (bad_layer len) x = if Rlt_dec x 0 then 0%nat else 1%nat).
  { unfold seg, segment_index, to_long, pw_half. cbn [bad_layer with_w new_piecewise pw_length pw_segments].
    replace ((x + 1 / 2 * len) / len * INR 2) with (1 + 2 * x / len) by (simpl; field; lra).
    destruct (Rlt_dec x 0) as [Hx|Hx].
    - rewrite (proj2 (clamp_trunc 2 0 (1 + 2 * x / len) ltac:(lia))); [reflexivity|].
      split; auto. right. simpl. assert (2 * x / len < 0); [|lra].
      apply Rmult_lt_reg_r with len; auto. unfold Rdiv. rewrite Rmult_assoc, Rinv_l; lra.
    - rewrite (proj2 (clamp_trunc 2 1 (1 + 2 * x / len) ltac:(lia))); [reflexivity|].
      split; [right|left; auto]. simpl. assert (0 <= 2 * x / len); [|lra].
      apply Rmult_le_pos; [lra|]. left. now apply Rinv_0_lt_compat. }
  rewrite Seg. unfold piece, interp. cbn [bad_layer with_w new_piecewise pw_n rsum].
  rewrite !lag_eq by lia. cbn [rprod Nat.eqb negb]. rewrite N0, N1.
  destruct (Rlt_dec x 0) as [Hx|Hx].
  - rewrite (x_local_eq (bad_layer len) x 0) by (cbn; lia).
    unfold seg_weight. cbn [bad_layer with_w new_piecewise pw_w pw_cls pw_n pw_stride is_continuous_class at_ nth].
    cbn [Nat.mul Nat.add Nat.eqb]. rewrite knot_0. cbn [bad_layer with_w new_piecewise pw_length pw_segments].
    replace (INR 2) with 2 by (simpl; lra). field.
  - unfold seg_weight. cbn [bad_layer with_w new_piecewise pw_w pw_cls pw_n pw_stride is_continuous_class at_ nth].
    cbn [Nat.mul Nat.add Nat.sub Nat.eqb]. ring.
Qed.

(** For every positive length other than 2 there are continuous-class layers, with the given
    length, whose output is not continuous in their input. *)
Theorem C53_other_length_not_continuous_refuted : forall len, 0 < len -> len <> 2 ->
  exists l, held l /\ pw_cls l = PiecewisePolynomial /\ pw_length l = len /\ pw_periodicity l = None /\
    ~ continuous_vec (pw_in l) (fun v => layer_out l v 0).
Proof.
  intros len Hlen Hne. exists (bad_layer len). split; [apply bad_held|]. repeat split.
  intros C. set (g := 1 - len / 2). assert (Hg : g <> 0) by (unfold g; lra).
  assert (Ha : 0 < Rabs g) by now apply Rabs_pos_lt.
  destruct (C (fun _ => 0) (Rabs g / 4)) as (d & Hd & P); [lra|].
  set (h := Rmin (d / 2) (Rabs g / (4 * len))).
  assert (Hh : 0 < h). { apply Rmin_pos; [lra|]. apply Rmult_lt_0_compat; auto. apply Rinv_0_lt_compat. lra. }
  assert (h1 : h <= d / 2) by apply Rmin_l.
  assert (h2 : len * h <= Rabs g / 4).
  { apply Rle_trans with (len * (Rabs g / (4 * len))); [apply Rmult_le_compat_l; [lra|apply Rmin_r]|]. right. field. lra. }
  specialize (P (fun _ => - h)). cbn beta in P. rewrite !bad_out in P by auto. cbn beta in P.
  destruct (Rlt_dec (- h) 0); [|lra]. destruct (Rlt_dec 0 0); [lra|].
  assert (Q : Rabs ((1 - (len * (- h + 1) - len / 2)) / 2 - 0) < Rabs g / 4).
  { apply P. intros i _. replace (- h - 0) with (- h) by ring. rewrite Rabs_Ropp, Rabs_pos_eq; lra. }
  replace ((1 - (len * (- h + 1) - len / 2)) / 2 - 0) with (g / 2 + len * h / 2) in Q by (unfold g; field).
  assert (T : Rabs (g / 2) <= Rabs (g / 2 + len * h / 2) + Rabs (- (len * h / 2))).
  { eapply Rle_trans; [|apply Rabs_triang]. right. f_equal. ring. }
  assert (0 <= len * h) by (apply Rmult_le_pos; lra).
  rewrite Rabs_Ropp, (Rabs_pos_eq (len * h / 2)) in T by lra.
  unfold Rdiv in T at 1. rewrite Rabs_mult, (Rabs_pos_eq (/ 2)) in T by lra. lra.
Qed.
Print Assumptions C53_other_length_not_continuous_refuted.

(** Nor does such a layer take its weights as values at the ends of the documented domain. *)
Theorem C53_other_length_does_not_interpolate_refuted : forall len, 0 < len -> len <> 2 ->
  exists l, held l /\ pw_cls l = PiecewisePolynomial /\ pw_length l = len /\ pw_periodicity l = None /\
    layer_out l (fun _ => - (len / 2)) 0 <> at_ (pw_w l) [0; 0; 0]%nat.
Proof.
  intros len Hlen Hne. exists (bad_layer len). split; [apply bad_held|]. repeat split.
  rewrite bad_out by auto. destruct (Rlt_dec (- (len / 2)) 0); [|lra]. cbn.
  intros E. assert (Q : (len - 2) * (len + 1) = 0) by lra.
  apply Rmult_integral in Q. lra.
Qed.
Print Assumptions C53_other_length_does_not_interpolate_refuted.
