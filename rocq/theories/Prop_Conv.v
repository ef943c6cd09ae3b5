(** * Expansions and convolutions (C33-C38). *)
From Coq Require Import Reals ZArith List Lia Lra Psatz Bool.
From Verif Require Import Spec Tensor Utils LagrangePolynomial Basis PolynomialLayers Expand Convolution Observe ObserveConv
  SumFacts TensorFacts LagrangeFacts LayerFacts SegmentFacts LayerProofs ExpandFacts ConvFacts.
Import ListNotations.
Local Open Scope R_scope.

(** ** C33 *)

(** Number of values of an expansion. *)
Definition expand_size (c : expand_class) (n S : nat) : nat :=
  match c with PiecewiseExpand | PiecewiseExpand1d => ((n - 1) * S + 1)%nat | _ => (n * S)%nat end.

(** The expansion of a number against any weights is the output of the piecewise layer with these
    weights; outside the active segment it is zero. *)
Theorem C33_expansion_is_layer : forall c n S x, (1 <= n)%nat -> (1 <= S)%nat -> length (shape x) = expand_dims c ->
  exists y, expansion_call (PiecewisePolynomialExpand c n S 2) x = Ok y /\
    shape y = expand_size c n S :: shape x /\
    forall ix, valid (shape x) ix ->
      (forall w, rsum (expand_size c n S) (fun v => w v * at_ y (v :: ix))
                 = layer_out (pw_link (fc_class c) n S 2 None w) (fun _ => at_ x ix) 0) /\
      (forall v, (v < expand_size c n S)%nat ->
         (forall k, (k < n)%nat ->
            v <> weight_pos (fc_class c) n (Z.to_nat (which_segment (pw_link (fc_class c) n S 2 None (fun _ => 0)) (at_ x ix))) k) ->
         at_ y (v :: ix) = 0).
Proof.
  intros c n S x Hn HS HL.
  set (e := mkExpand c (lb_basis (get_lagrange_basis n 2)) n S 2).
  assert (Ev : e_variables e = expand_size c n S) by (destruct c; reflexivity).
  destruct (expand_call_spec e x Hn HS) as (y & E & Sh & V); [destruct c; exact HL|].
  rewrite Ev in *. exists y. split; [exact E|]. split; [exact Sh|]. intros ix Hix. split.
  - intros w. rewrite <- (expand_is_link c n S None (at_ x ix) w Hn HS). cbv zeta. fold e. rewrite Ev.
    apply rsum_ext. intros v Hv. now rewrite V.
  - intros v Hv N. rewrite V by auto. unfold expand_value.
    destruct (expand_seg c n S 2 None (at_ x ix) (fun _ => 0) (lb_basis (get_lagrange_basis n 2)) HS) as (E1 & _ & _).
    fold e in E1. rewrite which_segment_seg in N by (cbn; lia). rewrite Nat2Z.id in N. cbn [apply_periodicity pw_link pw_periodicity with_w new_piecewise] in N.
    set (s := eseg e (at_ x ix)) in *.
    change (s = seg (pw_link (fc_class c) n S 2 None (fun _ => 0)) (at_ x ix)) in E1.
    change (seg (with_w (new_piecewise (fc_class c) n 1 1 S 2 1 None (fun _ _ => 0)) _) (at_ x ix))
      with (seg (pw_link (fc_class c) n S 2 None (fun _ => 0)) (at_ x ix)) in N. rewrite <- E1 in N.
    cbn [e_n e]. destruct (Nat.leb_spec (s * e_stride e) v); cbn [andb]; auto.
    destruct (Nat.ltb_spec v (s * e_stride e + n)); auto. exfalso. apply (N (v - s * e_stride e)%nat); [lia|].
    assert (weight_pos (fc_class c) n s (v - s * e_stride e) = s * e_stride e + (v - s * e_stride e))%nat by (unfold e; destruct c; reflexivity).
    lia.
Qed.
Print Assumptions C33_expansion_is_layer.

(** The values add up to one, for every length. *)
Theorem C33_partition_of_unity : forall c n S len x, (1 <= n)%nat -> (1 <= S)%nat -> len <> 0 -> length (shape x) = expand_dims c ->
  exists y, expansion_call (PiecewisePolynomialExpand c n S len) x = Ok y /\
    forall ix, valid (shape x) ix -> rsum (expand_size c n S) (fun v => at_ y (v :: ix)) = 1.
Proof.
  intros c n S len x Hn HS Hlen HL.
  set (e := mkExpand c (lb_basis (get_lagrange_basis n len)) n S len).
  assert (Ev : e_variables e = expand_size c n S) by (destruct c; reflexivity).
  destruct (expand_call_spec e x Hn HS) as (y & E & Sh & V); [destruct c; exact HL|].
  rewrite Ev in *. exists y. split; [exact E|]. intros ix Hix.
  rewrite (rsum_ext _ _ (fun v => 1 * expand_value e (at_ x ix) v)) by (intros; rewrite V by auto; ring).
  rewrite <- Ev. unfold e. rewrite (ev_window c n S len (at_ x ix) (fun _ => 1)) by auto. now apply interp_const.
Qed.
Print Assumptions C33_partition_of_unity.

(** With a single segment it is the plain Lagrange expansion. *)
Theorem C33_single_segment : forall c n x, (1 <= n)%nat -> length (shape x) = expand_dims c ->
  exists y y', expansion_call (PiecewisePolynomialExpand c n 1 2) x = Ok y /\
    expansion_call (LagrangeExpand n 2) x = Ok y' /\ teq y y'.
Proof.
  intros c n x Hn HL.
  set (e := mkExpand c (lb_basis (get_lagrange_basis n 2)) n 1 2).
  assert (Ev : e_variables e = n) by (unfold e, e_variables, e_continuous; destruct c; cbn; lia).
  destruct (expand_call_spec e x Hn (le_n 1)) as (y & E & Sh & V); [destruct c; exact HL|].
  destruct (expansion_call_spec (LagrangeExpand n 2) x) as (y' & E' & Sh' & V'); [exact Hn|].
  exists y, y'. split; [exact E|]. split; [exact E'|]. rewrite Ev in *. cbn [LagrangeExpand ev_n ev] in Sh', V'.
  split; [congruence|]. intros jx Hj. rewrite Sh in Hj. destruct jx as [|v ix]; [destruct Hj|]. destruct Hj as [Hv Hix].
  rewrite V, V' by auto. unfold expand_value.
  assert (Z : eseg e (at_ x ix) = 0%nat) by (pose proof (eseg_lt e (at_ x ix) (le_n 1)); cbn [e e_segments] in *; lia).
  assert (Zi : expand_index e (at_ x ix) = 0%Z) by (rewrite eseg_Z, Z by (cbn; lia); reflexivity).
  rewrite Z, Zi. cbn [Nat.mul Nat.leb Nat.add e_n e]. destruct (Nat.ltb_spec v n); [|lia]. cbn [andb].
  rewrite Nat.sub_0_r. cbn [e_basis]. f_equal. unfold expand_x_in, expand_eta, e_half. cbn [e e_segments e_length]. cbn. lra.
Qed.
Print Assumptions C33_single_segment.

(** For another length the two families differ: linear functions, one segment. *)
Theorem C33_other_length_refuted : forall len, len <> 0 -> len <> 2 -> exists x y w,
  expansion_call (PiecewisePolynomialExpand PiecewiseExpand1d 2 1 len) x = Ok y /\
  rsum 2 (fun v => w v * at_ y [v; 0; 0; 0]%nat) <> layer_out (pw_link PiecewisePolynomial 2 1 len None w) (fun _ => at_ x [0; 0; 0]%nat) 0.
Proof.
  intros len H0 H2. set (x := mkT [1; 1; 1]%nat (fun _ => 1/2)). set (w := fun v : nat => if Nat.eqb v 0 then -1 else 1).
  set (e := mkExpand PiecewiseExpand1d (lb_basis (get_lagrange_basis 2 len)) 2 1 len).
  destruct (expand_call_spec e x) as (y & E & Sh & V); [cbn; lia|cbn; lia|reflexivity|].
  exists x, y, w. split; [exact E|].
  rewrite (rsum_ext _ _ (fun v => w v * expand_value e (1/2) v)) by (intros; rewrite V; [reflexivity|cbn; lia|cbn; lia]).
  change 2%nat with (e_variables e) at 1. unfold e. rewrite ev_window by lia. fold e.
  rewrite pw_link_out; [|lia|lia|now left]. unfold link, link0, piece.
  assert (Z1 : eseg e (1/2) = 0%nat) by (pose proof (eseg_lt e (1/2) (le_n 1)); cbn [e e_segments] in *; lia).
  set (l := pw_link PiecewisePolynomial 2 1 len None w).
  assert (Z2 : seg l (1/2) = 0%nat) by (pose proof (seg_lt l (1/2) (le_n 1)); cbn [l pw_link pw_segments with_w new_piecewise] in *; lia).
  change (apply_periodicity (pw_periodicity l) (at_ x [0; 0; 0]%nat)) with (1/2).
  rewrite Z2, eseg_Z by (cbn; lia). rewrite Z1.
  assert (X1 : expand_x_in e (1/2) (Z.of_nat 0) = len / 4) by (unfold expand_x_in, expand_eta, e_half; cbn; field).
  assert (X2 : x_local l (1/2) (Z.of_nat 0) = len / 4) by (unfold x_local, eta, pw_half; cbn; field).
  rewrite X1, X2. clear - l w H0 H2.
  assert (W : forall a, a <> 0 -> interp 2 a w (len / 4) = 2 / a * (len / 4)).
  { intros a Ha. transitivity ((fun t => 2 / a * t) (len / 4)); [|reflexivity]. rewrite <- (interp_exact 2 a (fun t => 2 / a * t)); auto.
    - apply interp_ext. intros k Hk. rewrite node_eq, cheb_eq by lia. unfold w.
      destruct k as [|[|]]; [| |lia]; cbn [INR Nat.eqb].
      + replace (PI * 0 / (1 + 1 - 1)) with 0 by field. rewrite cos_0. field; auto.
      + replace (PI * 1 / (1 + 1 - 1)) with PI by field. rewrite cos_PI. field; auto.
    - exists (fun k => if Nat.eqb k 1 then 2 / a else 0). intros t. cbn. ring. }
  change (pw_n l) with 2%nat.
  rewrite (interp_ext 2 2 (seg_weight l 0 0 0) w).
  - rewrite (interp_ext 2 len _ w) by (intros; reflexivity). rewrite !W by lra. intros E. apply H2. replace (2 / len * (len / 4)) with (1/2) in E by (field; auto). lra.
  - intros k Hk. unfold seg_weight, l, pw_link. cbn. reflexivity.
Qed.
Print Assumptions C33_other_length_refuted.

(** A tensor of the wrong rank is rejected. *)
Theorem C33_wrong_rank_rejected : forall c n S len x, (1 <= n)%nat -> length (shape x) <> expand_dims c ->
  exists e, expansion_call (PiecewisePolynomialExpand c n S len) x = Err e.
Proof.
  intros c n S len x Hn HL. cbn [expansion_call PiecewisePolynomialExpand]. unfold expand_call, stack_basis.
  cbn [e_n]. destruct (Nat.eqb_spec n 0); [lia|]. cbn [rbind].
  set (e := mkExpand c _ n S len). assert (Re : e_rank e = expand_dims c) by (destruct c; reflexivity).
  rewrite Re. destruct (Nat.ltb_spec (length (shape x)) (expand_dims c)) as [L|L]; [eauto|].
  destruct (Nat.ltb_spec (expand_dims c) (length (shape x))); [eauto|lia].
Qed.
Print Assumptions C33_wrong_rank_rejected.

Example C33_case : exists y, expansion_call (PiecewisePolynomialExpand PiecewiseExpand1d 3 2 2) (mkT [1; 1; 2]%nat (fun _ => 1/4)) = Ok y /\
  shape y = [5; 1; 1; 2]%nat /\ at_ y [0; 0; 0; 1]%nat = 0.
Proof.
  destruct (C33_expansion_is_layer PiecewiseExpand1d 3 2 (mkT [1; 1; 2]%nat (fun _ => 1/4))) as (y & E & Sh & V); try lia; [reflexivity|].
  exists y. split; [exact E|]. split; [exact Sh|]. destruct (V [0; 0; 1]%nat ltac:(cbn; lia)) as [_ Z].
  apply Z; [cbn; lia|]. intros k Hk. cbn [at_ fc_class weight_pos].
  assert (W : which_segment (pw_link PiecewisePolynomial 3 2 2 None (fun _ => 0)) (1/4) = 1%Z).
  { change 1%Z with (Z.of_nat 1). rewrite which_segment_seg by (cbn; lia). f_equal.
    apply seg_spec; try (cbn; lia); [reflexivity|]. unfold in_segment, knot. cbn. split; [lia|]. split; right; lra. }
  rewrite W. cbn. lia.
Qed.

(** ** C34 *)
Theorem C34_expansion2d_layout : forall xp x y nb B C H W,
  expansion_call xp x = Ok y -> shape y = [nb; B; C; H; W] ->
  exists z, Expansion2d xp x = Ok z /\ shape z = [B; (C * nb)%nat; H; W] /\
  forall b c v h w, (b < B)%nat -> (c < C)%nat -> (v < nb)%nat -> (h < H)%nat -> (w < W)%nat ->
    at_ z [b; (c * nb + v)%nat; h; w] = at_ y [v; b; c; h; w].
Proof.
  intros xp x y nb B C H W E Sh. unfold Expansion2d. rewrite E. cbn [rbind]. rewrite Sh.
  set (P := permute [1; 3; 4; 2; 0]%nat y).
  assert (SP : shape P = [B; H; W; C; nb]) by (unfold P; cbn [permute shape]; rewrite Sh; reflexivity).
  unfold reshape. assert (N : numel P = prodn [B; H; W; (C * nb)%nat]) by (unfold numel; rewrite SP; cbn; ring).
  rewrite N, Nat.eqb_refl. cbn [rbind]. eexists; split; [reflexivity|]. split; [reflexivity|].
  intros b c v h w Hb Hc Hv Hh Hw. cbn [permute at_ shape map seq length nth index_of Nat.eqb]. rewrite SP.
  replace (ravel [B; H; W; (C * nb)%nat] [b; h; w; (c * nb + v)%nat]) with (ravel [B; H; W; C; nb] [b; h; w; c; v]) by (cbn; ring).
  rewrite unravel_ravel by (cbn; tauto). unfold P. cbn [permute at_]. rewrite Sh. reflexivity.
Qed.
Print Assumptions C34_expansion2d_layout.

Theorem C34_expansion1d_layout : forall xp x y nb B C W,
  expansion_call xp x = Ok y -> shape y = [nb; B; C; W] ->
  exists z, Expansion1d xp x = Ok z /\ shape z = [B; (C * nb)%nat; W] /\
  forall b c v w, (b < B)%nat -> (c < C)%nat -> (v < nb)%nat -> (w < W)%nat ->
    at_ z [b; (c * nb + v)%nat; w] = at_ y [v; b; c; w].
Proof.
  intros xp x y nb B C W E Sh. unfold Expansion1d. rewrite E. cbn [rbind]. rewrite Sh.
  set (P := permute [1; 3; 2; 0]%nat y).
  assert (SP : shape P = [B; W; C; nb]) by (unfold P; cbn [permute shape]; rewrite Sh; reflexivity).
  unfold reshape. assert (N : numel P = prodn [B; W; (C * nb)%nat]) by (unfold numel; rewrite SP; cbn; ring).
  rewrite N, Nat.eqb_refl. cbn [rbind]. eexists; split; [reflexivity|]. split; [reflexivity|].
  intros b c v w Hb Hc Hv Hw. cbn [permute at_ shape map seq length nth index_of Nat.eqb]. rewrite SP.
  replace (ravel [B; W; (C * nb)%nat] [b; w; (c * nb + v)%nat]) with (ravel [B; W; C; nb] [b; w; c; v]) by (cbn; ring).
  rewrite unravel_ravel by (cbn; tauto). unfold P. cbn [permute at_]. rewrite Sh. reflexivity.
Qed.
Print Assumptions C34_expansion1d_layout.

Example C34_case : forall x, shape x = [1; 2; 3; 3]%nat -> exists z, Expansion2d (LagrangeExpand 3 2) x = Ok z /\
  at_ z [0; 4; 1; 2]%nat = call (lb_basis (get_lagrange_basis 3 2)) (at_ x [0; 1; 1; 2]%nat) 1.
Proof.
  intros x Hx. destruct (expansion_call_spec (LagrangeExpand 3 2) x) as (y & E & Sh & V); [cbn; lia|]. cbn [LagrangeExpand ev_n] in Sh. rewrite Hx in Sh.
  destruct (C34_expansion2d_layout _ _ y 3 1 2 3 3 E Sh) as (z & Ez & _ & Vz). exists z. split; [exact Ez|].
  change 4%nat with (1 * 3 + 1)%nat. rewrite Vz by lia.
  rewrite V; [reflexivity|cbn; lia|rewrite Hx; cbn; lia].
Qed.

(** ** C35 *)

(** Weights of output channel [o], input channel [c] and kernel position. *)
Definition kernel2d (k : conv_kind) (a : conv_args) (l : conv) (o c i j : nat) : nat -> R :=
  fun v => at_ (cv_w l) [o; (c * conv_nb k (a_n a) (a_segments a) + v)%nat; i; j].
Definition kernel1d (k : conv_kind) (a : conv_args) (l : conv) (o c i : nat) : nat -> R :=
  fun v => at_ (cv_w l) [o; (c * conv_nb k (a_n a) (a_segments a) + v)%nat; i].

Theorem C35_conv2d : forall k a l x B H W, good_args a -> fc_length k a -> held_conv2d k a l ->
  shape x = [B; a_in a; H; W] -> fits a H -> fits a W ->
  exists y, conv2d_forward l x = Ok y /\ shape y = [B; a_out a; positions a H; positions a W] /\
  forall b o p q, (b < B)%nat -> (o < a_out a)%nat ->
    at_ y [b; o; p; q] = output_scale a * rsum (a_in a) (fun c => rsum (a_kernel a) (fun i => rsum (a_kernel a) (fun j =>
      if (reads a H p i && reads a W q j)%bool
      then conv_link k (a_n a) (a_segments a) (a_length a) (conv_per k a) (kernel2d k a l o c i j)
             (at_ x [b; c; row_read a p i; row_read a q j])
      else 0))).
Proof.
  intros k a l x B H W G HL Hl Hx FH FW. destruct (held_conv2d_eq k a l G Hl) as (w & -> & Hw).
  pose proof G as (G1 & G2 & _).
  destruct (conv2d_forward_value (conv_of k a w) x B H W (positions a H) (positions a W)) as (y & E & Sh & V);
    try assumption; try (now apply fits_size).
  exists y. split; [exact E|]. split; [exact Sh|]. intros b o p q Hb Ho. rewrite V by auto. unfold conv2d_value.
  cbn [conv_of cv_rescale cv_in cv_kernel cv_kind cv_n cv_segments cv_length cv_periodicity cv_padding cv_stride cv_dilation cv_w].
  f_equal. apply rsum_ext. intros c Hc. apply rsum_ext. intros i Hi. apply rsum_ext. intros j Hj.
  rewrite padded_reads. destruct (reads a H p i); cbn [andb]; auto. rewrite padded_reads. destruct (reads a W q j); auto.
  rewrite <- (conv_link_eq k true (a_n a) (a_segments a) (a_length a) (conv_per k a)); auto.
  intros ->. reflexivity.
Qed.
Print Assumptions C35_conv2d.

Theorem C35_conv1d : forall k a l x B H, good_args a -> fc_length k a -> held_conv1d k a l ->
  shape x = [B; a_in a; H] -> fits a H ->
  exists y, conv1d_forward l x = Ok y /\ shape y = [B; a_out a; positions a H] /\
  forall b o p, (b < B)%nat -> (o < a_out a)%nat ->
    at_ y [b; o; p] = output_scale a * rsum (a_in a) (fun c => rsum (a_kernel a) (fun i =>
      if reads a H p i
      then conv_link k (a_n a) (a_segments a) (a_length a) (conv_per k a) (kernel1d k a l o c i)
             (at_ x [b; c; row_read a p i])
      else 0)).
Proof.
  intros k a l x B H G HL Hl Hx FH. destruct (held_conv1d_eq k a l Hl) as (NF & w & -> & Hw).
  pose proof G as (G1 & G2 & _).
  destruct (conv1d_forward_value (conv_of k a w) x B H (positions a H)) as (y & E & Sh & V);
    try assumption; try (now apply fits_size).
  exists y. split; [exact E|]. split; [exact Sh|]. intros b o p Hb Ho. rewrite V by auto. unfold conv1d_value.
  cbn [conv_of cv_rescale cv_in cv_kernel cv_kind cv_n cv_segments cv_length cv_periodicity cv_padding cv_stride cv_dilation cv_w].
  f_equal. apply rsum_ext. intros c Hc. apply rsum_ext. intros i Hi.
  rewrite padded_reads. destruct (reads a H p i); auto.
  rewrite <- (conv_link_eq k false (a_n a) (a_segments a) (a_length a) (conv_per k a)); auto; contradiction.
Qed.
Print Assumptions C35_conv1d.

Lemma reads_nopad a H p i : a_padding a = 0%nat -> good_args a -> fits a H -> (p < positions a H)%nat -> (i < a_kernel a)%nat ->
  reads a H p i = true /\ row_read a p i = (p * a_stride a + i * a_dilation a)%nat /\ (row_read a p i < H)%nat.
Proof.
  intros P0 (_ & _ & _ & _ & G5 & G6 & G7) F Hp Hi. unfold reads, row_read, fits, positions in *. rewrite P0 in *.
  replace (H + 2 * 0)%nat with H in * by lia.
  assert (D : (p * a_stride a <= H - a_dilation a * (a_kernel a - 1) - 1)%nat).
  { apply Nat.le_trans with ((H - a_dilation a * (a_kernel a - 1) - 1) / a_stride a * a_stride a)%nat; [apply Nat.mul_le_mono_r; lia|].
    rewrite Nat.mul_comm. apply Nat.mul_div_le. lia. }
  assert (I : (i * a_dilation a <= a_dilation a * (a_kernel a - 1))%nat) by (rewrite Nat.mul_comm; apply Nat.mul_le_mono_l; lia).
  rewrite Nat.sub_0_r. cbn [Nat.leb Nat.add andb]. split; [apply Nat.ltb_lt; lia|lia].
Qed.

(** Without padding the conditional disappears. *)
Theorem C35_conv2d_no_padding : forall k a l x B H W, good_args a -> fc_length k a -> held_conv2d k a l ->
  a_padding a = 0%nat -> shape x = [B; a_in a; H; W] -> fits a H -> fits a W ->
  exists y, conv2d_forward l x = Ok y /\ shape y = [B; a_out a; positions a H; positions a W] /\
  forall b o p q, (b < B)%nat -> (o < a_out a)%nat -> (p < positions a H)%nat -> (q < positions a W)%nat ->
    at_ y [b; o; p; q] = output_scale a * rsum (a_in a) (fun c => rsum (a_kernel a) (fun i => rsum (a_kernel a) (fun j =>
      conv_link k (a_n a) (a_segments a) (a_length a) (conv_per k a) (kernel2d k a l o c i j)
         (at_ x [b; c; (p * a_stride a + i * a_dilation a)%nat; (q * a_stride a + j * a_dilation a)%nat])))).
Proof.
  intros k a l x B H W G HL Hl P0 Hx FH FW. destruct (C35_conv2d k a l x B H W G HL Hl Hx FH FW) as (y & E & Sh & V).
  exists y. split; [exact E|]. split; [exact Sh|]. intros b o p q Hb Ho Hp Hq. rewrite V by auto.
  f_equal. apply rsum_ext. intros c Hc. apply rsum_ext. intros i Hi. apply rsum_ext. intros j Hj.
  destruct (reads_nopad a H p i P0 G FH Hp Hi) as (-> & -> & _). destruct (reads_nopad a W q j P0 G FW Hq Hj) as (-> & -> & _).
  reflexivity.
Qed.
Print Assumptions C35_conv2d_no_padding.

(** Samples of a batch do not influence each other. *)
Theorem C12_samples_independent_conv2d : forall k a l x x' B B' H W b b' y y', good_args a -> fc_length k a -> held_conv2d k a l ->
  shape x = [B; a_in a; H; W] -> shape x' = [B'; a_in a; H; W] -> fits a H -> fits a W -> (b < B)%nat -> (b' < B')%nat ->
  (forall c h w, at_ x [b; c; h; w] = at_ x' [b'; c; h; w]) ->
  conv2d_forward l x = Ok y -> conv2d_forward l x' = Ok y' ->
  forall o p q, (o < a_out a)%nat -> at_ y [b; o; p; q] = at_ y' [b'; o; p; q].
Proof.
  intros k a l x x' B B' H W b b' y y' G HL Hl Hx Hx' FH FW Hb Hb' Eq E E' o p q Ho.
  destruct (C35_conv2d k a l x B H W G HL Hl Hx FH FW) as (z & Ez & _ & V). rewrite E in Ez. injection Ez as <-.
  destruct (C35_conv2d k a l x' B' H W G HL Hl Hx' FH FW) as (z & Ez & _ & V'). rewrite E' in Ez. injection Ez as <-.
  rewrite V, V' by auto. f_equal. apply rsum_ext. intros c Hc. apply rsum_ext. intros i Hi. apply rsum_ext. intros j Hj.
  now rewrite Eq.
Qed.
Print Assumptions C12_samples_independent_conv2d.

Definition demo_args : conv_args := mkConvArgs 3 2 2 4 3 2 false None 1 2 1 1.
Example C35_case : exists l, held_conv2d PiecewiseConv demo_args l /\ good_args demo_args /\ fc_length PiecewiseConv demo_args /\
  fits demo_args 5 /\ positions demo_args 5 = 3%nat.
Proof.
  assert (G : good_args demo_args) by (unfold good_args, demo_args; cbn; lia).
  destruct (new_conv2d_spec PiecewiseConv demo_args (fun _ => 0) (fun _ => 0) G) as (w & E & _).
  exists (conv_of PiecewiseConv demo_args w). split; [|split; [exact G|split; [reflexivity|split; [unfold fits; cbn; lia|reflexivity]]]].
  exists (fun _ => 0), (fun _ => 0), (conv_of PiecewiseConv demo_args w), w. auto.
Qed.

(** ** C36 *)
Theorem C36_translation : forall k a l x x' B H W H' W' u v y y', good_args a -> fc_length k a -> held_conv2d k a l ->
  a_padding a = 0%nat -> shape x = [B; a_in a; H; W] -> shape x' = [B; a_in a; H'; W'] ->
  fits a H -> fits a W -> fits a H' -> fits a W' ->
  (forall b c h w, (b < B)%nat -> (c < a_in a)%nat -> (h < H')%nat -> (w < W')%nat -> (h + u * a_stride a < H)%nat -> (w + v * a_stride a < W)%nat ->
     at_ x' [b; c; h; w] = at_ x [b; c; (h + u * a_stride a)%nat; (w + v * a_stride a)%nat]) ->
  conv2d_forward l x = Ok y -> conv2d_forward l x' = Ok y' ->
  forall b o p q, (b < B)%nat -> (o < a_out a)%nat -> (p < positions a H')%nat -> (q < positions a W')%nat ->
    (p + u < positions a H)%nat -> (q + v < positions a W)%nat ->
    at_ y' [b; o; p; q] = at_ y [b; o; (p + u)%nat; (q + v)%nat].
Proof.
  intros k a l x x' B H W H' W' u v y y' G HL Hl P0 Hx Hx' FH FW FH' FW' Eq E E' b o p q Hb Ho Hp Hq Hpu Hqv.
  destruct (C35_conv2d_no_padding k a l x B H W G HL Hl P0 Hx FH FW) as (z & Ez & _ & V). rewrite E in Ez. injection Ez as <-.
  destruct (C35_conv2d_no_padding k a l x' B H' W' G HL Hl P0 Hx' FH' FW') as (z & Ez & _ & V'). rewrite E' in Ez. injection Ez as <-.
  rewrite V, V' by auto. f_equal. apply rsum_ext. intros c Hc. apply rsum_ext. intros i Hi. apply rsum_ext. intros j Hj.
  destruct (reads_nopad a H' p i P0 G FH' Hp Hi) as (_ & R1 & L1). destruct (reads_nopad a W' q j P0 G FW' Hq Hj) as (_ & R2 & L2).
  destruct (reads_nopad a H (p + u) i P0 G FH Hpu Hi) as (_ & R3 & L3). destruct (reads_nopad a W (q + v) j P0 G FW Hqv Hj) as (_ & R4 & L4).
  rewrite Eq; auto; try lia. f_equal. f_equal. f_equal. f_equal. f_equal; [ring|]. f_equal. ring.
Qed.
Print Assumptions C36_translation.

Example C36_case : positions (mkConvArgs 3 2 2 4 3 2 false None 1 2 0 1) 7 = 3%nat /\ fits (mkConvArgs 3 2 2 4 3 2 false None 1 2 0 1) 7 /\
  good_args (mkConvArgs 3 2 2 4 3 2 false None 1 2 0 1).
Proof. split; [reflexivity|]. split; [unfold fits; cbn; lia|unfold good_args; cbn; lia]. Qed.

(** ** C37 *)
Theorem C37_fresh_conv_is_constant : forall k a u draw x B H W, good_args a -> a_length a <> 0 -> k <> FourierConv ->
  a_padding a = 0%nat -> shape x = [B; a_in a; H; W] -> fits a H -> fits a W ->
  exists l y, new_conv2d k a u draw = Ok l /\ conv2d_forward l x = Ok y /\
  forall b o p q, (b < B)%nat -> (o < a_out a)%nat -> (p < positions a H)%nat -> (q < positions a W)%nat ->
    at_ y [b; o; p; q] = output_scale a * rsum (a_in a) (fun c => rsum (a_kernel a) (fun i => rsum (a_kernel a) (fun j =>
      draw [o; c; i; j] * a_weight_magnitude a / INR (a_in a * a_kernel a * a_kernel a)))).
Proof.
  intros k a u draw x B H W G HL HF P0 Hx FH FW. destruct (new_conv2d_spec k a u draw G) as (w & E & Hw & Vw).
  exists (conv_of k a w). pose proof G as (G1 & G2 & _).
  destruct (conv2d_forward_value (conv_of k a w) x B H W (positions a H) (positions a W)) as (y & Ey & Sh & V);
    try assumption; try (now apply fits_size).
  exists y. split; [exact E|]. split; [exact Ey|]. intros b o p q Hb Ho Hp Hq. rewrite V by auto. unfold conv2d_value.
  cbn [conv_of cv_rescale cv_in cv_kernel cv_kind cv_n cv_segments cv_length cv_periodicity cv_padding cv_stride cv_dilation cv_w].
  f_equal. apply rsum_ext. intros c Hc. apply rsum_ext. intros i Hi. apply rsum_ext. intros j Hj.
  rewrite padded_reads. destruct (reads_nopad a H p i P0 G FH Hp Hi) as (-> & _ & _).
  rewrite padded_reads. destruct (reads_nopad a W q j P0 G FW Hq Hj) as (-> & _ & _).
  rewrite (rsum_ext _ _ (fun v => draw [o; c; i; j] * a_weight_magnitude a / INR (a_in a * a_kernel a * a_kernel a) *
     ev (conv_expansion k true (a_n a) (a_segments a) (a_length a)) (apply_periodicity (conv_per k a) (at_ x [b; c; row_read a p i; row_read a q j])) v)).
  - rewrite rsum_scal, ev_sum by auto. ring.
  - intros v Hv. now rewrite Vw by auto.
Qed.
Print Assumptions C37_fresh_conv_is_constant.

(** With draws in [0,1] and rescale_output left off, the constant lies between 0 and weight_magnitude. *)
Theorem C37_fresh_conv_range : forall k a u draw x B H W, good_args a -> a_length a <> 0 -> k <> FourierConv ->
  a_padding a = 0%nat -> shape x = [B; a_in a; H; W] -> fits a H -> fits a W ->
  a_rescale_output a = false -> 0 <= a_weight_magnitude a -> (forall ix, 0 <= draw ix <= 1) ->
  exists l y, new_conv2d k a u draw = Ok l /\ conv2d_forward l x = Ok y /\
  forall b o p q, (b < B)%nat -> (o < a_out a)%nat -> (p < positions a H)%nat -> (q < positions a W)%nat ->
    0 <= at_ y [b; o; p; q] <= a_weight_magnitude a.
Proof.
  intros k a u draw x B H W G HL HF P0 Hx FH FW HR HM HD.
  destruct (C37_fresh_conv_is_constant k a u draw x B H W G HL HF P0 Hx FH FW) as (l & y & E & Ey & V).
  exists l, y. split; [exact E|]. split; [exact Ey|]. intros b o p q Hb Ho Hp Hq. rewrite V by auto.
  unfold output_scale. rewrite HR, Rmult_1_l. destruct G as (_ & _ & G3 & _ & G5 & _).
  set (N := INR (a_in a * a_kernel a * a_kernel a)). assert (PN : 0 < N) by (apply lt_0_INR; nia).
  set (m := a_weight_magnitude a) in *.
  assert (T : forall ix, 0 <= draw ix * m / N <= m / N).
  { intros ix. specialize (HD ix). assert (0 < / N) by now apply Rinv_0_lt_compat. unfold Rdiv. split.
    - apply Rmult_le_pos; [apply Rmult_le_pos|]; lra.
    - apply Rmult_le_compat_r; nra. }
  split.
  - do 3 (apply rsum_nonneg; intros). apply T.
  - eapply Rle_trans with (rsum (a_in a) (fun c => rsum (a_kernel a) (fun i => rsum (a_kernel a) (fun j => m / N)))).
    + do 3 (apply rsum_le; intros). apply T.
    + rewrite (rsum_ext _ _ (fun _ => INR (a_kernel a) * (INR (a_kernel a) * (m / N)))).
      * rewrite rsum_const. unfold N. rewrite !mult_INR. right. field.
        split; apply Rgt_not_eq; apply lt_0_INR; lia.
      * intros c Hc. rewrite (rsum_ext _ _ (fun _ => INR (a_kernel a) * (m / N))); [apply rsum_const|]. intros; apply rsum_const.
Qed.
Print Assumptions C37_fresh_conv_range.

Example C37_case : exists l, new_conv2d PiecewiseConv (mkConvArgs 3 2 2 4 3 2 false None 1 2 0 1) (fun _ => 0) (fun _ => 1/2) = Ok l.
Proof.
  destruct (new_conv2d_spec PiecewiseConv (mkConvArgs 3 2 2 4 3 2 false None 1 2 0 1) (fun _ => 0) (fun _ => 1/2)) as (w & E & _);
  [unfold good_args; cbn; lia|]. eauto.
Qed.

(** ** C38 *)
Theorem C38_conv_size : forall k a l x B H W, good_args a -> held_conv2d k a l -> shape x = [B; a_in a; H; W] ->
  (fits a H -> fits a W -> exists y, conv2d_forward l x = Ok y /\ shape y = [B; a_out a; positions a H; positions a W]) /\
  (~ (fits a H /\ fits a W) -> conv2d_forward l x = Err RuntimeError).
Proof.
  intros k a l x B H W G Hl Hx. destruct (held_conv2d_eq k a l G Hl) as (w & -> & Hw). pose proof G as (G1 & G2 & _). split.
  - intros FH FW. destruct (conv2d_forward_value (conv_of k a w) x B H W (positions a H) (positions a W)) as (y & E & Sh & V);
      try assumption; try (now apply fits_size). eauto.
  - intros NF. unfold conv2d_forward. cbv zeta.
    destruct (conv_expansion_ok k true (a_n a) (a_segments a) (a_length a) G1 G2) as [Ok1 Nb].
    destruct (Expansion2d_spec (conv_expansion k true (a_n a) (a_segments a) (a_length a)) (tmap (apply_periodicity (conv_per k a)) x) B (a_in a) H W Hx Ok1) as (t & Et & St & _).
    cbn [conv_of cv_kind cv_n cv_segments cv_length cv_periodicity cv_w cv_stride cv_padding cv_dilation]. rewrite Et. cbn [rbind].
    rewrite Nb in St. unfold conv2d. rewrite Hw, St, (Nat.mul_comm (conv_nb _ _ _)), Nat.eqb_refl.
    destruct (Nat.le_gt_cases (a_dilation a * (a_kernel a - 1) + 1) (H + 2 * a_padding a)) as [FH|FH].
    + rewrite (fits_size a H G FH). rewrite not_fits_size; [reflexivity|]. intros FW. apply NF. auto.
    + rewrite not_fits_size; [reflexivity|]. unfold fits. lia.
Qed.
Print Assumptions C38_conv_size.

(** Transposed convolution: each pixel is spread over its kernel. *)
Definition full_size (a : conv_args) (op H : nat) : nat := ((H - 1) * a_stride a + a_dilation a * (a_kernel a - 1) + op + 1)%nat.
Definition kernel_t (a : conv_args) (t : conv_transpose) (c o i j : nat) : nat -> R :=
  fun v => at_ (cv_w (ct_conv t)) [(c * conv_nb PiecewiseConv (a_n a) (a_segments a) + v)%nat; o; i; j].

Lemma transpose_size a op H : good_args a -> (1 <= H)%nat -> (op < Nat.max (a_stride a) (a_dilation a))%nat -> (2 * a_padding a < full_size a op H)%nat ->
  conv_transpose_size H (a_kernel a) (a_stride a) (a_padding a) op (a_dilation a) = Some (full_size a op H - 2 * a_padding a)%nat.
Proof.
  intros (_ & _ & _ & _ & _ & G6 & _) H1 Hop F. unfold conv_transpose_size. fold (full_size a op H).
  destruct (Nat.eqb_spec H 0); [lia|]. destruct (Nat.eqb_spec (a_stride a) 0); [lia|]. cbn [orb].
  destruct (Nat.leb_spec (Nat.max (a_stride a) (a_dilation a)) op); [lia|].
  destruct (Nat.leb_spec (full_size a op H) (2 * a_padding a)); [lia|reflexivity].
Qed.

Theorem C38_transpose : forall a op t x B H W, good_args a -> a_length a = 2 -> held_conv_transpose a op t ->
  shape x = [B; a_in a; H; W] -> (1 <= H)%nat -> (1 <= W)%nat -> (op < Nat.max (a_stride a) (a_dilation a))%nat ->
  (2 * a_padding a < full_size a op H)%nat -> (2 * a_padding a < full_size a op W)%nat ->
  exists y, conv_transpose2d_forward t x = Ok y /\
  shape y = [B; a_out a; (full_size a op H - 2 * a_padding a)%nat; (full_size a op W - 2 * a_padding a)%nat] /\
  forall b o p q, (b < B)%nat -> (o < a_out a)%nat ->
    at_ y [b; o; p; q] = output_scale a * rsum (a_in a) (fun c => rsum H (fun h => rsum W (fun w => rsum (a_kernel a) (fun i => rsum (a_kernel a) (fun j =>
      if (Nat.eqb (h * a_stride a + i * a_dilation a) (p + a_padding a) &&
          Nat.eqb (w * a_stride a + j * a_dilation a) (q + a_padding a))%bool
      then conv_link PiecewiseConv (a_n a) (a_segments a) (a_length a) (a_periodicity a) (kernel_t a t c o i j) (at_ x [b; c; h; w])
      else 0))))).
Proof.
  intros a op t x B H W G HL (u & w & Hw & ->) Hx H1 W1 Hop FH FW. pose proof G as (G1 & G2 & _).
  destruct (conv_transpose_forward_value (conv_of PiecewiseConv a w) op x B H W (full_size a op H - 2 * a_padding a) (full_size a op W - 2 * a_padding a)) as (y & E & Sh & V);
    try assumption; try (now apply transpose_size).
  exists y. split; [exact E|]. split; [exact Sh|]. intros b o p q Hb Ho. rewrite V by auto. unfold conv_transpose_value.
  cbn [conv_of cv_rescale cv_in cv_kernel cv_kind cv_n cv_segments cv_length cv_periodicity cv_padding cv_stride cv_dilation cv_w conv_per].
  f_equal. apply rsum_ext. intros c Hc. do 4 (apply rsum_ext; intros ? ?). destruct (_ && _)%bool; auto.
  rewrite <- (conv_link_eq PiecewiseConv true (a_n a) (a_segments a) (a_length a) (a_periodicity a)); auto. discriminate.
Qed.
Print Assumptions C38_transpose.

Example C38_case : exists t, held_conv_transpose demo_args 1 t /\ full_size demo_args 1 5 = 12%nat /\
  (2 * a_padding demo_args < full_size demo_args 1 5)%nat /\ (1 < Nat.max (a_stride demo_args) (a_dilation demo_args))%nat.
Proof.
  eexists. split; [exists (fun _ => 0), (cv_w (ct_conv (new_conv_transpose2d demo_args 1 (fun _ => 0)))); split; reflexivity|].
  split; [reflexivity|]. cbn. lia.
Qed.
