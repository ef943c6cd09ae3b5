(** * Convolutions inherit locality, bounds and Lipschitz constants of their link functions (C103). *)
From Coq Require Import Reals ZArith List Lia Lra Psatz Bool.
From Verif Require Import Spec Tensor Utils LagrangePolynomial Basis PolynomialLayers Expand Convolution
  Observe ObserveConv SumFacts TensorFacts LagrangeFacts LayerFacts SegmentFacts LayerProofs ExpandFacts ConvFacts LebesgueFacts
  Prop_Layers Prop_Conv Prop_Product Prop_Bounds Prop_Lipschitz.
Import ListNotations.
Local Open Scope R_scope.

(** The fully connected class of a piecewise convolution. *)
Definition link_class (k : conv_kind) : pw_class :=
  match k with PiecewiseConv => PiecewisePolynomial | _ => PiecewiseDiscontinuousPolynomial end.
Definition piecewise_kind (k : conv_kind) : Prop := k = PiecewiseConv \/ k = PiecewiseDiscontinuousConv.
(** The segment a piecewise convolution finds a pixel in: that of the fully connected layer. *)
Definition pixel_segment (k : conv_kind) (a : conv_args) (v : R) : nat :=
  Z.to_nat (which_segment (pw_link (link_class k) (a_n a) (a_segments a) 2 (a_periodicity a) (fun _ => 0)) v).
(** Pixels in the range of the nodes (after folding). *)
Definition image_in_range (k : conv_kind) (a : conv_args) (x : tensor R) : Prop :=
  forall ix, valid (shape x) ix -> inputs_in_range (conv_per k a) 1 (fun _ => at_ x ix).

Lemma piecewise_link k a w x : piecewise_kind k -> fc_length k a ->
  conv_link k (a_n a) (a_segments a) (a_length a) (conv_per k a) w x
  = layer_out (pw_link (link_class k) (a_n a) (a_segments a) 2 (a_periodicity a) w) (fun _ => x) 0.
Proof. intros [-> | ->] HL; cbn in HL; rewrite HL; reflexivity. Qed.

Lemma link_sum k : piecewise_kind k -> sum_class (link_class k).
Proof. intros [-> | ->]; [left|right]; reflexivity. Qed.

Lemma link_local k a w w' x : good_args a -> piecewise_kind k -> fc_length k a ->
  (forall j, (j < a_n a)%nat -> w (weight_pos (link_class k) (a_n a) (pixel_segment k a x) j) = w' (weight_pos (link_class k) (a_n a) (pixel_segment k a x) j)) ->
  conv_link k (a_n a) (a_segments a) (a_length a) (conv_per k a) w x
  = conv_link k (a_n a) (a_segments a) (a_length a) (conv_per k a) w' x.
Proof.
  intros (G1 & G2 & _) K HL E. rewrite !piecewise_link by assumption.
  set (l := pw_link (link_class k) (a_n a) (a_segments a) 2 (a_periodicity a) (fun _ => 0)).
  pose (wt := fun w : nat -> R => mkT (shape (pw_w l)) (fun ix => w (nth 2 ix 0%nat))).
  change (layer_out (with_w l (wt w)) (fun _ => x) 0 = layer_out (with_w l (wt w')) (fun _ => x) 0).
  apply C10_only_active_segment_matters; [now apply pw_link_held|reflexivity|reflexivity|cbn; lia|].
  intros i j Hi Hj. cbn zeta. exact (E j Hj).
Qed.

Lemma link_ext k a w w' x : good_args a -> fc_length k a ->
  (forall v, (v < conv_nb k (a_n a) (a_segments a))%nat -> w v = w' v) ->
  conv_link k (a_n a) (a_segments a) (a_length a) (conv_per k a) w x
  = conv_link k (a_n a) (a_segments a) (a_length a) (conv_per k a) w' x.
Proof.
  intros (G1 & G2 & _) HL E. rewrite <- !(conv_link_eq k true) by (auto; intros ->; reflexivity).
  apply rsum_ext. intros v Hv. now rewrite E.
Qed.

(** Index of the first weight channel and the offset in it. *)
Lemma split_index nb c v c' v' : (v < nb)%nat -> (v' < nb)%nat -> (c * nb + v = c' * nb + v')%nat -> c = c' /\ v = v'.
Proof.
  intros Hv Hv' E. assert (c = c').
  { destruct (Nat.lt_trichotomy c c') as [L|[L|L]]; [exfalso|exact L|exfalso].
    - assert (((c + 1) * nb <= c' * nb)%nat) by (apply Nat.mul_le_mono_r; lia). lia.
    - assert (((c' + 1) * nb <= c * nb)%nat) by (apply Nat.mul_le_mono_r; lia). lia. }
  subst. split; [reflexivity|lia].
Qed.

Lemma used_position k a x m : good_args a -> piecewise_kind k -> (m < a_n a)%nat ->
  (weight_pos (link_class k) (a_n a) (pixel_segment k a x) m < conv_nb k (a_n a) (a_segments a))%nat.
Proof.
  intros (G1 & G2 & _) K Hm. unfold pixel_segment. set (l := pw_link _ _ _ _ _ _).
  assert (Hl : held l) by now apply pw_link_held.
  assert (Hs : (Z.to_nat (which_segment l x) < pw_segments l)%nat).
  { rewrite which_segment_seg, Nat2Z.id by exact G2. now apply seg_lt. }
  pose proof (wf_weight l 0 0 _ m Hl ltac:(cbn; lia) ltac:(cbn; lia) Hs Hm) as V.
  destruct K as [-> | ->]; destruct V as (_ & _ & V & _); exact V.
Qed.

Lemma held_upd k a l ix t : held_conv2d k a l -> held_conv2d k a (conv_with_w l (upd (cv_w l) ix t)).
Proof.
  intros (u & draw & l0 & w & E & Sw & ->). exists u, draw, l0, (upd w ix t). split; [exact E|]. split; [exact Sw|reflexivity].
Qed.
Lemma held_upd1 k a l ix t : held_conv1d k a l -> held_conv1d k a (conv_with_w l (upd (cv_w l) ix t)).
Proof.
  intros (u & l0 & w & E & Sw & ->). exists u, l0, (upd w ix t). split; [exact E|]. split; [exact Sw|reflexivity].
Qed.

(** Changing the weight at offset [v] of a link changes nothing at a pixel that does not use it. *)
Lemma link_unused k a w w' v x : good_args a -> piecewise_kind k -> fc_length k a ->
  (forall v', (v' < conv_nb k (a_n a) (a_segments a))%nat -> v' <> v -> w v' = w' v') ->
  (forall m, (m < a_n a)%nat -> v <> weight_pos (link_class k) (a_n a) (pixel_segment k a x) m) ->
  conv_link k (a_n a) (a_segments a) (a_length a) (conv_per k a) w x
  = conv_link k (a_n a) (a_segments a) (a_length a) (conv_per k a) w' x.
Proof.
  intros G K HL E N. apply link_local; auto. intros m Hm. apply E; [now apply used_position|]. intros Q. now apply (N m Hm).
Qed.

(** ** A weight matters only where the pixels it is applied to use it *)
Theorem C103_unvisited_weight : forall k a l x B H W o c v i j t y, good_args a -> piecewise_kind k -> fc_length k a -> held_conv2d k a l ->
  shape x = [B; a_in a; H; W] -> fits a H -> fits a W ->
  (v < conv_nb k (a_n a) (a_segments a))%nat ->
  (forall b p q m, (b < B)%nat -> (p < positions a H)%nat -> (q < positions a W)%nat -> reads a H p i = true -> reads a W q j = true -> (m < a_n a)%nat ->
     v <> weight_pos (link_class k) (a_n a) (pixel_segment k a (at_ x [b; c; row_read a p i; row_read a q j])) m) ->
  conv2d_forward l x = Ok y ->
  exists y', conv2d_forward (conv_with_w l (upd (cv_w l) [o; (c * conv_nb k (a_n a) (a_segments a) + v)%nat; i; j] t)) x = Ok y' /\ teq y' y.
Proof.
  intros k a l x B H W o c v i j t y G K HL Hl Hx FH FW Hv N E.
  set (l' := conv_with_w l _). assert (Hl' : held_conv2d k a l') by now apply held_upd.
  destruct (C35_conv2d k a l x B H W G HL Hl Hx FH FW) as (z & Ez & Sz & V). rewrite E in Ez. injection Ez as <-.
  destruct (C35_conv2d k a l' x B H W G HL Hl' Hx FH FW) as (y' & E' & S' & V'). exists y'. split; [exact E'|]. split; [congruence|].
  intros ix Hi. rewrite S' in Hi. destruct ix as [|b [|o' [|p [|q [|]]]]]; cbn -[positions] in Hi; try tauto. destruct Hi as (Hb & Ho & Hp & Hq & _).
  rewrite V, V' by assumption. f_equal. apply rsum_ext. intros c' Hc. apply rsum_ext. intros i' Hi. apply rsum_ext. intros j' Hj.
  destruct (reads a H p i') eqn:R1; [|reflexivity]. destruct (reads a W q j') eqn:R2; [|reflexivity]. cbn [andb].
  set (nb := conv_nb k (a_n a) (a_segments a)) in *.
  assert (D : forall v', (v' < nb)%nat -> ~ (c' = c /\ i' = i /\ j' = j /\ v' = v) -> kernel2d k a l' o' c' i' j' v' = kernel2d k a l o' c' i' j' v').
  { intros v' Hv' D. unfold kernel2d, l', conv_with_w. cbn [cv_w]. apply upd_other. fold nb. intros Q. apply D.
    injection Q as _ Q Qi Qj. destruct (split_index nb c' v' c v Hv' Hv ltac:(congruence)) as (-> & ->). repeat split; congruence. }
  assert (Dec : (c' = c /\ i' = i /\ j' = j) \/ ~ (c' = c /\ i' = i /\ j' = j)) by lia.
  destruct Dec as [(-> & -> & ->)|Nq].
  - apply (link_unused k a _ _ v); auto. intros v' Hv' Nv. apply D; auto. tauto.
  - apply link_ext; auto. intros v' Hv'. apply D; auto. tauto.
Qed.
Print Assumptions C103_unvisited_weight.

Theorem C103_unvisited_weight_1d : forall k a l x B H o c v i t y, good_args a -> piecewise_kind k -> fc_length k a -> held_conv1d k a l ->
  shape x = [B; a_in a; H] -> fits a H ->
  (v < conv_nb k (a_n a) (a_segments a))%nat ->
  (forall b p m, (b < B)%nat -> (p < positions a H)%nat -> reads a H p i = true -> (m < a_n a)%nat ->
     v <> weight_pos (link_class k) (a_n a) (pixel_segment k a (at_ x [b; c; row_read a p i])) m) ->
  conv1d_forward l x = Ok y ->
  exists y', conv1d_forward (conv_with_w l (upd (cv_w l) [o; (c * conv_nb k (a_n a) (a_segments a) + v)%nat; i] t)) x = Ok y' /\ teq y' y.
Proof.
  intros k a l x B H o c v i t y G K HL Hl Hx FH Hv N E.
  set (l' := conv_with_w l _). assert (Hl' : held_conv1d k a l') by now apply held_upd1.
  destruct (C35_conv1d k a l x B H G HL Hl Hx FH) as (z & Ez & Sz & V). rewrite E in Ez. injection Ez as <-.
  destruct (C35_conv1d k a l' x B H G HL Hl' Hx FH) as (y' & E' & S' & V'). exists y'. split; [exact E'|]. split; [congruence|].
  intros ix Hi. rewrite S' in Hi. destruct ix as [|b [|o' [|p [|]]]]; cbn -[positions] in Hi; try tauto. destruct Hi as (Hb & Ho & Hp & _).
  rewrite V, V' by assumption. f_equal. apply rsum_ext. intros c' Hc. apply rsum_ext. intros i' Hi.
  destruct (reads a H p i') eqn:R1; [|reflexivity].
  set (nb := conv_nb k (a_n a) (a_segments a)) in *.
  assert (D : forall v', (v' < nb)%nat -> ~ (c' = c /\ i' = i /\ v' = v) -> kernel1d k a l' o' c' i' v' = kernel1d k a l o' c' i' v').
  { intros v' Hv' D. unfold kernel1d, l', conv_with_w. cbn [cv_w]. apply upd_other. fold nb. intros Q. apply D.
    injection Q as _ Q Qi. destruct (split_index nb c' v' c v Hv' Hv ltac:(congruence)) as (-> & ->). repeat split; congruence. }
  assert (Dec : (c' = c /\ i' = i) \/ ~ (c' = c /\ i' = i)) by lia.
  destruct Dec as [(-> & ->)|Nq].
  - apply (link_unused k a _ _ v); auto. intros v' Hv' Nv. apply D; auto. tauto.
  - apply link_ext; auto. intros v' Hv'. apply D; auto. tauto.
Qed.
Print Assumptions C103_unvisited_weight_1d.

(** ** Bounded weights bound the image *)
(** What one kernel position of a layer with weights at most [W] contributes at most. *)
Definition link_bound (k : conv_kind) (n : nat) (W : R) : R :=
  match k with FourierConv => INR n * W | _ => 2 * INR (n - 1) * W end.
(** Fourier kernels are bounded everywhere; the others on the range of their nodes, spanning [-1, 1], with at least two nodes. *)
Definition boundable (k : conv_kind) (a : conv_args) (x : tensor R) : Prop :=
  match k with FourierConv => True | _ => (2 <= a_n a)%nat /\ a_length a = 2 /\ image_in_range k a x end.

Lemma link_bounded k a w W x : good_args a ->
  match k with FourierConv => True | _ => (2 <= a_n a)%nat /\ a_length a = 2 /\ inputs_in_range (conv_per k a) 1 (fun _ => x) end ->
  (forall v, (v < conv_nb k (a_n a) (a_segments a))%nat -> Rabs (w v) <= W) ->
  Rabs (conv_link k (a_n a) (a_segments a) (a_length a) (conv_per k a) w x) <= link_bound k (a_n a) W.
Proof.
  intros (G1 & G2 & _) Hk HW.
  assert (Pw : forall c, sum_class c -> (2 <= a_n a)%nat -> inputs_in_range (a_periodicity a) 1 (fun _ => x) ->
    (forall p, (p < length (seq 0 (nth 2 (shape (pw_w (pw_link c (a_n a) (a_segments a) 2 (a_periodicity a) w))) 0)))%nat -> Rabs (w p) <= W) ->
    Rabs (layer_out (pw_link c (a_n a) (a_segments a) 2 (a_periodicity a) w) (fun _ => x) 0) <= 2 * INR (a_n a - 1) * W).
  { intros c Hc H2 Hr Hp.
    pose proof (C79_bounded_weights_bound_output (pw_link c (a_n a) (a_segments a) 2 (a_periodicity a) w) W (fun _ => x) 0 ltac:(now apply pw_link_held) eq_refl Hc H2 ltac:(cbn; lia)) as Q.
    change (pw_in (pw_link c (a_n a) (a_segments a) 2 (a_periodicity a) w)) with 1%nat in Q. rewrite Rmult_1_l in Q.
    apply Q; [|exact Hr]. intros i p V. cbn [at_ pw_w pw_link with_w nth]. apply Hp. rewrite seq_length.
    destruct V as (_ & _ & V & _). exact V. }
  destruct k; cbn [link_bound conv_per conv_nb conv_link] in *.
  - unfold with_fw, FourierSeries, func_out. cbn [f_n f_basis f_periodicity].
    set (wt := mkT _ _). destruct (function_spec (a_n a) (FourierBasis (a_length a)) None wt (one_sample 1 (fun _ => x)) 1 1 1 G1 eq_refl eq_refl) as (y & E & S & V).
    rewrite E. cbn [value_at]. rewrite V by lia. cbn [rsum]. rewrite Rplus_0_l. eapply Rle_trans; [apply rsum_abs|]. rewrite <- rsum_const. apply rsum_le.
    intros v Hv. rewrite Rabs_mult. cbn [apply_periodicity]. pose proof (fourier_bound (a_length a) (at_ (one_sample 1 (fun _ => x)) [0; 0]%nat) v) as F.
    pose proof (HW v Hv) as Q. change (at_ wt [0; 0; v]%nat) with (w v). pose proof (Rabs_pos (w v)). cbn [call FourierBasis] in *. nra.
  - destruct Hk as (H2 & -> & Hr). unfold with_fw, Polynomial, func_out. cbn [f_n f_basis f_periodicity].
    set (wt := mkT _ _). destruct (function_spec (a_n a) (lb_basis (get_lagrange_basis (a_n a) 2)) (a_periodicity a) wt (one_sample 1 (fun _ => x)) 1 1 1 G1 eq_refl eq_refl) as (y & E & S & V).
    rewrite E. cbn [value_at]. rewrite V by lia. cbn [rsum]. rewrite Rplus_0_l.
    change (Rabs (interp (a_n a) 2 w (apply_periodicity (a_periodicity a) x)) <= 2 * INR (a_n a - 1) * W).
    apply interp_bound; auto. exact (folded_range _ 1 (fun _ => x) 0 Hr ltac:(lia)).
  - destruct Hk as (H2 & -> & Hr). apply Pw; auto; [now left|]. intros p Hp. apply HW. rewrite seq_length in Hp. exact Hp.
  - destruct Hk as (H2 & -> & Hr). apply Pw; auto; [now right|]. intros p Hp. apply HW. rewrite seq_length in Hp. exact Hp.
Qed.

Lemma scale_pos a : good_args a -> 0 <= output_scale a.
Proof.
  intros (_ & _ & G3 & _ & G5 & _). unfold output_scale. destruct (a_rescale_output a); [|lra]. apply Rlt_le, Rdiv_lt_0_compat; [lra|].
  apply lt_0_INR. repeat apply Nat.mul_pos_pos; lia.
Qed.

Lemma link_bound_pos k n W : 0 <= W -> 0 <= link_bound k n W.
Proof. intros HW. pose proof (pos_INR n). pose proof (pos_INR (n - 1)). destruct k; cbn [link_bound]; nra. Qed.

(** Sums over the window of a kernel. *)
Lemma window_bound C K (f : nat -> nat -> nat -> R) m :
  (forall c i j, (c < C)%nat -> (i < K)%nat -> (j < K)%nat -> Rabs (f c i j) <= m) ->
  Rabs (rsum C (fun c => rsum K (fun i => rsum K (fun j => f c i j)))) <= INR (C * K * K) * m.
Proof.
  intros Hf. rewrite !mult_INR. replace (INR C * INR K * INR K * m) with (INR C * (INR K * (INR K * m))) by ring.
  eapply Rle_trans; [apply rsum_abs|]. rewrite <- rsum_const. apply rsum_le. intros c Hc.
  eapply Rle_trans; [apply rsum_abs|]. rewrite <- rsum_const. apply rsum_le. intros i Hi.
  eapply Rle_trans; [apply rsum_abs|]. rewrite <- rsum_const. apply rsum_le. intros j Hj. now apply Hf.
Qed.
Lemma window_bound_1d C K (f : nat -> nat -> R) m :
  (forall c i, (c < C)%nat -> (i < K)%nat -> Rabs (f c i) <= m) ->
  Rabs (rsum C (fun c => rsum K (fun i => f c i))) <= INR (C * K) * m.
Proof.
  intros Hf. rewrite !mult_INR. replace (INR C * INR K * m) with (INR C * (INR K * m)) by ring.
  eapply Rle_trans; [apply rsum_abs|]. rewrite <- rsum_const. apply rsum_le. intros c Hc.
  eapply Rle_trans; [apply rsum_abs|]. rewrite <- rsum_const. apply rsum_le. intros i Hi. now apply Hf.
Qed.

Lemma kernel2d_bounded k a l W o c i j v : good_args a -> held_conv2d k a l ->
  (forall ix, valid (shape (cv_w l)) ix -> Rabs (at_ (cv_w l) ix) <= W) ->
  (o < a_out a)%nat -> (c < a_in a)%nat -> (i < a_kernel a)%nat -> (j < a_kernel a)%nat -> (v < conv_nb k (a_n a) (a_segments a))%nat ->
  Rabs (kernel2d k a l o c i j v) <= W.
Proof.
  intros G Hl HW Ho Hc Hi Hj Hv. destruct (held_conv2d_eq k a l G Hl) as (w & -> & Sw). apply HW. cbn [cv_w conv_of]. rewrite Sw.
  set (nb := conv_nb k (a_n a) (a_segments a)) in *. assert (((c + 1) * nb <= a_in a * nb)%nat) by (apply Nat.mul_le_mono_r; lia).
  cbn -[Nat.mul]. repeat split; auto; lia.
Qed.
Lemma kernel1d_bounded k a l W o c i v : held_conv1d k a l ->
  (forall ix, valid (shape (cv_w l)) ix -> Rabs (at_ (cv_w l) ix) <= W) ->
  (o < a_out a)%nat -> (c < a_in a)%nat -> (i < a_kernel a)%nat -> (v < conv_nb k (a_n a) (a_segments a))%nat ->
  Rabs (kernel1d k a l o c i v) <= W.
Proof.
  intros Hl HW Ho Hc Hi Hv. destruct (held_conv1d_eq k a l Hl) as (_ & w & -> & Sw). apply HW. cbn [cv_w conv_of]. rewrite Sw.
  set (nb := conv_nb k (a_n a) (a_segments a)) in *. assert (((c + 1) * nb <= a_in a * nb)%nat) by (apply Nat.mul_le_mono_r; lia).
  cbn -[Nat.mul]. repeat split; auto; lia.
Qed.

Lemma read_inside a H p i : reads a H p i = true -> (row_read a p i < H)%nat.
Proof.
  unfold reads, row_read. intros R. apply andb_true_iff in R. destruct R as (R1 & R2). apply Nat.leb_le in R1. apply Nat.ltb_lt in R2. lia.
Qed.

Theorem C103_bounded : forall k a l x B H W M y, good_args a -> held_conv2d k a l -> boundable k a x ->
  shape x = [B; a_in a; H; W] -> fits a H -> fits a W -> 0 <= M ->
  (forall ix, valid (shape (cv_w l)) ix -> Rabs (at_ (cv_w l) ix) <= M) ->
  conv2d_forward l x = Ok y ->
  forall ix, valid (shape y) ix ->
    Rabs (at_ y ix) <= output_scale a * (INR (a_in a * a_kernel a * a_kernel a) * link_bound k (a_n a) M).
Proof.
  intros k a l x B H W M y G Hl Hb Hx FH FW M0 HM E.
  assert (HL : fc_length k a) by (destruct k; cbn in *; tauto).
  destruct (C35_conv2d k a l x B H W G HL Hl Hx FH FW) as (z & Ez & Sz & V). rewrite E in Ez. injection Ez as <-.
  intros ix Hi. rewrite Sz in Hi. destruct ix as [|b [|o [|p [|q [|]]]]]; cbn -[positions] in Hi; try tauto. destruct Hi as (Hb' & Ho & Hp & Hq & _).
  rewrite V by assumption. rewrite Rabs_mult, (Rabs_pos_eq (output_scale a)) by now apply scale_pos.
  apply Rmult_le_compat_l; [now apply scale_pos|]. apply window_bound. intros c i j Hc Hi Hj.
  destruct (reads a H p i) eqn:R1; cbn [andb]; [|rewrite Rabs_R0; now apply link_bound_pos].
  destruct (reads a W q j) eqn:R2; [|rewrite Rabs_R0; now apply link_bound_pos].
  apply link_bounded; auto.
  - destruct k; cbn [boundable] in Hb; auto; destruct Hb as (? & ? & R); repeat split; auto; apply R; rewrite Hx; cbn -[row_read]; repeat split; auto; now apply read_inside.
  - intros v Hv. now apply kernel2d_bounded.
Qed.
Print Assumptions C103_bounded.

(** With [rescale_output] the image is bounded by what one kernel position contributes, however large the kernel and however many channels. *)
Theorem C103_rescaled_bounded : forall k a l x B H W M y, good_args a -> held_conv2d k a l -> boundable k a x -> a_rescale_output a = true ->
  shape x = [B; a_in a; H; W] -> fits a H -> fits a W -> 0 <= M ->
  (forall ix, valid (shape (cv_w l)) ix -> Rabs (at_ (cv_w l) ix) <= M) ->
  conv2d_forward l x = Ok y ->
  forall ix, valid (shape y) ix -> Rabs (at_ y ix) <= link_bound k (a_n a) M.
Proof.
  intros k a l x B H W M y G Hl Hb Hr Hx FH FW M0 HM E ix Hi.
  eapply Rle_trans; [apply (C103_bounded k a l x B H W M y); auto|]. right. unfold output_scale. rewrite Hr. field.
  destruct G as (_ & _ & G3 & _ & G5 & _). apply not_0_INR. assert ((0 < a_in a * a_kernel a * a_kernel a)%nat) by (repeat apply Nat.mul_pos_pos; lia). lia.
Qed.
Print Assumptions C103_rescaled_bounded.

Theorem C103_bounded_1d : forall k a l x B H M y, good_args a -> held_conv1d k a l -> boundable k a x ->
  shape x = [B; a_in a; H] -> fits a H -> 0 <= M ->
  (forall ix, valid (shape (cv_w l)) ix -> Rabs (at_ (cv_w l) ix) <= M) ->
  conv1d_forward l x = Ok y ->
  forall ix, valid (shape y) ix ->
    Rabs (at_ y ix) <= output_scale a * (INR (a_in a * a_kernel a) * link_bound k (a_n a) M).
Proof.
  intros k a l x B H M y G Hl Hb Hx FH M0 HM E.
  assert (HL : fc_length k a) by (destruct k; cbn in *; tauto).
  destruct (C35_conv1d k a l x B H G HL Hl Hx FH) as (z & Ez & Sz & V). rewrite E in Ez. injection Ez as <-.
  intros ix Hi. rewrite Sz in Hi. destruct ix as [|b [|o [|p [|]]]]; cbn -[positions] in Hi; try tauto. destruct Hi as (Hb' & Ho & Hp & _).
  rewrite V by assumption. rewrite Rabs_mult, (Rabs_pos_eq (output_scale a)) by now apply scale_pos.
  apply Rmult_le_compat_l; [now apply scale_pos|]. apply window_bound_1d. intros c i Hc Hi.
  destruct (reads a H p i) eqn:R1; [|rewrite Rabs_R0; now apply link_bound_pos].
  apply link_bounded; auto.
  - destruct k; cbn [boundable] in Hb; auto; destruct Hb as (? & ? & R); repeat split; auto; apply R; rewrite Hx; cbn -[row_read]; repeat split; auto; now apply read_inside.
  - intros v Hv. now apply kernel1d_bounded.
Qed.
Print Assumptions C103_bounded_1d.

(** ** Continuous convolutions move their output no faster than a known multiple of the pixels *)
Definition smooth_kind (k : conv_kind) : Prop := k = PolynomialConv \/ k = PiecewiseConv.
(** Slope of one kernel position per unit of weight. *)
Definition link_slope (k : conv_kind) (a : conv_args) : R :=
  match k with PiecewiseConv => steepness (a_n a) * INR (a_segments a) | _ => steepness (a_n a) end.

Lemma link_lipschitz k a w W x x' : good_args a -> smooth_kind k -> a_length a = 2 -> 0 <= W ->
  inputs_in_range (a_periodicity a) 1 (fun _ => x) -> inputs_in_range (a_periodicity a) 1 (fun _ => x') ->
  (forall v, (v < conv_nb k (a_n a) (a_segments a))%nat -> Rabs (w v) <= W) ->
  Rabs (conv_link k (a_n a) (a_segments a) (a_length a) (conv_per k a) w x - conv_link k (a_n a) (a_segments a) (a_length a) (conv_per k a) w x')
  <= W * link_slope k a * Rabs (x - x').
Proof.
  intros (G1 & G2 & _) Hk -> W0 Hx Hx' HW. destruct Hk as [-> | ->]; cbn [conv_link conv_per link_slope conv_nb] in *.
  - assert (V : forall x, func_out (with_fw (Polynomial (a_n a) 1 1 2 1 (a_periodicity a) (fun _ _ => 0)) (mkT [1; 1; a_n a]%nat (fun ix => w (nth 2 ix 0%nat)))) x
        = interp (a_n a) 2 w (apply_periodicity (a_periodicity a) x)).
    { intros z. unfold with_fw, Polynomial, func_out. cbn [f_n f_basis f_periodicity]. set (wt := mkT _ _).
      destruct (function_spec (a_n a) (lb_basis (get_lagrange_basis (a_n a) 2)) (a_periodicity a) wt (one_sample 1 (fun _ => z)) 1 1 1 G1 eq_refl eq_refl) as (y & E & S & V).
      rewrite E. cbn [value_at]. rewrite V by lia. cbn [rsum]. rewrite Rplus_0_l. reflexivity. }
    rewrite !V. eapply Rle_trans; [apply interp_lip; auto|].
    + exact (folded_range _ 1 (fun _ => x) 0 Hx ltac:(lia)).
    + exact (folded_range _ 1 (fun _ => x') 0 Hx' ltac:(lia)).
    + apply Rmult_le_compat_l; [apply Rmult_le_pos; [auto|apply steepness_pos]|]. apply folded_lip. intros q E. unfold inputs_in_range in Hx. rewrite E in Hx. lra.
  - set (l := pw_link PiecewisePolynomial (a_n a) (a_segments a) 2 (a_periodicity a) w).
    eapply Rle_trans; [apply (C87_layer_lipschitz l W); auto|].
    + now apply pw_link_held.
    + intros i p V. change (at_ (pw_w l) [0%nat; i; p]) with (w p). apply HW. destruct V as (_ & _ & V & _). exact V.
    + right. change (pw_in l) with 1%nat. cbn [rsum]. rewrite Rplus_0_l. change (pw_n l) with (a_n a). change (pw_segments l) with (a_segments a). ring.
Qed.

Lemma link_slope_pos k a : 0 <= link_slope k a.
Proof. pose proof (steepness_pos (a_n a)). pose proof (pos_INR (a_segments a)). destruct k; cbn [link_slope]; nra. Qed.

(** The pixels an output reads, and how far two images are apart on them. *)
Definition window_distance (a : conv_args) (H W : nat) (x x' : tensor R) (b p q : nat) : R :=
  rsum (a_in a) (fun c => rsum (a_kernel a) (fun i => rsum (a_kernel a) (fun j =>
    if (reads a H p i && reads a W q j)%bool
    then Rabs (at_ x [b; c; row_read a p i; row_read a q j] - at_ x' [b; c; row_read a p i; row_read a q j]) else 0))).

Theorem C103_lipschitz : forall k a l x x' B H W M y y', good_args a -> smooth_kind k -> a_length a = 2 -> held_conv2d k a l ->
  image_in_range k a x -> image_in_range k a x' ->
  shape x = [B; a_in a; H; W] -> shape x' = [B; a_in a; H; W] -> fits a H -> fits a W -> 0 <= M ->
  (forall ix, valid (shape (cv_w l)) ix -> Rabs (at_ (cv_w l) ix) <= M) ->
  conv2d_forward l x = Ok y -> conv2d_forward l x' = Ok y' ->
  forall b o p q, valid (shape y) [b; o; p; q] ->
    Rabs (at_ y [b; o; p; q] - at_ y' [b; o; p; q]) <= output_scale a * (M * link_slope k a * window_distance a H W x x' b p q).
Proof.
  intros k a l x x' B H W M y y' G Hk Hlen Hl Rx Rx' Hx Hx' FH FW M0 HM E E' b o p q Hi.
  assert (HL : fc_length k a) by (destruct Hk as [-> | ->]; cbn; auto).
  assert (HP : conv_per k a = a_periodicity a) by (destruct Hk as [-> | ->]; reflexivity).
  destruct (C35_conv2d k a l x B H W G HL Hl Hx FH FW) as (z & Ez & Sz & V). rewrite E in Ez. injection Ez as <-.
  destruct (C35_conv2d k a l x' B H W G HL Hl Hx' FH FW) as (z' & Ez' & Sz' & V'). rewrite E' in Ez'. injection Ez' as <-.
  rewrite Sz in Hi. cbn -[positions] in Hi. destruct Hi as (Hb & Ho & Hp & Hq & _).
  rewrite V, V' by assumption. rewrite <- Rmult_minus_distr_l, Rabs_mult, (Rabs_pos_eq (output_scale a)) by now apply scale_pos.
  apply Rmult_le_compat_l; [now apply scale_pos|]. unfold window_distance.
  rewrite <- rsum_minus, <- rsum_scal. eapply Rle_trans; [apply rsum_abs|]. apply rsum_le. intros c Hc.
  rewrite <- rsum_minus, <- rsum_scal. eapply Rle_trans; [apply rsum_abs|]. apply rsum_le. intros i Hi.
  rewrite <- rsum_minus, <- rsum_scal. eapply Rle_trans; [apply rsum_abs|]. apply rsum_le. intros j Hj.
  destruct (reads a H p i) eqn:R1; cbn [andb]; [|rewrite Rminus_eq_0, Rabs_R0; lra].
  destruct (reads a W q j) eqn:R2; [|rewrite Rminus_eq_0, Rabs_R0; lra].
  assert (Val : valid [B; a_in a; H; W] [b; c; row_read a p i; row_read a q j]) by (cbn -[row_read]; repeat split; auto; now apply read_inside).
  apply link_lipschitz; auto.
  - rewrite <- HP. apply Rx. now rewrite Hx.
  - rewrite <- HP. apply Rx'. now rewrite Hx'.
  - intros v Hv. now apply kernel2d_bounded.
Qed.
Print Assumptions C103_lipschitz.

Theorem C103_lipschitz_1d : forall k a l x x' B H M y y', good_args a -> smooth_kind k -> a_length a = 2 -> held_conv1d k a l ->
  image_in_range k a x -> image_in_range k a x' ->
  shape x = [B; a_in a; H] -> shape x' = [B; a_in a; H] -> fits a H -> 0 <= M ->
  (forall ix, valid (shape (cv_w l)) ix -> Rabs (at_ (cv_w l) ix) <= M) ->
  conv1d_forward l x = Ok y -> conv1d_forward l x' = Ok y' ->
  forall b o p, valid (shape y) [b; o; p] ->
    Rabs (at_ y [b; o; p] - at_ y' [b; o; p]) <= output_scale a * (M * link_slope k a *
      rsum (a_in a) (fun c => rsum (a_kernel a) (fun i =>
        if reads a H p i then Rabs (at_ x [b; c; row_read a p i] - at_ x' [b; c; row_read a p i]) else 0))).
Proof.
  intros k a l x x' B H M y y' G Hk Hlen Hl Rx Rx' Hx Hx' FH M0 HM E E' b o p Hi.
  assert (HL : fc_length k a) by (destruct Hk as [-> | ->]; cbn; auto).
  assert (HP : conv_per k a = a_periodicity a) by (destruct Hk as [-> | ->]; reflexivity).
  destruct (C35_conv1d k a l x B H G HL Hl Hx FH) as (z & Ez & Sz & V). rewrite E in Ez. injection Ez as <-.
  destruct (C35_conv1d k a l x' B H G HL Hl Hx' FH) as (z' & Ez' & Sz' & V'). rewrite E' in Ez'. injection Ez' as <-.
  rewrite Sz in Hi. cbn -[positions] in Hi. destruct Hi as (Hb & Ho & Hp & _).
  rewrite V, V' by assumption. rewrite <- Rmult_minus_distr_l, Rabs_mult, (Rabs_pos_eq (output_scale a)) by now apply scale_pos.
  apply Rmult_le_compat_l; [now apply scale_pos|].
  rewrite <- rsum_minus, <- rsum_scal. eapply Rle_trans; [apply rsum_abs|]. apply rsum_le. intros c Hc.
  rewrite <- rsum_minus, <- rsum_scal. eapply Rle_trans; [apply rsum_abs|]. apply rsum_le. intros i Hi.
  destruct (reads a H p i) eqn:R1; [|rewrite Rminus_eq_0, Rabs_R0; lra].
  assert (Val : valid [B; a_in a; H] [b; c; row_read a p i]) by (cbn -[row_read]; repeat split; auto; now apply read_inside).
  apply link_lipschitz; auto.
  - rewrite <- HP. apply Rx. now rewrite Hx.
  - rewrite <- HP. apply Rx'. now rewrite Hx'.
  - intros v Hv. now apply kernel1d_bounded.
Qed.
Print Assumptions C103_lipschitz_1d.

(** ** A concrete case: an image of 1/4 uses only the upper segment, so the first weight of any kernel position is unused. *)
Definition quarter : tensor R := mkT [1; 2; 5; 5]%nat (fun _ => 1/4).
Definition quarter_weights : tensor R := mkT [4; 10; 3; 3]%nat (fun ix => if Nat.even (nth 1 ix 0%nat) then 1/2 else -(1/2)).
Definition quarter_conv : conv := conv_of PiecewiseConv demo_args quarter_weights.
Lemma quarter_held : held_conv2d PiecewiseConv demo_args quarter_conv.
Proof.
  assert (G : good_args demo_args) by (unfold good_args, demo_args; cbn; lia).
  destruct (new_conv2d_spec PiecewiseConv demo_args (fun _ => 0) (fun _ => 0) G) as (w & E & Sw & _).
  exists (fun _ => 0), (fun _ => 0), (conv_of PiecewiseConv demo_args w), quarter_weights. split; [exact E|]. split; [symmetry; exact Sw|reflexivity].
Qed.

Example C103_case : exists y, conv2d_forward quarter_conv quarter = Ok y /\
  (forall t, exists y', conv2d_forward (conv_with_w quarter_conv (upd (cv_w quarter_conv) [2; 5; 1; 0]%nat t)) quarter = Ok y' /\ teq y' y) /\
  (forall ix, valid (shape y) ix -> Rabs (at_ y ix) <= 36).
Proof.
  assert (G : good_args demo_args) by (unfold good_args, demo_args; cbn; lia).
  assert (F : fits demo_args 5) by (unfold fits; cbn; lia).
  destruct (C35_conv2d PiecewiseConv demo_args quarter_conv quarter 1 5 5 G eq_refl quarter_held eq_refl F F) as (y & E & _). exists y. split; [exact E|]. split.
  - intros t. apply (C103_unvisited_weight PiecewiseConv demo_args quarter_conv quarter 1 5 5 2 1 0 1 0 t y G ltac:(now left) eq_refl quarter_held eq_refl F F ltac:(cbn; lia)); [|exact E].
    intros b p q m _ _ _ _ _ Hm. cbn [at_ quarter link_class weight_pos a_n demo_args].
    assert (Q : pixel_segment PiecewiseConv demo_args (1/4) = 1%nat).
    { unfold pixel_segment. rewrite which_segment_seg, Nat2Z.id by (cbn; lia).
      apply seg_spec; try (cbn; lia); [reflexivity|]. unfold in_segment, knot. cbn. split; [lia|]. split; right; lra. }
    rewrite Q. lia.
  - intros ix Hi. eapply Rle_trans; [apply (C103_bounded PiecewiseConv demo_args quarter_conv quarter 1 5 5 (1/2) y); auto|].
    + exact quarter_held.
    + split; [cbn; lia|]. split; [reflexivity|]. intros jx Hj i _. cbn [at_ quarter]. lra.
    + lra.
    + intros jx Hj. cbn [cv_w quarter_conv conv_of at_ quarter_weights]. destruct (Nat.even _); [rewrite Rabs_pos_eq|rewrite Rabs_left]; lra.
    + right. cbn -[INR]. change (INR 18) with (IZR 18) || rewrite (INR_IZR_INZ 18). rewrite (INR_IZR_INZ 2). cbn. field.
Qed.
