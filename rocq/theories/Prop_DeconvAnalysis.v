(** * Which pixels reach an output of a transposed convolution, and what follows from it (C109). *)
From Coq Require Import Reals ZArith List Lia Lra Psatz Bool.
From Verif Require Import Spec Tensor Utils LagrangePolynomial Basis PolynomialLayers Expand Convolution
  Observe ObserveConv SumFacts TensorFacts LagrangeFacts LayerFacts SegmentFacts LayerProofs ExpandFacts ConvFacts LebesgueFacts
  Prop_Layers Prop_Conv Prop_Product Prop_Bounds Prop_Lipschitz Prop_ConvAnalysis.
Import ListNotations.
Local Open Scope R_scope.

(** The row of the image which kernel offset [i] spreads to output row [p]: the [h] with h*stride + i*dilation = p + padding, if there is one. *)
Definition feeds (a : conv_args) (H p i : nat) : option nat :=
  if (Nat.leb (i * a_dilation a) (p + a_padding a) && Nat.eqb ((p + a_padding a - i * a_dilation a) mod a_stride a) 0 &&
      Nat.ltb ((p + a_padding a - i * a_dilation a) / a_stride a) H)%bool
  then Some ((p + a_padding a - i * a_dilation a) / a_stride a)%nat else None.
(** How many kernel offsets reach an output row. *)
Definition reach (a : conv_args) (H p : nat) : nat :=
  length (filter (fun i => match feeds a H p i with Some _ => true | None => false end) (seq 0 (a_kernel a))).
(** The sizes PyTorch accepts. *)
Definition spreads (a : conv_args) (op H : nat) : Prop :=
  (1 <= H)%nat /\ (op < Nat.max (a_stride a) (a_dilation a))%nat /\ (2 * a_padding a < full_size a op H)%nat.
(** What a kernel position applies to a pixel. *)
Definition spread_link (a : conv_args) (t : conv_transpose) (o c i j : nat) (x : R) : R :=
  conv_link PiecewiseConv (a_n a) (a_segments a) (a_length a) (a_periodicity a) (kernel_t a t c o i j) x.

Lemma feeds_spec a H p i h : (1 <= a_stride a)%nat ->
  feeds a H p i = Some h <-> (h < H)%nat /\ (h * a_stride a + i * a_dilation a = p + a_padding a)%nat.
Proof.
  intros S1. unfold feeds. set (s := a_stride a) in *. set (D := (i * a_dilation a)%nat). set (P := (p + a_padding a)%nat).
  destruct (Nat.leb_spec D P) as [L|L]; cbn [andb].
  - destruct (Nat.eqb_spec ((P - D) mod s) 0) as [M|M]; cbn [andb].
    + pose proof (Nat.div_mod (P - D) s ltac:(lia)) as E. rewrite M in E.
      destruct (Nat.ltb_spec ((P - D) / s) H) as [K|K].
      * split.
        -- intros Q. injection Q as <-. split; [exact K|nia].
        -- intros (Q1 & Q2). f_equal. nia.
      * split; [discriminate|]. intros (Q1 & Q2). assert (h = (P - D) / s)%nat by nia. lia.
    + split; [discriminate|]. intros (Q1 & Q2). exfalso. apply M. replace (P - D)%nat with (h * s)%nat by lia. apply Nat.mod_mul. lia.
  - split; [discriminate|]. lia.
Qed.

Lemma rsum_feeds a H p i (f : nat -> R) : (1 <= a_stride a)%nat ->
  rsum H (fun h => if Nat.eqb (h * a_stride a + i * a_dilation a) (p + a_padding a) then f h else 0)
  = match feeds a H p i with Some h => f h | None => 0 end.
Proof.
  intros S1. destruct (feeds a H p i) as [h|] eqn:E.
  - apply feeds_spec in E; [|exact S1]. destruct E as (Hh & Eh).
    rewrite <- (rsum_delta H h f Hh). apply rsum_ext. intros h' Hh'.
    destruct (Nat.eqb_spec (h' * a_stride a + i * a_dilation a) (p + a_padding a)) as [Q|Q];
      destruct (Nat.eqb_spec h' h) as [Q'|Q']; subst; try ring; exfalso; [apply Q'; nia|now apply Q].
  - apply rsum_zero. intros h Hh. destruct (Nat.eqb_spec (h * a_stride a + i * a_dilation a) (p + a_padding a)) as [Q|Q]; [|reflexivity].
    assert (feeds a H p i = Some h) by (apply feeds_spec; auto). congruence.
Qed.

(** ** One term for every kernel position that is aligned with a pixel *)
Theorem C109_value : forall a op t x B H W, good_args a -> a_length a = 2 -> held_conv_transpose a op t ->
  shape x = [B; a_in a; H; W] -> spreads a op H -> spreads a op W ->
  exists y, conv_transpose2d_forward t x = Ok y /\
  shape y = [B; a_out a; (full_size a op H - 2 * a_padding a)%nat; (full_size a op W - 2 * a_padding a)%nat] /\
  forall b o p q, (b < B)%nat -> (o < a_out a)%nat ->
    at_ y [b; o; p; q] = output_scale a * rsum (a_in a) (fun c => rsum (a_kernel a) (fun i => rsum (a_kernel a) (fun j =>
      match feeds a H p i, feeds a W q j with
      | Some h, Some w => spread_link a t o c i j (at_ x [b; c; h; w])
      | _, _ => 0
      end))).
Proof.
  intros a op t x B H W G HL Ht Hx (H1 & Hop & FH) (W1 & _ & FW).
  destruct (C38_transpose a op t x B H W G HL Ht Hx H1 W1 Hop FH FW) as (y & E & Sy & V). exists y. split; [exact E|]. split; [exact Sy|].
  intros b o p q Hb Ho. rewrite V by auto. apply (f_equal (Rmult (output_scale a))). apply rsum_ext. intros c Hc.
  assert (S1 : (1 <= a_stride a)%nat) by (destruct G as (_ & _ & _ & _ & _ & G6 & _); exact G6).
  transitivity (rsum H (fun h => rsum (a_kernel a) (fun i => rsum (a_kernel a) (fun j => rsum W (fun w =>
      if (Nat.eqb (h * a_stride a + i * a_dilation a) (p + a_padding a) && Nat.eqb (w * a_stride a + j * a_dilation a) (q + a_padding a))%bool
      then spread_link a t o c i j (at_ x [b; c; h; w]) else 0))))).
  { apply rsum_ext. intros h Hh. rewrite rsum_swap. apply rsum_ext. intros i Hi. apply rsum_swap. }
  rewrite rsum_swap. apply rsum_ext. intros i Hi. rewrite rsum_swap. apply rsum_ext. intros j Hj.
  transitivity (rsum H (fun h => if Nat.eqb (h * a_stride a + i * a_dilation a) (p + a_padding a)
      then match feeds a W q j with Some w => spread_link a t o c i j (at_ x [b; c; h; w]) | None => 0 end else 0)).
  { apply rsum_ext. intros h Hh. destruct (Nat.eqb (h * a_stride a + i * a_dilation a) (p + a_padding a)); cbn [andb].
    - apply (rsum_feeds a W q j (fun w => spread_link a t o c i j (at_ x [b; c; h; w])) S1).
    - apply rsum_0. }
  rewrite (rsum_feeds a H p i (fun h => match feeds a W q j with Some w => spread_link a t o c i j (at_ x [b; c; h; w]) | None => 0 end) S1).
  destruct (feeds a H p i); reflexivity.
Qed.
Print Assumptions C109_value.

(** ** Outputs no pixel reaches are 0, whatever the weights and the image *)
Lemma gap_unreached a H p : (1 <= a_stride a)%nat -> (a_dilation a * (a_kernel a - 1) < (p + a_padding a) mod a_stride a)%nat ->
  forall i, (i < a_kernel a)%nat -> feeds a H p i = None.
Proof.
  intros S1 L i Hi. destruct (feeds a H p i) as [h|] eqn:E; [|reflexivity]. exfalso. apply feeds_spec in E; [|exact S1]. destruct E as (_ & E).
  rewrite <- E in L. rewrite Nat.add_comm, Nat.mod_add in L by lia.
  pose proof (Nat.mod_le (i * a_dilation a) (a_stride a) ltac:(lia)) as M.
  assert ((i * a_dilation a <= a_dilation a * (a_kernel a - 1))%nat) by (rewrite Nat.mul_comm; apply Nat.mul_le_mono_l; lia). lia.
Qed.

Theorem C109_gaps : forall a op t x B H W y, good_args a -> a_length a = 2 -> held_conv_transpose a op t ->
  shape x = [B; a_in a; H; W] -> spreads a op H -> spreads a op W -> conv_transpose2d_forward t x = Ok y ->
  forall b o p q, (b < B)%nat -> (o < a_out a)%nat ->
    (a_dilation a * (a_kernel a - 1) < (p + a_padding a) mod a_stride a \/ a_dilation a * (a_kernel a - 1) < (q + a_padding a) mod a_stride a)%nat ->
    at_ y [b; o; p; q] = 0.
Proof.
  intros a op t x B H W y G HL Ht Hx FH FW E b o p q Hb Ho L.
  assert (S1 : (1 <= a_stride a)%nat) by (destruct G as (_ & _ & _ & _ & _ & G6 & _); exact G6).
  destruct (C109_value a op t x B H W G HL Ht Hx FH FW) as (z & Ez & Sz & V). rewrite E in Ez. injection Ez as <-.
  rewrite V by auto. rewrite rsum_zero; [ring|]. intros c Hc. apply rsum_zero. intros i Hi. apply rsum_zero. intros j Hj.
  destruct L as [L|L].
  - now rewrite (gap_unreached a H p S1 L i Hi).
  - rewrite (gap_unreached a W q S1 L j Hj). now destruct (feeds a H p i).
Qed.
Print Assumptions C109_gaps.

(** ** A pixel influences only the outputs its kernel is spread over *)
Theorem C109_locality : forall a op t x x' B H W h0 w0 y y', good_args a -> a_length a = 2 -> held_conv_transpose a op t ->
  shape x = [B; a_in a; H; W] -> shape x' = [B; a_in a; H; W] -> spreads a op H -> spreads a op W ->
  conv_transpose2d_forward t x = Ok y -> conv_transpose2d_forward t x' = Ok y' ->
  (forall b c h w, valid [B; a_in a; H; W] [b; c; h; w] -> (h, w) <> (h0, w0) -> at_ x [b; c; h; w] = at_ x' [b; c; h; w]) ->
  forall b o p q, (b < B)%nat -> (o < a_out a)%nat ->
    ~ (exists i j, (i < a_kernel a)%nat /\ (j < a_kernel a)%nat /\
         (h0 * a_stride a + i * a_dilation a = p + a_padding a)%nat /\ (w0 * a_stride a + j * a_dilation a = q + a_padding a)%nat) ->
    at_ y [b; o; p; q] = at_ y' [b; o; p; q].
Proof.
  intros a op t x x' B H W h0 w0 y y' G HL Ht Hx Hx' FH FW E E' D b o p q Hb Ho N.
  assert (S1 : (1 <= a_stride a)%nat) by (destruct G as (_ & _ & _ & _ & _ & G6 & _); exact G6).
  destruct (C109_value a op t x B H W G HL Ht Hx FH FW) as (z & Ez & Sz & V). rewrite E in Ez. injection Ez as <-.
  destruct (C109_value a op t x' B H W G HL Ht Hx' FH FW) as (z & Ez & Sz' & V'). rewrite E' in Ez. injection Ez as <-.
  rewrite V, V' by auto. apply (f_equal (Rmult (output_scale a))). apply rsum_ext. intros c Hc. apply rsum_ext. intros i Hi. apply rsum_ext. intros j Hj.
  destruct (feeds a H p i) as [h|] eqn:Eh; [|reflexivity]. destruct (feeds a W q j) as [w|] eqn:Ew; [|reflexivity].
  apply feeds_spec in Eh; [|exact S1]. apply feeds_spec in Ew; [|exact S1]. destruct Eh as (Lh & Eh). destruct Ew as (Lw & Ew).
  apply (f_equal (spread_link a t o c i j)). apply D; [cbn [valid]; repeat split; assumption|].
  intros Q. injection Q as -> ->. apply N. exists i, j. repeat split; assumption.
Qed.
Print Assumptions C109_locality.

(** ** Bounds by the number of contributions *)
Lemma rsum_filter (f : nat -> bool) n : rsum n (fun i => if f i then 1 else 0) = INR (length (filter f (seq 0 n))).
Proof.
  induction n as [|n IH]; [reflexivity|]. rewrite seq_S, filter_app, app_length, plus_INR, <- IH. cbn [rsum Nat.add filter]. destruct (f n); cbn; ring.
Qed.
Lemma reach_sum a H p : INR (reach a H p) = rsum (a_kernel a) (fun i => match feeds a H p i with Some _ => 1 | None => 0 end).
Proof. unfold reach. rewrite <- rsum_filter. apply rsum_ext. intros i Hi. now destruct (feeds a H p i). Qed.
Lemma reach_product a H W p q m :
  rsum (a_kernel a) (fun i => rsum (a_kernel a) (fun j => match feeds a H p i, feeds a W q j with Some _, Some _ => m | _, _ => 0 end))
  = INR (reach a H p) * INR (reach a W q) * m.
Proof.
  rewrite reach_sum, (reach_sum a W q). rewrite Rmult_assoc, <- rsum_scal_r. apply rsum_ext. intros i Hi.
  destruct (feeds a H p i).
  - rewrite Rmult_1_l, <- rsum_scal_r. apply rsum_ext. intros j Hj. destruct (feeds a W q j); ring.
  - rewrite Rmult_0_l. apply rsum_0.
Qed.
Lemma filter_len {A} (f : A -> bool) l : (length (filter f l) <= length l)%nat.
Proof. induction l as [|x l IH]; [auto|]. cbn. destruct (f x); cbn; lia. Qed.
Lemma reach_le a H p : (reach a H p <= a_kernel a)%nat.
Proof. unfold reach. rewrite <- (seq_length (a_kernel a) 0) at 2. apply filter_len. Qed.

Lemma held_t_shape a op t : held_conv_transpose a op t ->
  shape (cv_w (ct_conv t)) = [(conv_nb PiecewiseConv (a_n a) (a_segments a) * a_in a)%nat; a_out a; a_kernel a; a_kernel a].
Proof. intros (u & w & Sw & ->). exact Sw. Qed.
Lemma channel_lt nb I c v : (c < I)%nat -> (v < nb)%nat -> (c * nb + v < nb * I)%nat.
Proof. intros Hc Hv. assert (((c + 1) * nb <= I * nb)%nat) by (apply Nat.mul_le_mono_r; lia). lia. Qed.
Lemma kernel_t_bounded a op t M c o i j v : held_conv_transpose a op t ->
  (forall ix, valid (shape (cv_w (ct_conv t))) ix -> Rabs (at_ (cv_w (ct_conv t)) ix) <= M) ->
  (o < a_out a)%nat -> (c < a_in a)%nat -> (i < a_kernel a)%nat -> (j < a_kernel a)%nat -> (v < conv_nb PiecewiseConv (a_n a) (a_segments a))%nat ->
  Rabs (kernel_t a t c o i j v) <= M.
Proof.
  intros Ht HM Ho Hc Hi Hj Hv. apply HM. rewrite (held_t_shape a op t Ht).
  split; [now apply channel_lt|]. split; [exact Ho|]. split; [exact Hi|]. split; [exact Hj|exact I].
Qed.

Theorem C109_bounded : forall a op t x B H W M y, good_args a -> (2 <= a_n a)%nat -> a_length a = 2 -> held_conv_transpose a op t ->
  image_in_range PiecewiseConv a x -> shape x = [B; a_in a; H; W] -> spreads a op H -> spreads a op W -> 0 <= M ->
  (forall ix, valid (shape (cv_w (ct_conv t))) ix -> Rabs (at_ (cv_w (ct_conv t)) ix) <= M) ->
  conv_transpose2d_forward t x = Ok y ->
  forall b o p q, (b < B)%nat -> (o < a_out a)%nat ->
    Rabs (at_ y [b; o; p; q]) <= output_scale a * (INR (a_in a) * (INR (reach a H p) * INR (reach a W q) * (2 * INR (a_n a - 1) * M))).
Proof.
  intros a op t x B H W M y G N2 HL Ht Rx Hx FH FW M0 HM E b o p q Hb Ho.
  assert (S1 : (1 <= a_stride a)%nat) by (destruct G as (_ & _ & _ & _ & _ & G6 & _); exact G6).
  destruct (C109_value a op t x B H W G HL Ht Hx FH FW) as (z & Ez & Sz & V). rewrite E in Ez. injection Ez as <-.
  rewrite V by auto. rewrite Rabs_mult, (Rabs_pos_eq (output_scale a)) by now apply scale_pos.
  apply Rmult_le_compat_l; [now apply scale_pos|]. rewrite <- reach_product, <- rsum_const.
  eapply Rle_trans; [apply rsum_abs|]. apply rsum_le. intros c Hc.
  eapply Rle_trans; [apply rsum_abs|]. apply rsum_le. intros i Hi.
  eapply Rle_trans; [apply rsum_abs|]. apply rsum_le. intros j Hj.
  destruct (feeds a H p i) as [h|] eqn:Eh; [|cbn iota; rewrite Rabs_R0; lra]. destruct (feeds a W q j) as [w|] eqn:Ew; [|cbn iota; rewrite Rabs_R0; lra].
  apply feeds_spec in Eh; [|exact S1]. apply feeds_spec in Ew; [|exact S1].
  unfold spread_link. change (a_periodicity a) with (conv_per PiecewiseConv a). change (2 * INR (a_n a - 1) * M) with (link_bound PiecewiseConv (a_n a) M).
  apply (link_bounded PiecewiseConv a (kernel_t a t c o i j) M (at_ x [b; c; h; w]) G).
  - split; [exact N2|]. split; [exact HL|]. apply Rx. rewrite Hx. cbn [valid]. repeat split; try assumption; apply Eh || apply Ew.
  - intros v Hv. now apply (kernel_t_bounded a op).
Qed.
Print Assumptions C109_bounded.

(** ** Continuity of the image in the pixels *)
Theorem C109_lipschitz : forall a op t x x' B H W M y y', good_args a -> a_length a = 2 -> held_conv_transpose a op t ->
  image_in_range PiecewiseConv a x -> image_in_range PiecewiseConv a x' ->
  shape x = [B; a_in a; H; W] -> shape x' = [B; a_in a; H; W] -> spreads a op H -> spreads a op W -> 0 <= M ->
  (forall ix, valid (shape (cv_w (ct_conv t))) ix -> Rabs (at_ (cv_w (ct_conv t)) ix) <= M) ->
  conv_transpose2d_forward t x = Ok y -> conv_transpose2d_forward t x' = Ok y' ->
  forall b o p q, (b < B)%nat -> (o < a_out a)%nat ->
    Rabs (at_ y [b; o; p; q] - at_ y' [b; o; p; q]) <= output_scale a * (M * (steepness (a_n a) * INR (a_segments a)) *
      rsum (a_in a) (fun c => rsum (a_kernel a) (fun i => rsum (a_kernel a) (fun j =>
        match feeds a H p i, feeds a W q j with
        | Some h, Some w => Rabs (at_ x [b; c; h; w] - at_ x' [b; c; h; w])
        | _, _ => 0
        end)))).
Proof.
  intros a op t x x' B H W M y y' G HL Ht Rx Rx' Hx Hx' FH FW M0 HM E E' b o p q Hb Ho.
  assert (S1 : (1 <= a_stride a)%nat) by (destruct G as (_ & _ & _ & _ & _ & G6 & _); exact G6).
  destruct (C109_value a op t x B H W G HL Ht Hx FH FW) as (z & Ez & Sz & V). rewrite E in Ez. injection Ez as <-.
  destruct (C109_value a op t x' B H W G HL Ht Hx' FH FW) as (z & Ez & Sz' & V'). rewrite E' in Ez. injection Ez as <-.
  rewrite V, V' by auto. rewrite <- Rmult_minus_distr_l, Rabs_mult, (Rabs_pos_eq (output_scale a)) by now apply scale_pos.
  apply Rmult_le_compat_l; [now apply scale_pos|].
  rewrite <- rsum_minus, <- rsum_scal. eapply Rle_trans; [apply rsum_abs|]. apply rsum_le. intros c Hc.
  rewrite <- rsum_minus, <- rsum_scal. eapply Rle_trans; [apply rsum_abs|]. apply rsum_le. intros i Hi.
  rewrite <- rsum_minus, <- rsum_scal. eapply Rle_trans; [apply rsum_abs|]. apply rsum_le. intros j Hj.
  destruct (feeds a H p i) as [h|] eqn:Eh; [|cbn iota; rewrite Rminus_eq_0, Rabs_R0; lra]. destruct (feeds a W q j) as [w|] eqn:Ew; [|cbn iota; rewrite Rminus_eq_0, Rabs_R0; lra].
  apply feeds_spec in Eh; [|exact S1]. apply feeds_spec in Ew; [|exact S1].
  assert (Val : valid [B; a_in a; H; W] [b; c; h; w]) by (cbn [valid]; repeat split; try assumption; apply Eh || apply Ew).
  unfold spread_link. change (conv_link PiecewiseConv (a_n a) (a_segments a) (a_length a) (a_periodicity a)) with (conv_link PiecewiseConv (a_n a) (a_segments a) (a_length a) (conv_per PiecewiseConv a)).
  change (steepness (a_n a) * INR (a_segments a)) with (link_slope PiecewiseConv a).
  apply (link_lipschitz PiecewiseConv a (kernel_t a t c o i j) M _ _ G); auto.
  - now right.
  - apply (Rx [b; c; h; w]). now rewrite Hx.
  - apply (Rx' [b; c; h; w]). now rewrite Hx'.
  - intros v Hv. now apply (kernel_t_bounded a op).
Qed.
Print Assumptions C109_lipschitz.

(** ** A weight matters only where the pixels use it *)
Theorem C109_unvisited_weight : forall a op t x B H W o c v i j s y, good_args a -> a_length a = 2 -> held_conv_transpose a op t ->
  shape x = [B; a_in a; H; W] -> spreads a op H -> spreads a op W ->
  (v < conv_nb PiecewiseConv (a_n a) (a_segments a))%nat ->
  (forall b h w m, (b < B)%nat -> (h < H)%nat -> (w < W)%nat -> (m < a_n a)%nat ->
     v <> weight_pos PiecewisePolynomial (a_n a) (pixel_segment PiecewiseConv a (at_ x [b; c; h; w])) m) ->
  conv_transpose2d_forward t x = Ok y ->
  exists y', conv_transpose2d_forward (mkConvT (conv_with_w (ct_conv t)
      (upd (cv_w (ct_conv t)) [(c * conv_nb PiecewiseConv (a_n a) (a_segments a) + v)%nat; o; i; j] s)) (ct_output_padding t)) x = Ok y' /\ teq y' y.
Proof.
  intros a op t x B H W o c v i j s y G HL Ht Hx FH FW Hv N E.
  assert (S1 : (1 <= a_stride a)%nat) by (destruct G as (_ & _ & _ & _ & _ & G6 & _); exact G6).
  set (t' := mkConvT _ _). assert (Ht' : held_conv_transpose a op t').
  { destruct Ht as (u & w & Sw & ->). exists u, (upd w [(c * conv_nb PiecewiseConv (a_n a) (a_segments a) + v)%nat; o; i; j] s). split; [exact Sw|reflexivity]. }
  destruct (C109_value a op t x B H W G HL Ht Hx FH FW) as (z & Ez & Sz & V). rewrite E in Ez. injection Ez as <-.
  destruct (C109_value a op t' x B H W G HL Ht' Hx FH FW) as (y' & E' & S' & V'). exists y'. split; [exact E'|]. split; [congruence|].
  intros ix Hi. rewrite S' in Hi. destruct ix as [|b [|o' [|p [|q [|]]]]]; cbn -[full_size] in Hi; try tauto. destruct Hi as (Hb & Ho & Hp & Hq & _).
  rewrite V, V' by assumption. apply (f_equal (Rmult (output_scale a))). apply rsum_ext. intros c' Hc. apply rsum_ext. intros i' Hi. apply rsum_ext. intros j' Hj.
  destruct (feeds a H p i') as [h|] eqn:Eh; [|reflexivity]. destruct (feeds a W q j') as [w|] eqn:Ew; [|reflexivity].
  apply feeds_spec in Eh; [|exact S1]. apply feeds_spec in Ew; [|exact S1].
  set (nb := conv_nb PiecewiseConv (a_n a) (a_segments a)) in *.
  assert (D : forall v', (v' < nb)%nat -> ~ (c' = c /\ v' = v) -> kernel_t a t' c' o' i' j' v' = kernel_t a t c' o' i' j' v').
  { intros v' Hv' D. unfold kernel_t, t'. cbn [cv_w ct_conv conv_with_w]. apply upd_other. fold nb. intros Q. apply D.
    injection Q as Q _ _ _. destruct (split_index nb c' v' c v Hv' Hv ltac:(congruence)) as (-> & ->). now split. }
  unfold spread_link. destruct (Nat.eq_dec c' c) as [->|Nc].
  - apply (link_unused PiecewiseConv a _ _ v _ G ltac:(now left) HL).
    + intros v' Hv' Nv. apply D; [exact Hv'|intros (Q1 & Q2); congruence].
    + intros m Hm. apply N; try assumption; apply Eh || apply Ew.
  - apply (link_ext PiecewiseConv a _ _ _ G HL). intros v' Hv'. apply D; [exact Hv'|intros (Q1 & Q2); congruence].
Qed.
Print Assumptions C109_unvisited_weight.

(** ** Rows all of whose kernel offsets fall inside the image *)
Definition inner (a : conv_args) (H p : nat) : Prop :=
  (a_dilation a * (a_kernel a - 1) <= p + a_padding a)%nat /\ (p + a_padding a < H * a_stride a)%nat.

Lemma inner_feeds a H p i : (1 <= a_stride a)%nat -> inner a H p -> (i < a_kernel a)%nat ->
  feeds a H p i = if Nat.eqb ((p + a_padding a - i * a_dilation a) mod a_stride a) 0 then Some ((p + a_padding a - i * a_dilation a) / a_stride a)%nat else None.
Proof.
  intros S1 (L & U) Hi. unfold feeds.
  assert ((i * a_dilation a <= a_dilation a * (a_kernel a - 1))%nat) by (rewrite Nat.mul_comm; apply Nat.mul_le_mono_l; lia).
  destruct (Nat.leb_spec (i * a_dilation a) (p + a_padding a)); [|lia]. cbn [andb].
  destruct (Nat.eqb _ 0); cbn [andb]; [|reflexivity].
  destruct (Nat.ltb_spec ((p + a_padding a - i * a_dilation a) / a_stride a) H); [reflexivity|].
  exfalso. assert ((p + a_padding a - i * a_dilation a) / a_stride a < H)%nat; [|lia]. apply Nat.div_lt_upper_bound; nia.
Qed.

(** Moving the image by (u, v) pixels moves the inner part of the output by (u*stride, v*stride). *)
Theorem C109_translation : forall a op t x x' B H W u v y y', good_args a -> a_length a = 2 -> held_conv_transpose a op t ->
  shape x = [B; a_in a; H; W] -> shape x' = [B; a_in a; H; W] -> spreads a op H -> spreads a op W ->
  conv_transpose2d_forward t x = Ok y -> conv_transpose2d_forward t x' = Ok y' ->
  (forall b c h w, (b < B)%nat -> (c < a_in a)%nat -> (h + u < H)%nat -> (w + v < W)%nat -> at_ x' [b; c; (h + u)%nat; (w + v)%nat] = at_ x [b; c; h; w]) ->
  forall b o p q, (b < B)%nat -> (o < a_out a)%nat -> inner a H p -> inner a H (p + u * a_stride a) -> inner a W q -> inner a W (q + v * a_stride a) ->
    at_ y' [b; o; (p + u * a_stride a)%nat; (q + v * a_stride a)%nat] = at_ y [b; o; p; q].
Proof.
  intros a op t x x' B H W u v y y' G HL Ht Hx Hx' FH FW E E' D b o p q Hb Ho I1 I2 J1 J2.
  assert (S1 : (1 <= a_stride a)%nat) by (destruct G as (_ & _ & _ & _ & _ & G6 & _); exact G6).
  destruct (C109_value a op t x B H W G HL Ht Hx FH FW) as (z & Ez & Sz & V). rewrite E in Ez. injection Ez as <-.
  destruct (C109_value a op t x' B H W G HL Ht Hx' FH FW) as (z & Ez & Sz' & V'). rewrite E' in Ez. injection Ez as <-.
  assert (Sh : forall H p u i, inner a H p -> inner a H (p + u * a_stride a) -> (i < a_kernel a)%nat ->
    match feeds a H (p + u * a_stride a) i with
    | Some h' => exists h, feeds a H p i = Some h /\ h' = (h + u)%nat /\ (h' < H)%nat
    | None => feeds a H p i = None
    end).
  { clear - S1. intros H p u i I1 I2 Hi. destruct (feeds a H (p + u * a_stride a) i) as [h'|] eqn:F.
    - apply feeds_spec in F; [|exact S1]. destruct F as (F1 & F2). exists (h' - u)%nat.
      assert ((i * a_dilation a <= a_dilation a * (a_kernel a - 1))%nat) by (rewrite Nat.mul_comm; apply Nat.mul_le_mono_l; lia).
      destruct I1 as (L & _). assert ((u <= h')%nat) by nia. split; [|lia]. apply feeds_spec; [exact S1|]. split; [lia|].
      rewrite Nat.mul_sub_distr_r. assert ((u * a_stride a <= h' * a_stride a)%nat) by now apply Nat.mul_le_mono_r. lia.
    - destruct (feeds a H p i) as [h|] eqn:F'; [|reflexivity]. apply feeds_spec in F'; [|exact S1]. destruct F' as (F1 & F2).
      assert (feeds a H (p + u * a_stride a) i = Some (h + u)%nat); [|congruence]. apply feeds_spec; [exact S1|].
      destruct I2 as (_ & U). rewrite Nat.mul_add_distr_r. split; [nia|lia]. }
  rewrite V, V' by auto. apply (f_equal (Rmult (output_scale a))). apply rsum_ext. intros c Hc. apply rsum_ext. intros i Hi. apply rsum_ext. intros j Hj.
  pose proof (Sh H p u i I1 I2 Hi) as A1. pose proof (Sh W q v j J1 J2 Hj) as A2.
  destruct (feeds a H (p + u * a_stride a) i) as [h'|]; [|now rewrite A1].
  destruct A1 as (h & -> & -> & L1). destruct (feeds a W (q + v * a_stride a) j) as [w'|]; [|now rewrite A2].
  destruct A2 as (w & -> & -> & L2). apply (f_equal (spread_link a t o c i j)). now apply D.
Qed.
Print Assumptions C109_translation.

(** ** Checkerboards: constant weights do not give a constant image unless the stride divides the kernel size *)
Lemma class_count s r k : (r < s)%nat ->
  length (filter (fun i => Nat.eqb (i mod s) r) (seq 0 k)) = (k / s + (if Nat.ltb r (k mod s) then 1 else 0))%nat.
Proof.
  intros Hr. induction k as [|k IH]; [rewrite Nat.div_0_l, Nat.mod_0_l by lia; reflexivity|].
  rewrite seq_S, filter_app, app_length, IH. cbn [Nat.add filter].
  pose proof (Nat.div_mod k s ltac:(lia)) as E. pose proof (Nat.mod_upper_bound k s ltac:(lia)) as U.
  destruct (Nat.eq_dec (S (k mod s)) s) as [Q|Q].
  - assert (Ed : (S k / s = S (k / s))%nat) by (symmetry; apply (Nat.div_unique (S k) s (S (k / s)) 0); nia).
    assert (Em : (S k mod s = 0)%nat) by (symmetry; apply (Nat.mod_unique (S k) s (S (k / s)) 0); nia).
    rewrite Ed, Em. destruct (Nat.eqb_spec (k mod s) r); cbn [length]; destruct (Nat.ltb_spec r (k mod s)); cbn; lia.
  - assert (Ed : (S k / s = k / s)%nat) by (symmetry; apply (Nat.div_unique (S k) s (k / s) (S (k mod s))); nia).
    assert (Em : (S k mod s = S (k mod s))%nat) by (symmetry; apply (Nat.mod_unique (S k) s (k / s) (S (k mod s))); nia).
    rewrite Ed, Em. destruct (Nat.eqb_spec (k mod s) r); cbn [length]; destruct (Nat.ltb_spec r (k mod s)); destruct (Nat.ltb_spec r (S (k mod s))); cbn; lia.
Qed.

Lemma aligned_mod s P i : (1 <= s)%nat -> (i <= P)%nat -> Nat.eqb ((P - i) mod s) 0 = Nat.eqb (i mod s) (P mod s).
Proof.
  intros S1 L. destruct (Nat.eqb_spec ((P - i) mod s) 0) as [M|M]; destruct (Nat.eqb_spec (i mod s) (P mod s)) as [Q|Q]; auto; exfalso.
  - apply Q. pose proof (Nat.div_mod (P - i) s ltac:(lia)) as E. rewrite M in E. replace P with (i + (P - i) / s * s)%nat by nia. now rewrite Nat.mod_add by lia.
  - apply M. pose proof (Nat.div_mod P s ltac:(lia)) as E. pose proof (Nat.div_mod i s ltac:(lia)) as E'. rewrite <- Q in E.
    replace (P - i)%nat with ((P / s - i / s) * s)%nat by (rewrite Nat.mul_sub_distr_r; lia). apply Nat.mod_mul. lia.
Qed.

Theorem C109_reach : forall a H p, (1 <= a_stride a)%nat -> a_dilation a = 1%nat -> inner a H p ->
  reach a H p = (a_kernel a / a_stride a + (if Nat.ltb ((p + a_padding a) mod a_stride a) (a_kernel a mod a_stride a) then 1 else 0))%nat.
Proof.
  intros a H p S1 D I. rewrite <- class_count by (apply Nat.mod_upper_bound; lia). unfold reach. f_equal. apply filter_ext_in. intros i Hi. apply in_seq in Hi.
  rewrite (inner_feeds a H p i S1 I) by lia. rewrite D, Nat.mul_1_r. destruct I as (L & _). rewrite D in L. rewrite aligned_mod by lia. now destruct (Nat.eqb _ _).
Qed.
Print Assumptions C109_reach.

(** With all weights equal, every output is that weight times the number of contributions, whatever the pixels. *)
Theorem C109_constant : forall a op t x B H W k y, good_args a -> a_length a = 2 -> held_conv_transpose a op t ->
  shape x = [B; a_in a; H; W] -> spreads a op H -> spreads a op W ->
  (forall ix, valid (shape (cv_w (ct_conv t))) ix -> at_ (cv_w (ct_conv t)) ix = k) ->
  conv_transpose2d_forward t x = Ok y ->
  forall b o p q, (b < B)%nat -> (o < a_out a)%nat ->
    at_ y [b; o; p; q] = output_scale a * (INR (a_in a) * (INR (reach a H p) * INR (reach a W q) * k)).
Proof.
  intros a op t x B H W k y G HL Ht Hx FH FW Hk E b o p q Hb Ho.
  destruct (C109_value a op t x B H W G HL Ht Hx FH FW) as (z & Ez & Sz & V). rewrite E in Ez. injection Ez as <-.
  rewrite V by auto. apply (f_equal (Rmult (output_scale a))). rewrite <- reach_product, <- rsum_const. apply rsum_ext. intros c Hc. apply rsum_ext. intros i Hi. apply rsum_ext. intros j Hj.
  destruct (feeds a H p i) as [h|]; [|reflexivity]. destruct (feeds a W q j) as [w|]; [|reflexivity].
  pose proof G as (G1 & G2 & _). unfold spread_link. cbn [conv_link]. rewrite HL.
  set (l := pw_link PiecewisePolynomial (a_n a) (a_segments a) 2 (a_periodicity a) (kernel_t a t c o i j)).
  assert (Hl : held l) by now apply pw_link_held.
  unfold l. rewrite pw_link_out; [|exact G1|exact G2|now left]. fold l. apply link_const; [exact Hl|].
  intros v Hv. change (at_ (pw_w l) [0%nat; 0%nat; v]) with (kernel_t a t c o i j v). apply Hk.
  rewrite (held_t_shape a op t Ht). split; [now apply channel_lt|]. split; [exact Ho|]. split; [exact Hi|]. split; [exact Hj|exact I].
Qed.
Print Assumptions C109_constant.

Theorem C109_even : forall a op t x B H W k y, good_args a -> a_length a = 2 -> held_conv_transpose a op t ->
  shape x = [B; a_in a; H; W] -> spreads a op H -> spreads a op W -> a_dilation a = 1%nat -> (a_kernel a mod a_stride a = 0)%nat ->
  (forall ix, valid (shape (cv_w (ct_conv t))) ix -> at_ (cv_w (ct_conv t)) ix = k) ->
  conv_transpose2d_forward t x = Ok y ->
  forall b o p q, (b < B)%nat -> (o < a_out a)%nat -> inner a H p -> inner a W q ->
    at_ y [b; o; p; q] = output_scale a * (INR (a_in a) * (INR (a_kernel a / a_stride a) * INR (a_kernel a / a_stride a) * k)).
Proof.
  intros a op t x B H W k y G HL Ht Hx FH FW D M Hk E b o p q Hb Ho I J.
  assert (S1 : (1 <= a_stride a)%nat) by (destruct G as (_ & _ & _ & _ & _ & G6 & _); exact G6).
  rewrite (C109_constant a op t x B H W k y G HL Ht Hx FH FW Hk E b o p q Hb Ho).
  rewrite (C109_reach a H p S1 D I), (C109_reach a W q S1 D J), M. cbn [Nat.ltb Nat.leb]. rewrite Nat.add_0_r. reflexivity.
Qed.
Print Assumptions C109_even.

Theorem C109_checkerboard : forall a op t x B H W k y, good_args a -> a_length a = 2 -> held_conv_transpose a op t ->
  shape x = [B; a_in a; H; W] -> spreads a op H -> spreads a op W -> a_dilation a = 1%nat ->
  (forall ix, valid (shape (cv_w (ct_conv t))) ix -> at_ (cv_w (ct_conv t)) ix = k) ->
  conv_transpose2d_forward t x = Ok y ->
  forall b o p p' q, (b < B)%nat -> (o < a_out a)%nat -> inner a H p -> inner a H p' -> inner a W q ->
    ((p + a_padding a) mod a_stride a < a_kernel a mod a_stride a)%nat -> (a_kernel a mod a_stride a <= (p' + a_padding a) mod a_stride a)%nat ->
    at_ y [b; o; p; q] - at_ y [b; o; p'; q] = output_scale a * (INR (a_in a) * (INR (reach a W q) * k)).
Proof.
  intros a op t x B H W k y G HL Ht Hx FH FW D Hk E b o p p' q Hb Ho I I' J L L'.
  assert (S1 : (1 <= a_stride a)%nat) by (destruct G as (_ & _ & _ & _ & _ & G6 & _); exact G6).
  rewrite !(C109_constant a op t x B H W k y G HL Ht Hx FH FW Hk E b o _ q Hb Ho).
  rewrite (C109_reach a H p S1 D I), (C109_reach a H p' S1 D I').
  apply Nat.ltb_lt in L. apply Nat.ltb_ge in L'. rewrite L, L', !plus_INR. cbn [INR]. ring.
Qed.
Print Assumptions C109_checkerboard.

(** ** [rescale_output] divides by the size of the kernel, not by the number of contributions *)
Theorem C109_rescaled : forall a op t x B H W k y, good_args a -> a_length a = 2 -> held_conv_transpose a op t -> a_rescale_output a = true ->
  shape x = [B; a_in a; H; W] -> spreads a op H -> spreads a op W ->
  (forall ix, valid (shape (cv_w (ct_conv t))) ix -> at_ (cv_w (ct_conv t)) ix = k) ->
  conv_transpose2d_forward t x = Ok y ->
  forall b o p q, (b < B)%nat -> (o < a_out a)%nat ->
    at_ y [b; o; p; q] = k * ((INR (reach a H p) / INR (a_kernel a)) * (INR (reach a W q) / INR (a_kernel a))).
Proof.
  intros a op t x B H W k y G HL Ht Hr Hx FH FW Hk E b o p q Hb Ho.
  rewrite (C109_constant a op t x B H W k y G HL Ht Hx FH FW Hk E b o p q Hb Ho). unfold output_scale. rewrite Hr, !mult_INR.
  destruct G as (_ & _ & G3 & _ & G5 & _). field. split; apply not_0_INR; lia.
Qed.
Print Assumptions C109_rescaled.

(** The upsampling layer with kernel and stride 2, whose contributions are all 1. *)
Definition up_args : conv_args := mkConvArgs 2 1 1 1 2 2 true None 1 2 0 1.
Definition up_layer : conv_transpose :=
  mkConvT (conv_with_w (ct_conv (new_conv_transpose2d up_args 0 (fun _ => 0))) (mkT [2; 1; 2; 2]%nat (fun _ => 1))) 0.
Definition up_image : tensor R := mkT [1; 1; 2; 2]%nat (fun ix => INR (nth 2 ix 0%nat) / 3 - INR (nth 3 ix 0%nat) / 7).
Lemma up_held : held_conv_transpose up_args 0 up_layer.
Proof. exists (fun _ => 0), (mkT [2; 1; 2; 2]%nat (fun _ => 1)). split; reflexivity. Qed.
Lemma up_good : good_args up_args.
Proof. unfold good_args. cbn. lia. Qed.

(** The docstring of [rescale_output] has it that the output is "divided by the number of inputs for each output, in effect taking
    the average".  Here every output has exactly one input, whose contribution is 1, and is 1/4. *)
Theorem C109_rescaled_average_refuted : exists y, conv_transpose2d_forward up_layer up_image = Ok y /\
  shape y = [1; 1; 4; 4]%nat /\
  (forall p q, (p < 4)%nat -> (q < 4)%nat -> reach up_args 2 p = 1%nat /\ reach up_args 2 q = 1%nat /\ at_ y [0; 0; p; q]%nat = 1 / 4) /\
  (forall i j x, spread_link up_args up_layer 0 0 i j x = 1).
Proof.
  assert (F : spreads up_args 0 2) by (unfold spreads, full_size; cbn; lia).
  destruct (C109_value up_args 0 up_layer up_image 1 2 2 up_good eq_refl up_held eq_refl F F) as (y & E & Sy & _). exists y. split; [exact E|]. split; [exact Sy|].
  assert (R1 : forall p, (p < 4)%nat -> reach up_args 2 p = 1%nat) by (intros p Hp; do 4 (destruct p as [|p]; [reflexivity|]); lia).
  split.
  - intros p q Hp Hq. split; [now apply R1|]. split; [now apply R1|].
    rewrite (C109_rescaled up_args 0 up_layer up_image 1 2 2 1 y up_good eq_refl up_held eq_refl eq_refl F F ltac:(intros; reflexivity) E) by (cbn; lia).
    rewrite !R1 by assumption. cbn. field.
  - intros i j x. unfold spread_link. cbn [conv_link a_n a_segments a_length a_periodicity up_args]. rewrite pw_link_out; [|lia|lia|now left].
    apply link_const; [apply pw_link_held; lia|]. intros v Hv. reflexivity.
Qed.
Print Assumptions C109_rescaled_average_refuted.

(** A stride of 3 with a kernel of 2 leaves every third row and column 0; a stride of 2 with a kernel of 3 gives a checkerboard. *)
Definition gap_args : conv_args := mkConvArgs 2 1 1 1 2 2 false None 1 3 0 1.
Definition board_args : conv_args := mkConvArgs 2 1 1 1 3 2 false None 1 2 0 1.
Example C109_case :
  (spreads gap_args 0 3 /\ good_args gap_args /\ (a_dilation gap_args * (a_kernel gap_args - 1) < (5 + a_padding gap_args) mod a_stride gap_args)%nat) /\
  (spreads board_args 0 4 /\ inner board_args 4 4 /\ inner board_args 4 5 /\ reach board_args 4 4 = 2%nat /\ reach board_args 4 5 = 1%nat) /\
  (exists y, conv_transpose2d_forward (new_conv_transpose2d gap_args 0 (fun _ => 1 / 2)) (mkT [1; 1; 3; 3]%nat (fun _ => 1 / 3)) = Ok y /\
     (shape y = [1; 1; 8; 8]%nat /\ forall q, at_ y [0; 0; 5; q]%nat = 0)).
Proof.
  assert (G : good_args gap_args) by (unfold good_args; cbn; lia).
  assert (F : spreads gap_args 0 3) by (unfold spreads, full_size; cbn; lia).
  split; [split; [exact F|]; split; [exact G|cbn; lia]|]. split.
  - split; [unfold spreads, full_size; cbn; lia|]. split; [unfold inner; cbn; lia|]. split; [unfold inner; cbn; lia|]. split; reflexivity.
  - set (t := new_conv_transpose2d _ _ _). assert (Ht : held_conv_transpose gap_args 0 t).
    { exists (fun _ => 1 / 2), (cv_w (ct_conv t)). split; reflexivity. }
    set (x := mkT _ _).
    destruct (C109_value gap_args 0 t x 1 3 3 G eq_refl Ht eq_refl F F) as (y & E & Sy & _). exists y. split; [exact E|]. split; [exact Sy|].
    intros q. apply (C109_gaps gap_args 0 t x 1 3 3 y G eq_refl Ht eq_refl F F E); cbn; lia.
Qed.
