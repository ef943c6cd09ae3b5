(** * Observations used by the properties of convolutional networks.  Definitions only. *)
From Coq Require Import String Reals ZArith List Bool.
From Verif Require Import Spec Tensor Utils Convolution ConvNetworks ObserveConv.
Import ListNotations.
Local Open Scope R_scope.

(** Family and number of spatial dimensions of the constructible layer types. *)
Definition conv_class_names : list (string * (nat * conv_kind)) :=
  [("continuous2d"%string, (2%nat, PiecewiseConv)); ("continuous1d"%string, (1%nat, PiecewiseConv));
   ("discontinuous2d"%string, (2%nat, PiecewiseDiscontinuousConv)); ("discontinuous1d"%string, (1%nat, PiecewiseDiscontinuousConv));
   ("polynomial2d"%string, (2%nat, PolynomialConv)); ("polynomial1d"%string, (1%nat, PolynomialConv));
   ("fourier2d"%string, (2%nat, FourierConv))].

(** Entry [i] of an argument given as a scalar or as a list; [d] if there is none. *)
Definition entry {A} (d : A) (v : option (listed A)) (i : nat) : A :=
  match v with Some (Scalar a) => a | Some (Listed l) => nth i l d | None => d end.

(** A network with [c] channels in the list has [c - 1] layers; what the arguments say about layer [i]. *)
Definition layers (a : cn_args) : nat := (length (cn_channels a) - 1)%nat.
Definition channel (a : cn_args) (i : nat) : nat := nth i (cn_channels a) 0%nat.
Definition layer_args (a : cn_args) (i : nat) : conv_args :=
  mkConvArgs (entry 0%nat (cn_n a) i) (entry 0%nat (cn_segments a) i) (channel a i) (channel a (i + 1))
    (nth i (cn_kernel_size a) 0%nat) 2 (cn_rescale_output a) (cn_periodicity a) 1
    (match cn_stride a with None => 1%nat | Some s => entry 0%nat (Some s) i end) (cn_padding a) 1.
Definition layer_type_of (a : cn_args) (i : nat) : string := entry ""%string (cn_layer_type a) i.

(** Sensible arguments: at least one layer, every layer has its own sizes, all at least 1 (lists may be longer than needed),
    and a constructible type for [d] spatial dimensions. *)
Definition net_ok (d : nat) (a : cn_args) : Prop :=
  (2 <= length (cn_channels a))%nat /\
  forall i, (i < layers a)%nat -> good_args (layer_args a i) /\ exists k, In (layer_type_of a i, (d, k)) conv_class_names.

(** Size of a spatial dimension after [i] layers, and the condition that every kernel fits. *)
Fixpoint width (a : cn_args) (i W : nat) : nat :=
  match i with O => W | S j => positions (layer_args a j) (width a j W) end.
Definition net_fits (a : cn_args) (W : nat) : Prop := forall i, (i < layers a)%nat -> fits (layer_args a i) (width a i W).

(** Layers and networks a user can hold: built, then given any weights; the normalisations are any modules that keep the
    shape of the tensors their layer makes (rank 4 or 3, their number of channels). *)
Definition trained_layer (c c' : conv_layer) : Prop :=
  match c, c' with
  | Layer2d l, Layer2d l' | Layer1d l, Layer1d l' => exists w, shape w = shape (cv_w l) /\ l' = conv_with_w l w
  | _, _ => False
  end.
Definition layer_rank (l : conv_layer) : nat := match l with Layer2d _ => 4%nat | Layer1d _ => 3%nat end.
Definition keeps_shape (r c : nat) (f : tensor R -> res (tensor R)) : Prop :=
  forall x, length (shape x) = r -> nth_error (shape x) 1 = Some c -> exists y, f x = Ok y /\ shape y = shape x.
Definition built_stages (a : cn_args) (sts : list (stage conv_layer)) : Prop := exists u draw,
  cn_stages a (length (cn_kernel_size a)) (fun i t c => high_order_convolution_layers t c (u i) (draw i)) = Ok sts.
Definition held_stages (a : cn_args) (sts : list (stage conv_layer)) : Prop :=
  exists sts0, built_stages a sts0 /\ length sts = length sts0 /\
  forall i s0 s, nth_error sts0 i = Some s0 -> nth_error sts i = Some s ->
    trained_layer (st_layer s0) (st_layer s) /\
    match st_normal s0, st_normal s with
    | None, None => True
    | Some _, Some f => keeps_shape (layer_rank (st_layer s)) (channel a (i + 1)) f
    | _, _ => False
    end.

(** [ys i] is the tensor after [i] layers (each followed by its normalisation), starting from [x]. *)
Definition activations (sts : list (stage conv_layer)) (x : tensor R) (ys : nat -> tensor R) : Prop :=
  ys 0%nat = x /\
  forall i s, nth_error sts i = Some s ->
    exists z, conv_layer_forward (st_layer s) (ys i) = Ok z /\
      match st_normal s with Some f => f z = Ok (ys (S i)) | None => ys (S i) = z end.

(** ** Tail focus networks *)

(** Number of trailing columns selected from [W] by the python slice [-f:]. *)
Definition kept (f : Z) (W : nat) : nat :=
  if (1 <=? f)%Z then Nat.min (Z.to_nat f) W
  else if (f =? 0)%Z then W
  else (W - Nat.min (Z.to_nat (- f)) W)%nat.
(** The foci as given: their number and the [i]-th of them. *)
Definition foci (a : cn_args) (focus : listed Z) : nat :=
  match focus with Scalar _ => length (cn_kernel_size a) | Listed l => length l end.
Definition focus_of (focus : listed Z) (i : nat) : Z := entry 0%Z (Some focus) i.
(** Columns contributed by the tail of the [i]-th activation, number of tails taken, and the column where a tail starts. *)
Definition piece (a : cn_args) (focus : listed Z) (W i : nat) : nat := (channel a i * kept (focus_of focus i) (width a i W))%nat.
Definition tails (a : cn_args) (focus : listed Z) : nat :=
  match cn_normalization a with Some _ => Nat.min (layers a + 1) (foci a focus) | None => 1%nat end.
Definition offset (a : cn_args) (focus : listed Z) (W i : nat) : nat := list_sum (map (piece a focus W) (seq 0 i)).
(** Networks a user can hold. *)
Definition held_tail (a : cn_args) (focus : option (listed Z)) (m : tail_net) : Prop :=
  held_stages a (tl_stages m) /\ exists u draw m0, new_tail_net a focus u draw = Ok m0 /\
  tl_channels m = tl_channels m0 /\ tl_kernel_size m = tl_kernel_size m0 /\ tl_stride m = tl_stride m0 /\ tl_focus m = tl_focus m0.

(** ** Deconvolutional networks *)

(** Sensible arguments, the width after [i] layers, and the condition that something remains after cutting the padding. *)
Definition deconv_ok (a : cn_args) : Prop :=
  (2 <= length (cn_channels a))%nat /\
  forall i, (i < layers a)%nat -> good_args (layer_args a i) /\ layer_type_of a i = "continuous2d"%string.
Fixpoint dwidth (a : cn_args) (i W : nat) : nat :=
  match i with
  | O => W
  | S j => ((dwidth a j W - 1) * a_stride (layer_args a j) + a_kernel (layer_args a j) - 2 * cn_padding a)%nat
  end.
Definition deconv_fits (a : cn_args) (W : nat) : Prop := (1 <= W)%nat /\
  forall i, (i < layers a)%nat -> (2 * cn_padding a < (dwidth a i W - 1) * a_stride (layer_args a i) + a_kernel (layer_args a i))%nat.
(** Networks a user can hold. *)
Definition held_deconv (a : cn_args) (m : list (stage conv_transpose)) : Prop :=
  exists u m0, new_deconv_net a u = Ok m0 /\ length m = length m0 /\
  forall i s0 s, nth_error m0 i = Some s0 -> nth_error m i = Some s ->
    (exists w, shape w = shape (cv_w (ct_conv (st_layer s0))) /\
       st_layer s = mkConvT (conv_with_w (ct_conv (st_layer s0)) w) (ct_output_padding (st_layer s0))) /\
    match st_normal s0, st_normal s with
    | None, None => True
    | Some _, Some f => keeps_shape 4 (channel a (i + 1)) f
    | _, _ => False
    end.
