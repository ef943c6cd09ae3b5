(** * Observations used by the properties of expansions and convolutions.  Definitions only. *)
From Coq Require Import Reals ZArith List Bool.
From Verif Require Import Spec Tensor Utils LagrangePolynomial Basis PolynomialLayers Expand Convolution Observe.
Import ListNotations.
Local Open Scope R_scope.

(** The fully connected layer class corresponding to an expansion class. *)
Definition fc_class (c : expand_class) : pw_class :=
  match c with
  | PiecewiseExpand | PiecewiseExpand1d => PiecewisePolynomial
  | _ => PiecewiseDiscontinuousPolynomial
  end.
Definition expand_dims (c : expand_class) : nat :=
  match c with PiecewiseExpand | PiecewiseDiscontinuousExpand => 4 | _ => 3 end.

(** A piecewise layer with one input, one output and the weights [w 0, w 1, ...]. *)
Definition pw_link (c : pw_class) (n S : nat) (len : R) (per : option R) (w : nat -> R) : piecewise :=
  let l := new_piecewise c n 1 1 S len 1 per (fun _ _ => 0) in
  with_w l (mkT (shape (pw_w l)) (fun ix => w (nth 2 ix 0%nat))).

(** Output of a Polynomial or FourierSeries layer with one input and one output. *)
Definition func_out (l : func) (x : R) : R := value_at (Function_forward l (one_sample 1 (fun _ => x))) [0; 0]%nat.

(** The function a convolution with [w] as weights of one (output, input channel, kernel position)
    applies to a pixel: that of the fully connected layer of the same family. *)
Definition conv_link (k : conv_kind) (n S : nat) (len : R) (per : option R) (w : nat -> R) (x : R) : R :=
  let wt := mkT [1; 1; n]%nat (fun ix => w (nth 2 ix 0%nat)) in
  match k with
  | FourierConv => func_out (with_fw (FourierSeries n 1 1 len 1 None (fun _ _ => 0)) wt) x
  | PolynomialConv => func_out (with_fw (Polynomial n 1 1 len 1 per (fun _ _ => 0)) wt) x
  | PiecewiseConv => layer_out (pw_link PiecewisePolynomial n S len per w) (fun _ => x) 0
  | PiecewiseDiscontinuousConv => layer_out (pw_link PiecewiseDiscontinuousPolynomial n S len per w) (fun _ => x) 0
  end.

(** Arguments describing a layer at all: sizes at least 1. *)
Definition good_args (a : conv_args) : Prop :=
  (1 <= a_n a)%nat /\ (1 <= a_segments a)%nat /\ (1 <= a_in a)%nat /\ (1 <= a_out a)%nat /\
  (1 <= a_kernel a)%nat /\ (1 <= a_stride a)%nat /\ (1 <= a_dilation a)%nat.

(** Convolution layers a user can hold: built by a constructor, then given any weights. *)
Definition held_conv2d (k : conv_kind) (a : conv_args) (l : conv) : Prop :=
  exists u draw l0 w, new_conv2d k a u draw = Ok l0 /\ shape w = shape (cv_w l0) /\ l = conv_with_w l0 w.
Definition held_conv1d (k : conv_kind) (a : conv_args) (l : conv) : Prop :=
  exists u l0 w, new_conv1d k a u = Ok l0 /\ shape w = shape (cv_w l0) /\ l = conv_with_w l0 w.
Definition held_conv_transpose (a : conv_args) (op : nat) (t : conv_transpose) : Prop :=
  exists u w, shape w = shape (cv_w (ct_conv (new_conv_transpose2d a op u))) /\
    t = mkConvT (conv_with_w (ct_conv (new_conv_transpose2d a op u)) w) op.

(** Piecewise families agree with the fully connected layers only for the default length. *)
Definition fc_length (k : conv_kind) (a : conv_args) : Prop :=
  match k with PiecewiseConv | PiecewiseDiscontinuousConv => a_length a = 2 | _ => True end.
(** The Fourier family ignores periodicity. *)
Definition conv_per (k : conv_kind) (a : conv_args) : option R :=
  match k with FourierConv => None | _ => a_periodicity a end.

(** What [rescale_output] multiplies the outputs with: one over the number of input channels and kernel positions. *)
Definition output_scale (a : conv_args) : R :=
  if a_rescale_output a then 1 / INR (a_in a * a_kernel a * a_kernel a) else 1.

(** Receptive field: kernel offset [i] of output position [y] reads row [y*stride + i*dilation - padding],
    if that is a row of the image. *)
Definition reads (a : conv_args) (H y i : nat) : bool :=
  (Nat.leb (a_padding a) (y * a_stride a + i * a_dilation a) &&
   Nat.ltb (y * a_stride a + i * a_dilation a) (a_padding a + H))%bool.
Definition row_read (a : conv_args) (y i : nat) : nat := (y * a_stride a + i * a_dilation a - a_padding a)%nat.

(** The kernel fits into the padded image, and the number of positions it has there. *)
Definition fits (a : conv_args) (H : nat) : Prop :=
  (a_dilation a * (a_kernel a - 1) + 1 <= H + 2 * a_padding a)%nat.
Definition positions (a : conv_args) (H : nat) : nat :=
  ((H + 2 * a_padding a - a_dilation a * (a_kernel a - 1) - 1) / a_stride a + 1)%nat.
