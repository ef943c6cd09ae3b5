(** * high_order_layers_torch/FunctionalConvolution.py and FunctionalConvolutionTranspose.py.
    Definitions only. *)
From Coq Require Import Reals ZArith List Bool.
From Verif Require Import Spec Tensor Utils LagrangePolynomial Basis Expand.
Import ListNotations.
Local Open Scope R_scope.

(** ** torch.nn.Conv1d, Conv2d, ConvTranspose2d (torch documentation)

    groups = 1, padding_mode = 'zeros' (ConvOptions.v has the other choices), no bias, same kernel size, stride, padding
    and dilation in both directions; kernel size and dilation at least 1. *)

(** Number of output positions; None when torch raises RuntimeError. *)
Definition conv_size (H k stride padding dilation : nat) : option nat :=
  if Nat.eqb stride 0 then None
  else if Nat.leb (dilation * (k - 1) + 1) (H + 2 * padding)
       then Some ((H + 2 * padding - (dilation * (k - 1) + 1)) / stride + 1)%nat
       else None.

(** Entry [y] of a row padded with [p] zeros on both sides. *)
Definition padded (H p y : nat) (f : nat -> R) : R :=
  if (Nat.leb p y && Nat.ltb (y - p) H)%bool then f (y - p)%nat else 0.

Definition conv2d (w : tensor R) (stride padding dilation : nat) (x : tensor R) : res (tensor R) :=
  match shape w, shape x with
  | [Co; C; k; k'], [B; C'; H; W] =>
      if Nat.eqb C C' then
        match conv_size H k stride padding dilation, conv_size W k' stride padding dilation with
        | Some H', Some W' =>
            Ok (mkT [B; Co; H'; W'] (fun ix => match ix with
              | [b; o; y; z] =>
                  rsum C (fun c => rsum k (fun i => rsum k' (fun j =>
                    at_ w [o; c; i; j] *
                    padded H padding (y * stride + i * dilation) (fun y =>
                      padded W padding (z * stride + j * dilation) (fun z => at_ x [b; c; y; z])))))
              | _ => 0 end))
        | _, _ => Err RuntimeError
        end
      else Err RuntimeError
  | _, _ => Err RuntimeError
  end.

Definition conv1d (w : tensor R) (stride padding dilation : nat) (x : tensor R) : res (tensor R) :=
  match shape w, shape x with
  | [Co; C; k], [B; C'; H] =>
      if Nat.eqb C C' then
        match conv_size H k stride padding dilation with
        | Some H' =>
            Ok (mkT [B; Co; H'] (fun ix => match ix with
              | [b; o; y] =>
                  rsum C (fun c => rsum k (fun i =>
                    at_ w [o; c; i] *
                    padded H padding (y * stride + i * dilation) (fun y => at_ x [b; c; y])))
              | _ => 0 end))
        | None => Err RuntimeError
        end
      else Err RuntimeError
  | _, _ => Err RuntimeError
  end.

Definition conv_transpose_size (H k stride padding output_padding dilation : nat) : option nat :=
  let full := ((H - 1) * stride + dilation * (k - 1) + output_padding + 1)%nat in
  if (Nat.eqb H 0 || Nat.eqb stride 0)%bool then None
  else if Nat.leb (Nat.max stride dilation) output_padding then None
  else if Nat.leb full (2 * padding) then None
  else Some (full - 2 * padding)%nat.

(** Every input position spreads its value over the kernel; weight of shape [C, O, k, k]. *)
Definition conv_transpose2d (w : tensor R) (stride padding output_padding dilation : nat) (x : tensor R)
  : res (tensor R) :=
  match shape w, shape x with
  | [C; Co; k; k'], [B; C'; H; W] =>
      if Nat.eqb C C' then
        match conv_transpose_size H k stride padding output_padding dilation,
              conv_transpose_size W k' stride padding output_padding dilation with
        | Some H', Some W' =>
            Ok (mkT [B; Co; H'; W'] (fun ix => match ix with
              | [b; o; y'; z'] =>
                  rsum C (fun c => rsum H (fun y => rsum W (fun z => rsum k (fun i => rsum k' (fun j =>
                    if (Nat.eqb (y * stride + i * dilation) (y' + padding) &&
                        Nat.eqb (z * stride + j * dilation) (z' + padding))%bool
                    then at_ x [b; c; y; z] * at_ w [c; o; i; j] else 0)))))
              | _ => 0 end))
        | _, _ => Err RuntimeError
        end
      else Err RuntimeError
  | _, _ => Err RuntimeError
  end.

(** ** Initial weights *)

(** [t.uniform_(a, b)] with [u] the underlying draw from [0,1). *)
Definition uniform (s : list nat) (a b : R) (u : index -> R) : tensor R :=
  mkT s (fun ix => a + (b - a) * u ix).

(** FunctionalConvolution.py 17-50 [constant_random_initialization_conv2d]; [draw] is torch.rand.
    [resize] of a non-contiguous tensor copies it first, so it acts as reshape; a wrong number of
    elements raises RuntimeError. *)
Definition constant_random_initialization_conv2d (w : tensor R)
    (num_nodes out_channels in_channels kernel_height kernel_width : nat) (weight_magnitude : R)
    (draw : index -> R) : res (tensor R) :=
  if Nat.eqb num_nodes 0 then Err ZeroDivisionError else
  let in_features := (kernel_width * kernel_height * in_channels / num_nodes)%nat in
  let rv := mkT [out_channels; (in_channels / num_nodes)%nat; kernel_height; kernel_width]
              (fun ix => draw ix * weight_magnitude / INR in_features) in
  let rv := mkT (shape rv ++ [num_nodes]) (fun ix => at_ rv (removelast ix)) in
  let rv := permute [0; 1; 4; 2; 3]%nat rv in
  reshape [out_channels; in_channels; kernel_height; kernel_width] rv.

(** ** The layers *)

(** The convolution families: FunctionalConvolution.py 176-218 FourierConvolution, 268-320
    PolynomialConvolution, 392-447 PiecewisePolynomialConvolution, 522-574
    PiecewiseDiscontinuousPolynomialConvolution. *)
Inductive conv_kind := FourierConv | PolynomialConv | PiecewiseConv | PiecewiseDiscontinuousConv.

(** Number of basis functions per input channel: lines 203, 299, 424, 553. *)
Definition conv_nb (k : conv_kind) (n segments : nat) : nat :=
  match k with
  | FourierConv | PolynomialConv => n
  | PiecewiseConv => ((n - 1) * segments + 1)%nat
  | PiecewiseDiscontinuousConv => (n * segments)%nat
  end.

(** The expansion object of the 2d (lines 202, 298, 475-477, 604-606) and of the 1d classes (298, 514-516, 645-647). *)
Definition conv_expansion (k : conv_kind) (two_d : bool) (n segments : nat) (length : R) : expansion :=
  match k with
  | FourierConv => FourierExpand n length
  | PolynomialConv => LagrangeExpand n length
  | PiecewiseConv =>
      PiecewisePolynomialExpand (if two_d then PiecewiseExpand else PiecewiseExpand1d) n segments length
  | PiecewiseDiscontinuousConv =>
      PiecewisePolynomialExpand (if two_d then PiecewiseDiscontinuousExpand else PiecewiseDiscontinuousExpand1d)
        n segments length
  end.

(** Attributes of a layer object. *)
Record conv := mkConv {
  cv_kind : conv_kind; cv_n : nat; cv_segments : nat; cv_length : R; cv_in : nat; cv_out : nat;
  cv_kernel : nat; cv_stride : nat; cv_padding : nat; cv_dilation : nat;
  cv_periodicity : option R; cv_rescale : R; cv_w : tensor R }.

(** Arguments of a constructor. *)
Record conv_args := mkConvArgs {
  a_n : nat; a_segments : nat; a_in : nat; a_out : nat; a_kernel : nat; a_length : R;
  a_rescale_output : bool; a_periodicity : option R; a_weight_magnitude : R;
  a_stride : nat; a_padding : nat; a_dilation : nat }.

(** Lines 210-213, 309-312, 436-439, 563-566; also for the 1d classes, where only one kernel
    direction exists. *)
Definition rescale_of (a : conv_args) : R :=
  if a_rescale_output a then 1 / INR (a_in a * a_kernel a * a_kernel a) else 1.

(** [conv_wrapper], lines 53-103, as the base classes call it: rescale_output is not passed on, so the
    weights are drawn from +-magnitude/in_features. *)
Definition conv_wrapper_init (s : list nat) (channels kernel : nat) (magnitude : R) (u : index -> R) : tensor R :=
  let in_features := INR (channels * kernel * kernel) in
  uniform s (- magnitude / in_features) (magnitude / in_features) u.

(** The 2d classes: lines 221-242, 323-362, 450-490, 577-619.  [u] is the draw made by conv_wrapper,
    [draw] the one of constant_random_initialization_conv2d (not called for Fourier).  FourierConvolution
    swallows periodicity. *)
Definition new_conv2d (k : conv_kind) (a : conv_args) (u draw : index -> R) : res conv :=
  let channels := (conv_nb k (a_n a) (a_segments a) * a_in a)%nat in
  let w0 := conv_wrapper_init [a_out a; channels; a_kernel a; a_kernel a] channels (a_kernel a)
              (match k with FourierConv => a_weight_magnitude a | _ => 1 end) u in
  let per := match k with FourierConv => None | _ => a_periodicity a end in
  w <- match k with
       | FourierConv => Ok w0
       | _ => constant_random_initialization_conv2d w0 (conv_nb k (a_n a) (a_segments a)) (a_out a) channels
                (a_kernel a) (a_kernel a) (a_weight_magnitude a) draw
       end ;;
  Ok (mkConv k (a_n a) (a_segments a) (a_length a) (a_in a) (a_out a) (a_kernel a) (a_stride a) (a_padding a)
        (a_dilation a) per (rescale_of a) w).

(** The 1d classes: lines 366-389, 493-519, 622-650; FourierConvolution1d (245-265) leaves
    [expansion] at its default None and line 202 calls it, TypeError. *)
Definition new_conv1d (k : conv_kind) (a : conv_args) (u : index -> R) : res conv :=
  let channels := (conv_nb k (a_n a) (a_segments a) * a_in a)%nat in
  match k with
  | FourierConv => Err TypeError
  | _ =>
      Ok (mkConv k (a_n a) (a_segments a) (a_length a) (a_in a) (a_out a) (a_kernel a) (a_stride a) (a_padding a)
            (a_dilation a) (a_periodicity a) (rescale_of a)
            (conv_wrapper_init [a_out a; channels; a_kernel a] channels (a_kernel a) (a_weight_magnitude a) u))
  end.

(** The layer with another content of its weights. *)
Definition conv_with_w (l : conv) (w : tensor R) : conv :=
  mkConv (cv_kind l) (cv_n l) (cv_segments l) (cv_length l) (cv_in l) (cv_out l) (cv_kernel l) (cv_stride l)
    (cv_padding l) (cv_dilation l) (cv_periodicity l) (cv_rescale l) w.

(** [forward]: lines 215-218, 314-320, 441-447, 568-574. *)
Definition conv2d_forward (l : conv) (x : tensor R) : res (tensor R) :=
  let x := tmap (apply_periodicity (cv_periodicity l)) x in
  x <- Expansion2d (conv_expansion (cv_kind l) true (cv_n l) (cv_segments l) (cv_length l)) x ;;
  out <- conv2d (cv_w l) (cv_stride l) (cv_padding l) (cv_dilation l) x ;;
  Ok (tmap (fun v => v * cv_rescale l) out).
Definition conv1d_forward (l : conv) (x : tensor R) : res (tensor R) :=
  let x := tmap (apply_periodicity (cv_periodicity l)) x in
  x <- Expansion1d (conv_expansion (cv_kind l) false (cv_n l) (cv_segments l) (cv_length l)) x ;;
  out <- conv1d (cv_w l) (cv_stride l) (cv_padding l) (cv_dilation l) x ;;
  Ok (tmap (fun v => v * cv_rescale l) out).

(** FunctionalConvolutionTranspose.py 18-72, 75-129, 132-160 [PiecewisePolynomialConvolutionTranspose2d]; the weight has
    shape [channels, out, k, k]. *)
Record conv_transpose := mkConvT { ct_conv : conv; ct_output_padding : nat }.
Definition new_conv_transpose2d (a : conv_args) (output_padding : nat) (u : index -> R) : conv_transpose :=
  let channels := (conv_nb PiecewiseConv (a_n a) (a_segments a) * a_in a)%nat in
  mkConvT (mkConv PiecewiseConv (a_n a) (a_segments a) (a_length a) (a_in a) (a_out a) (a_kernel a) (a_stride a)
     (a_padding a) (a_dilation a) (a_periodicity a) (rescale_of a)
     (conv_wrapper_init [channels; a_out a; a_kernel a; a_kernel a] channels (a_kernel a) (a_weight_magnitude a) u))
     output_padding.
Definition conv_transpose2d_forward (t : conv_transpose) (x : tensor R) : res (tensor R) :=
  let l := ct_conv t in
  let x := tmap (apply_periodicity (cv_periodicity l)) x in
  x <- Expansion2d (conv_expansion (cv_kind l) true (cv_n l) (cv_segments l) (cv_length l)) x ;;
  out <- conv_transpose2d (cv_w l) (cv_stride l) (cv_padding l) (ct_output_padding t) (cv_dilation l) x ;;
  Ok (tmap (fun v => v * cv_rescale l) out).
