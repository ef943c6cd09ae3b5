(** * The options [groups] and [padding_mode] of the transposed convolutions.  Definitions only.

    FunctionalConvolutionTranspose.py 18-72 hands both to torch.nn.ConvTranspose2d.  The defaults, one group and zeros, are
    in Convolution.v.  torch.nn.ConvTranspose2d is not in the repository: what it does is written from its documentation. *)
From Coq Require Import Reals ZArith List.
From Verif Require Import Spec Tensor Utils LagrangePolynomial Basis PolynomialLayers Expand Convolution Layers ConvOptions.
Import ListNotations.
Local Open Scope R_scope.

(** torch.nn.functional.conv_transpose2d.  The weight has shape [in, out / groups, k, k]; input channel [c] belongs to group
    [c / (in / groups)] and is spread over the output channels of that group. *)
Definition conv_transpose2d_groups (groups : nat) (w : tensor R) (stride padding output_padding dilation : nat) (x : tensor R)
  : res (tensor R) :=
  match shape w, shape x with
  | [C; per; k; k'], [B; C'; H; W] =>
      if Nat.eqb C C' then
        match conv_transpose_size H k stride padding output_padding dilation,
              conv_transpose_size W k' stride padding output_padding dilation with
        | Some H', Some W' =>
            Ok (mkT [B; (per * groups)%nat; H'; W'] (fun ix => match ix with
              | [b; o; y'; z'] =>
                  let first := (o / per * (C / groups))%nat in
                  rsum (C / groups) (fun c => rsum H (fun y => rsum W (fun z => rsum k (fun i => rsum k' (fun j =>
                    if (Nat.eqb (y * stride + i * dilation) (y' + padding) &&
                        Nat.eqb (z * stride + j * dilation) (z' + padding))%bool
                    then at_ x [b; (first + c)%nat; y; z] * at_ w [(first + c)%nat; (o mod per)%nat; i; j] else 0)))))
              | _ => 0 end))
        | _, _ => Err RuntimeError
        end
      else Err RuntimeError
  | _, _ => Err RuntimeError
  end.

Record conv_transpose_opt := mkOptT { tt_conv : conv_transpose; tt_groups : nat }.

(** FunctionalConvolutionTranspose.py 75-119, 132-160, as [new_conv_transpose2d].  torch refuses every padding mode other than
    zeros, and numbers of groups that do not divide both numbers of channels (all ValueErrors).  Line 54 computes the bound
    of the draw from the whole number of channels. *)
Definition new_conv_transpose2d_opt (a : conv_args) (output_padding groups : nat) (mode : padding_mode) (u : index -> R)
  : res conv_transpose_opt :=
  let channels := (conv_nb PiecewiseConv (a_n a) (a_segments a) * a_in a)%nat in
  match mode with
  | Zeros =>
      _ <- check_groups groups channels (a_out a) ;;
      Ok (mkOptT (mkConvT (mkConv PiecewiseConv (a_n a) (a_segments a) (a_length a) (a_in a) (a_out a) (a_kernel a) (a_stride a)
            (a_padding a) (a_dilation a) (a_periodicity a) (rescale_of a)
            (conv_wrapper_init [channels; (a_out a / groups)%nat; a_kernel a; a_kernel a] channels (a_kernel a) (a_weight_magnitude a) u))
            output_padding) groups)
  | _ => Err ValueError
  end.
Definition deconv_opt_with_w (t : conv_transpose_opt) (w : tensor R) : conv_transpose_opt :=
  mkOptT (mkConvT (conv_with_w (ct_conv (tt_conv t)) w) (ct_output_padding (tt_conv t))) (tt_groups t).

(** Lines 121-129 [forward]. *)
Definition conv_transpose2d_opt_forward (t : conv_transpose_opt) (x : tensor R) : res (tensor R) :=
  let l := ct_conv (tt_conv t) in
  let x := tmap (apply_periodicity (cv_periodicity l)) x in
  x <- Expansion2d (conv_expansion (cv_kind l) true (cv_n l) (cv_segments l) (cv_length l)) x ;;
  out <- conv_transpose2d_groups (tt_groups t) (cv_w l) (cv_stride l) (cv_padding l) (ct_output_padding (tt_conv t)) (cv_dilation l) x ;;
  Ok (tmap (fun v => v * cv_rescale l) out).
