(** * high_order_layers_torch/FunctionalConvolution.py: the options [padding_mode] and [groups], which all convolution classes
    take as keyword arguments and hand to [conv_wrapper] (lines 53-103).  Definitions only.  (Convolution.v has both at their
    defaults.) *)
From Coq Require Import Reals ZArith List Bool.
From Verif Require Import Spec Tensor Utils LagrangePolynomial Basis Expand Convolution Layers.
Import ListNotations.
Local Open Scope R_scope.

(** ** torch.nn.Conv1d, Conv2d with these options (torch documentation) *)

Inductive padding_mode := Zeros | Reflect | Replicate | Circular.

(** [torch.nn.functional.pad(mode=..)] by [p] on both sides of a dimension of size [H]: the position the padded position [y]
    is copied from, and when torch raises RuntimeError.  Not used for Zeros. *)
Definition pad_source (mode : padding_mode) (H p y : nat) : nat :=
  match mode with
  | Zeros => (y - p)%nat
  | Reflect => if Nat.ltb y p then (p - y)%nat
               else if Nat.ltb (y - p) H then (y - p)%nat else (2 * (H - 1) - (y - p))%nat
  | Replicate => Nat.min (y - p) (H - 1)
  | Circular => ((y + H - p) mod H)%nat
  end.
Definition pad_ok (mode : padding_mode) (H p : nat) : bool :=
  match mode with
  | Zeros => true
  | Reflect => Nat.ltb p H
  | Replicate => Nat.ltb 0 H
  | Circular => (Nat.ltb 0 H && Nat.leb p H)%bool
  end.
Definition pad2d (mode : padding_mode) (p : nat) (x : tensor R) : res (tensor R) :=
  match shape x with
  | [B; C; H; W] =>
      if (pad_ok mode H p && pad_ok mode W p)%bool then
        Ok (mkT [B; C; H + 2 * p; W + 2 * p]%nat (fun ix => match ix with
          | [b; c; y; z] => at_ x [b; c; pad_source mode H p y; pad_source mode W p z]
          | _ => 0 end))
      else Err RuntimeError
  | _ => Err RuntimeError
  end.
Definition pad1d (mode : padding_mode) (p : nat) (x : tensor R) : res (tensor R) :=
  match shape x with
  | [B; C; H] =>
      if pad_ok mode H p then
        Ok (mkT [B; C; H + 2 * p]%nat (fun ix => match ix with
          | [b; c; y] => at_ x [b; c; pad_source mode H p y]
          | _ => 0 end))
      else Err RuntimeError
  | _ => Err RuntimeError
  end.

(** The weight has shape [out, in / groups, ..]; output channel [o] belongs to group [o / (out / groups)] and reads the
    input channels of that group.  Zero padding. *)
Definition conv2d_groups (groups : nat) (w : tensor R) (stride padding dilation : nat) (x : tensor R) : res (tensor R) :=
  match shape w, shape x with
  | [Co; C; k; k'], [B; C'; H; W] =>
      if Nat.eqb (C * groups) C' then
        match conv_size H k stride padding dilation, conv_size W k' stride padding dilation with
        | Some H', Some W' =>
            Ok (mkT [B; Co; H'; W'] (fun ix => match ix with
              | [b; o; y; z] =>
                  let first := (o / (Co / groups) * C)%nat in
                  rsum C (fun c => rsum k (fun i => rsum k' (fun j =>
                    at_ w [o; c; i; j] *
                    padded H padding (y * stride + i * dilation) (fun y =>
                      padded W padding (z * stride + j * dilation) (fun z => at_ x [b; (first + c)%nat; y; z])))))
              | _ => 0 end))
        | _, _ => Err RuntimeError
        end
      else Err RuntimeError
  | _, _ => Err RuntimeError
  end.
Definition conv1d_groups (groups : nat) (w : tensor R) (stride padding dilation : nat) (x : tensor R) : res (tensor R) :=
  match shape w, shape x with
  | [Co; C; k], [B; C'; H] =>
      if Nat.eqb (C * groups) C' then
        match conv_size H k stride padding dilation with
        | Some H' =>
            Ok (mkT [B; Co; H'] (fun ix => match ix with
              | [b; o; y] =>
                  let first := (o / (Co / groups) * C)%nat in
                  rsum C (fun c => rsum k (fun i =>
                    at_ w [o; c; i] *
                    padded H padding (y * stride + i * dilation) (fun y => at_ x [b; (first + c)%nat; y])))
              | _ => 0 end))
        | None => Err RuntimeError
        end
      else Err RuntimeError
  | _, _ => Err RuntimeError
  end.
(** Other padding modes pad first and convolve without padding. *)
Definition Conv2d_forward (groups : nat) (mode : padding_mode) (w : tensor R) (stride padding dilation : nat) (x : tensor R)
  : res (tensor R) :=
  match mode with
  | Zeros => conv2d_groups groups w stride padding dilation x
  | _ => x <- pad2d mode padding x ;; conv2d_groups groups w stride 0 dilation x
  end.
Definition Conv1d_forward (groups : nat) (mode : padding_mode) (w : tensor R) (stride padding dilation : nat) (x : tensor R)
  : res (tensor R) :=
  match mode with
  | Zeros => conv1d_groups groups w stride padding dilation x
  | _ => x <- pad1d mode padding x ;; conv1d_groups groups w stride 0 dilation x
  end.
(** Checks of the constructors of torch. *)
Definition check_groups (groups in_channels out_channels : nat) : res unit :=
  if Nat.eqb groups 0 then Err ValueError
  else if negb (Nat.eqb (in_channels mod groups) 0) then Err ValueError
  else if negb (Nat.eqb (out_channels mod groups) 0) then Err ValueError
  else Ok tt.

(** [w.copy_(v)]: [v] is broadcast to the shape of [w]. *)
Definition copy_ (w v : tensor R) : res (tensor R) :=
  match bshape (shape v) (shape w) with
  | Some s => if list_eq_dec Nat.eq_dec s (shape w) then Ok (mkT (shape w) (fun ix => at_ v (bindex (shape v) ix)))
              else Err RuntimeError
  | None => Err RuntimeError
  end.

(** ** The layers *)

Record conv_opt := mkOpt { ot_conv : conv; ot_groups : nat; ot_mode : padding_mode }.

(** The 2d classes, as [new_conv2d]; conv_wrapper computes the bound of its draw from the whole number of channels (line 85), and
    constant_random_initialization_conv2d builds a tensor with all channels (lines 44-50), whatever [groups] is. *)
Definition new_conv2d_opt (k : conv_kind) (a : conv_args) (groups : nat) (mode : padding_mode) (u draw : index -> R) : res conv_opt :=
  let channels := (conv_nb k (a_n a) (a_segments a) * a_in a)%nat in
  _ <- check_groups groups channels (a_out a) ;;
  let w0 := conv_wrapper_init [a_out a; (channels / groups)%nat; a_kernel a; a_kernel a] channels (a_kernel a)
              (match k with FourierConv => a_weight_magnitude a | _ => 1 end) u in
  let per := match k with FourierConv => None | _ => a_periodicity a end in
  w <- match k with
       | FourierConv => Ok w0
       | _ => v <- constant_random_initialization_conv2d w0 (conv_nb k (a_n a) (a_segments a)) (a_out a) channels
                (a_kernel a) (a_kernel a) (a_weight_magnitude a) draw ;;
              copy_ w0 v
       end ;;
  Ok (mkOpt (mkConv k (a_n a) (a_segments a) (a_length a) (a_in a) (a_out a) (a_kernel a) (a_stride a) (a_padding a)
               (a_dilation a) per (rescale_of a) w) groups mode).
(** The 1d classes, as [new_conv1d]. *)
Definition new_conv1d_opt (k : conv_kind) (a : conv_args) (groups : nat) (mode : padding_mode) (u : index -> R) : res conv_opt :=
  let channels := (conv_nb k (a_n a) (a_segments a) * a_in a)%nat in
  match k with
  | FourierConv => Err TypeError
  | _ =>
      _ <- check_groups groups channels (a_out a) ;;
      Ok (mkOpt (mkConv k (a_n a) (a_segments a) (a_length a) (a_in a) (a_out a) (a_kernel a) (a_stride a) (a_padding a)
                   (a_dilation a) (a_periodicity a) (rescale_of a)
                   (conv_wrapper_init [a_out a; (channels / groups)%nat; a_kernel a] channels (a_kernel a) (a_weight_magnitude a) u))
            groups mode)
  end.
Definition opt_with_w (l : conv_opt) (w : tensor R) : conv_opt := mkOpt (conv_with_w (ot_conv l) w) (ot_groups l) (ot_mode l).

(** [forward]: lines 215-218, 314-320, 441-447, 568-574; the padding is that of the expanded tensor. *)
Definition conv2d_opt_forward (l : conv_opt) (x : tensor R) : res (tensor R) :=
  let c := ot_conv l in
  let x := tmap (apply_periodicity (cv_periodicity c)) x in
  x <- Expansion2d (conv_expansion (cv_kind c) true (cv_n c) (cv_segments c) (cv_length c)) x ;;
  out <- Conv2d_forward (ot_groups l) (ot_mode l) (cv_w c) (cv_stride c) (cv_padding c) (cv_dilation c) x ;;
  Ok (tmap (fun v => v * cv_rescale c) out).
Definition conv1d_opt_forward (l : conv_opt) (x : tensor R) : res (tensor R) :=
  let c := ot_conv l in
  let x := tmap (apply_periodicity (cv_periodicity c)) x in
  x <- Expansion1d (conv_expansion (cv_kind c) false (cv_n c) (cv_segments c) (cv_length c)) x ;;
  out <- Conv1d_forward (ot_groups l) (ot_mode l) (cv_w c) (cv_stride c) (cv_padding c) (cv_dilation c) x ;;
  Ok (tmap (fun v => v * cv_rescale c) out).
