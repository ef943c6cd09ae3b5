(** * Observations used by the properties of modules.py.  Definitions only. *)
From Coq Require Import String Reals ZArith List Bool.
From Verif Require Import Spec Tensor Utils Layers Networks Convolution ConvNetworks ObserveConvNet Modules.
Import ListNotations.
Local Open Scope R_scope.

(** Entry number [b] of a tensor in row-major order. *)
Definition entry_at {A} (y : tensor A) (b : nat) : A := at_ y (unravel (shape y) b).
(** Class [k] is the prediction for sample [b]: the first of the largest logits. *)
Definition predicted (y_hat : tensor R) (C b k : nat) : Prop :=
  (k < C)%nat /\ (forall j, (j < C)%nat -> at_ y_hat [b; j] <= at_ y_hat [b; k]) /\
  (forall j, (j < k)%nat -> at_ y_hat [b; j] < at_ y_hat [b; k]).
(** Probability the network gives to class [k]. *)
Definition probability (y_hat : tensor R) (C b k : nat) : R :=
  exp (at_ y_hat [b; k]) / rsum C (fun c => exp (at_ y_hat [b; c])).

(** Mean and variance of channel [c] of a tensor [B, C, L]. *)
Definition channel_mean (x : tensor R) (B L c : nat) : R :=
  rsum B (fun b => rsum L (fun l => at_ x [b; c; l])) / (INR B * INR L).
Definition channel_var (x : tensor R) (B L c : nat) : R :=
  rsum B (fun b => rsum L (fun l => (at_ x [b; c; l] - channel_mean x B L c) ^ 2)) / (INR B * INR L).

(** The configuration describes the convolutional architecture [a] (whatever the normalisation in [a] is). *)
Record conv_cfg (n : net_cfg) (a : cn_args) : Prop := mkConvCfg {
  cc_layer_type : cn_layer_type a <> None /\ nt_layer_type n = cn_layer_type a;
  cc_n : cn_n a <> None /\ nt_n n = cn_n a;
  cc_channels : nt_channels n = Some (cn_channels a);
  cc_segments : nt_segments n = Some (cn_segments a);
  cc_kernel_size : nt_kernel_size n = Some (cn_kernel_size a);
  cc_periodicity : nt_periodicity n = Some (cn_periodicity a);
  cc_stride : nt_stride n = Some (cn_stride a);
  cc_padding : cn_padding a = 0%nat;
  cc_rescale : cn_rescale_output a = false;
  cc_normalization : cn_normalization a <> None;
  cc_normalize : nt_normalize n <> None }.

(** The convolutions and batch normalisations of a network. *)
Definition stages_of (m : network) : list (stage conv_layer) :=
  match m with NFull _ _ => [] | NConv c _ => fc_stages c | NTail t _ => tl_stages t end.
Definition conv_model (m : network) : bool := match m with NFull _ _ => false | _ => true end.

(** A convolutional network after some training, in eval mode: the weights and the states of the batch normalisations may be
    anything; the linear layer, once it has weights, keeps their shapes. *)
Definition retrained_stages (sts sts' : list (stage conv_layer)) : Prop :=
  length sts' = length sts /\
  forall i s s', nth_error sts i = Some s -> nth_error sts' i = Some s' ->
    trained_layer (st_layer s) (st_layer s') /\ exists eps st, st_normal s' = Some (batch_norm1d eps st).
Definition retrained_linear (l l' : lazy_linear) : Prop :=
  lz_out l' = lz_out l /\
  match lz_params l, lz_params l' with
  | None, None => True
  | Some (w, b), Some (w', b') => shape w' = shape w /\ shape b' = shape b
  | _, _ => False
  end.
Inductive retrained_network : network -> network -> Prop :=
| RtConv m l sts l' : retrained_stages (fc_stages m) sts -> retrained_linear l l' ->
    retrained_network (NConv m l) (NConv (mkConvNet sts (fc_pooling m) (fc_channels m)) l')
| RtTail t l sts l' : retrained_stages (tl_stages t) sts -> retrained_linear l l' ->
    retrained_network (NTail t l) (NTail (mkTail sts (tl_channels t) (tl_kernel_size t) (tl_stride t) (tl_focus t)) l').
