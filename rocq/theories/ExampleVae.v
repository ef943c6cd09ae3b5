(** * examples/variational_autoencoder.py.  Definitions only.

    Modelled: the network built from the configuration, its forward pass, the loss and the images drawn at the end of an
    epoch.  Not modelled: data loading, optimizers, the Lightning trainer (the configuration has no entry [gpus], which
    [vae] reads at line 233) and the plot. *)
From Coq Require Import String Reals ZArith List Bool.
From Verif Require Import Modules Spec Tensor Utils Convolution Layers Vae ConvNetworks.
Import ListNotations.
Local Open Scope R_scope.

(** torch.nn.BatchNorm2d(channels), eps = 1e-5 (torch documentation): inputs [batch, channels, height, width]; in training mode
    mean and (biased) variance are those of the batch, otherwise the running ones. *)
Definition channel_mean (x : tensor R) (B H W c : nat) (f : R -> R) : R :=
  rsum B (fun b => rsum H (fun i => rsum W (fun j => f (at_ x [b; c; i; j])))) / INR (B * H * W).
Definition BatchNorm2d (training : bool) (s : bn_state) (channels : nat) (x : tensor R) : res (tensor R) :=
  match shape x with
  | [B; C; H; W] =>
      if negb (Nat.eqb C channels) then Err RuntimeError
      else if (training && Nat.eqb (B * H * W) 1)%bool then Err ValueError
      else
        let mean c := if training then channel_mean x B H W c (fun v => v) else bn_mean s c in
        let var c := if training then channel_mean x B H W c (fun v => (v - mean c) ^ 2) else bn_var s c in
        Ok (mkT (shape x) (fun ix => let c := nth 1 ix 0%nat in
              (at_ x ix - mean c) / sqrt (var c + 1 / 100000) * bn_weight s c + bn_bias s c))
  | _ => Err ValueError
  end.

(** The keys of the configuration read by Net.__init__ (lines 45-67); rescale_output and pooling are at their defaults. *)
Record part_cfg := mkPart {
  pc_n : listed nat; pc_channels : list nat; pc_segments : listed nat; pc_kernel_size : list nat; pc_stride : option (listed nat);
  pc_periodicity : option R; pc_padding : nat }.
Record vae_cfg := mkVaeCfg { vc_layer_type : string; vc_latent_dim : nat; vc_M_N : R; vc_encoder : part_cfg; vc_decoder : part_cfg }.
Definition part_args (training : bool) (layer_type : string) (p : part_cfg) : cn_args :=
  mkCN (Some (Scalar layer_type)) (Some (pc_n p)) (pc_channels p) (Some (pc_segments p)) (pc_kernel_size p) false (pc_periodicity p)
    (Some (BatchNorm2d training bn_fresh)) (pc_stride p) (pc_padding p).

(** Encoder, decoder, [decoder.in_channels], latent_dim and the three torch.nn.Linear of VanillaVAE. *)
Record vae_net := mkVaeNet {
  vn_encoder : conv_net; vn_decoder : list (stage conv_transpose); vn_in_channels : nat; vn_latent : nat;
  vn_mu : tensor R * tensor R; vn_var : tensor R * tensor R; vn_dec : tensor R * tensor R }.
(** Lines 45-74 [Net.__init__] with networks.py 788-812 [VanillaVAE.__init__] (in_channels=3 and device end up in its kwargs,
    which are not read).  [u], [draw], [du] are the random numbers of encoder and decoder, [dl k] those of the k-th Linear. *)
Definition new_linear (i o : nat) (d : index -> R) : tensor R * tensor R := (mkT [o; i] d, mkT [o] (fun ix => d (o :: ix))).
Definition new_vae_net (training : bool) (c : vae_cfg) (u draw du : nat -> index -> R) (dl : nat -> index -> R) : res vae_net :=
  encoder <- new_conv_net (part_args training (vc_layer_type c) (vc_encoder c)) "2d"%string u draw ;;
  decoder <- new_deconv_net (part_args training (vc_layer_type c) (vc_decoder c)) du ;;
  let in_channels := hd 0%nat (pc_channels (vc_decoder c)) in
  Ok (mkVaeNet encoder decoder in_channels (vc_latent_dim c)
        (new_linear (output_size encoder) (vc_latent_dim c) (dl 0%nat))
        (new_linear (output_size encoder) (vc_latent_dim c) (dl 1%nat))
        (new_linear (vc_latent_dim c) in_channels (dl 2%nat))).
(** The VanillaVAE object. *)
Definition vae_model (m : vae_net) : vae :=
  mkVAE (vn_latent m) (conv_net_forward (vn_encoder m)) (deconv_net_forward (vn_decoder m)) (vn_in_channels m)
    (fst (vn_mu m)) (snd (vn_mu m)) (fst (vn_var m)) (snd (vn_var m)) (fst (vn_dec m)) (snd (vn_dec m)).
(** Lines 76-77 [forward], 129-148 [eval_step] for the images [x] (labels are not used): the dictionary returned, whose three
    entries are logged. *)
Definition vae_net_forward (m : vae_net) (noise : index -> R) (x : tensor R) : res (list (tensor R)) := vae_forward (vae_model m) noise x.
Definition vae_eval_step (c : vae_cfg) (m : vae_net) (noise : index -> R) (x : tensor R) : res losses :=
  out <- vae_net_forward m noise x ;; loss_function out (Some (vc_M_N c)).
(** Lines 195-203 [ImageSampler.on_train_epoch_end]: the images drawn. *)
Definition sampled_images (m : vae_net) (noise : index -> R) : res (tensor R) := vae_sample (vae_model m) noise 5.
(** config/variational_autoencoder.yaml. *)
Definition shipped_vae : vae_cfg :=
  mkVaeCfg "continuous2d"%string 128 (256 / 10000000)
    (mkPart (Scalar 2%nat) [3; 32; 64; 128]%nat (Scalar 2%nat) [3; 3; 3]%nat (Some (Scalar 2%nat)) (Some 2) 1)
    (mkPart (Scalar 2%nat) [128; 64; 32; 16; 3]%nat (Scalar 2%nat) [3; 3; 3; 4]%nat (Some (Scalar 2%nat)) (Some 2) 0).
