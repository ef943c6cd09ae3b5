(** * high_order_layers_torch/networks.py, VanillaVAE (lines 787-920).  Definitions only.

    Encoder and decoder are arbitrary modules, given by their forward passes; the random numbers of
    [torch.randn_like], [torch.randn] are arguments. *)
From Coq Require Import Reals List Bool Arith.
From Verif Require Import Spec Tensor Layers Attention.
Import ListNotations.
Local Open Scope R_scope.

(** Lines 797-812: attributes; [fc_mu], [fc_var], [decoder_input] are torch.nn.Linear. *)
Record vae := mkVAE {
  va_latent : nat; va_encoder : tensor R -> res (tensor R); va_decoder : tensor R -> res (tensor R); va_in_channels : nat;
  va_mu_w : tensor R; va_mu_b : tensor R; va_var_w : tensor R; va_var_b : tensor R; va_dec_w : tensor R; va_dec_b : tensor R }.

(** [torch.flatten(t, start_dim=1)]. *)
Definition flatten1 (t : tensor R) : res (tensor R) :=
  match shape t with
  | a :: b :: s => reshape [a; prodn (b :: s)] t
  | _ => Err IndexError
  end.

(** Lines 814-831 [encode]. *)
Definition vae_encode (m : vae) (input : tensor R) : res (tensor R * tensor R) :=
  result <- va_encoder m input ;;
  result <- flatten1 result ;;
  mu <- Linear_forward (va_mu_w m) (va_mu_b m) result ;;
  log_var <- Linear_forward (va_var_w m) (va_var_b m) result ;;
  Ok (mu, log_var).

(** Lines 833-849 [decode]. *)
Definition vae_decode (m : vae) (z : tensor R) : res (tensor R) :=
  result <- Linear_forward (va_dec_w m) (va_dec_b m) z ;;
  result <- view_infer [] [va_in_channels m; 1; 1]%nat result ;;
  va_decoder m result.

(** Lines 851-861 [reparameterize]; [noise] is what randn_like draws. *)
Definition reparameterize (noise : index -> R) (mu logvar : tensor R) : res (tensor R) :=
  let std := tmap (fun v => exp (5 / 10 * v)) logvar in
  let eps := mkT (shape std) noise in
  t <- broadcast2 Rmult eps std ;;
  broadcast2 Rplus t mu.

(** Lines 863-866 [forward]: the list [decode(z), input, mu, log_var]. *)
Definition vae_forward (m : vae) (noise : index -> R) (input : tensor R) : res (list (tensor R)) :=
  ml <- vae_encode m input ;;
  z <- reparameterize noise (fst ml) (snd ml) ;;
  y <- vae_decode m z ;;
  Ok [y; input; fst ml; snd ml].

(** [F.mse_loss(a, b)] (broadcasting); the mean of no numbers is NaN. *)
Definition mse_loss (a b : tensor R) : res num :=
  d <- broadcast2 Rminus a b ;;
  let n := numel d in
  Ok (if Nat.eqb n 0 then None else Some (rsum n (fun k => (at_ d (unravel (shape d) k)) ^ 2) / INR n)).

Record losses := mkLosses { ls_loss : num; ls_reconstruction : num; ls_kld : num }.
Definition arg (args : list (tensor R)) (k : nat) : res (tensor R) :=
  match nth_error args k with Some t => Ok t | None => Err IndexError end.
(** Lines 868-894 [loss_function]: [args] positional, [kwargs["M_N"]] if given.  mu and log_var are two-dimensional (what
    [encode] returns); the other cases are not modelled further (IndexError stands for them). *)
Definition loss_function (args : list (tensor R)) (M_N : option R) : res losses :=
  recons <- arg args 0 ;; input <- arg args 1 ;; mu <- arg args 2 ;; log_var <- arg args 3 ;;
  match M_N with
  | None => Err KeyError
  | Some kld_weight =>
      recons_loss <- mse_loss recons input ;;
      t <- broadcast2 Rminus (tmap (fun v => 1 + v) log_var) (tmap (fun m => m ^ 2) mu) ;;
      t <- broadcast2 Rminus t (tmap exp log_var) ;;
      match shape t with
      | [B; D] =>
          let kld_loss : num := if Nat.eqb B 0 then None
            else Some (rsum B (fun b => - (5 / 10) * rsum D (fun d => at_ t [b; d])) / INR B) in
          Ok (mkLosses (nplus recons_loss (nscale kld_loss kld_weight)) recons_loss (nscale kld_loss (-1)))
      | _ => Err IndexError
      end
  end.

(** Lines 911-920 [generate], 896-909 [sample] ([noise]: what randn draws). *)
Definition vae_generate (m : vae) (noise : index -> R) (x : tensor R) : res (tensor R) :=
  l <- vae_forward m noise x ;; arg l 0.
Definition vae_sample (m : vae) (noise : index -> R) (num_samples : nat) : res (tensor R) :=
  vae_decode m (mkT [num_samples; va_latent m] noise).
