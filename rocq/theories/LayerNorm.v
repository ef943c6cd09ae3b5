(** * high_order_layers_torch/layers.py 21-41, 139-145: [LazyLayerNormLastDim], [normalization_layers].  Definitions only. *)
From Coq Require Import String Reals ZArith List Bool.
From Verif Require Import Spec Tensor Normalization.
Import ListNotations.
Local Open Scope R_scope.

(** torch.nn.functional.layer_norm(input, [d], weight, bias, eps) (torch documentation): over the last dimension, with the
    biased variance.  RuntimeError if the last dimension of the input is not [d] or the input has none. *)
Definition layer_norm (x : tensor R) (d : nat) (weight : tensor R) (bias : option (tensor R)) (eps : R) : res (tensor R) :=
  match rev (shape x) with
  | m :: _ =>
      if Nat.eqb m d then
        Ok (mkT (shape x) (fun ix =>
          let front := removelast ix in
          let k := last ix 0%nat in
          let entry j := at_ x (front ++ [j]) in
          let mean := rsum d entry / INR d in
          let var := rsum d (fun j => (entry j - mean) ^ 2) / INR d in
          (entry k - mean) / sqrt (var + eps) * at_ weight [k]
          + match bias with Some b => at_ b [k] | None => 0 end))
      else Err RuntimeError
  | [] => Err RuntimeError
  end.

(** The attributes.  Before the first call [weight] is None and [bias] the boolean of the constructor; afterwards both are
    tensors ([bias] None without bias), in [_parameters] of the module if [registered]. *)
Inductive layer_norm_module :=
| Unset (bias : bool)
| Set_ (registered : bool) (weight : tensor R) (bias : option (tensor R)).

(** Lines 27-30. *)
Definition LazyLayerNormLastDim (bias : bool) : layer_norm_module := Unset bias.

(** Lines 32-40.  [cpu]: the input is on the device new parameters are created on; only then [.to] returns the nn.Parameter
    itself, which nn.Module registers on assignment, otherwise a copy that is no parameter. *)
Definition lazy_layer_norm (cpu : bool) (m : layer_norm_module) (x : tensor R) : res (tensor R) * layer_norm_module :=
  match m with
  | Set_ _ w b => (layer_norm x (nth 0 (shape w) 0%nat) w b (1 / 100000), m)
  | Unset bias =>
      match rev (shape x) with
      | [] => (Err IndexError, m)
      | ndim :: _ =>
          let w := mkT [ndim] (fun _ => 1) in
          let b := if bias then Some (mkT [ndim] (fun _ => 0)) else None in
          (layer_norm x ndim w b (1 / 100000), Set_ cpu w b)
      end
  end.

(** What [parameters()] yields. *)
Definition layer_norm_parameters (m : layer_norm_module) : list (tensor R) :=
  match m with
  | Unset _ => []
  | Set_ false _ _ => []
  | Set_ true w b => w :: match b with Some b => [b] | None => [] end
  end.

(** Lines 140-145: the modules the table builds with their default arguments; a missing name raises KeyError. *)
Inductive normalization_module :=
| MaxAbs (eps : R) (dim : Z) | MaxCenter (eps : R) | L2 (eps : R) | LayerNorm (m : layer_norm_module).
Definition normalization_layers (name : string) : res normalization_module :=
  if String.eqb name "max_abs" then Ok (MaxAbs (1 / 1000000) 1)
  else if String.eqb name "max_center" then Ok (MaxCenter (1 / 1000000))
  else if String.eqb name "l2" then Ok (L2 (1 / 1000000))
  else if String.eqb name "layer_norm" then Ok (LayerNorm (LazyLayerNormLastDim true))
  else Err KeyError.

(** Calling one of them; [max_center_normalization] is called with its default dim=1 (utils.py 20). *)
Definition normalization_call (cpu : bool) (m : normalization_module) (x : tensor R) : res (tensor R) * normalization_module :=
  match m with
  | MaxAbs eps dim => (max_abs_normalization x eps dim, m)
  | MaxCenter eps => (max_center_normalization x eps 1, m)
  | L2 eps => (l2_normalization x eps, m)
  | LayerNorm l => let (r, l') := lazy_layer_norm cpu l x in (r, LayerNorm l')
  end.
