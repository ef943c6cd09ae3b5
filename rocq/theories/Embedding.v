(** * high_order_layers_torch/positional_embeddings.py.  Definitions only. *)
From Coq Require Import Reals ZArith List.
From Verif Require Import Spec Tensor PolynomialLayers Layers Attention.
Import ListNotations.
Local Open Scope R_scope.

(** Lines 14-24 [ClassicSinusoidalEmbedding.__init__]; the module is its attribute [dim]. *)
Definition new_sinusoidal (dim : Z) : res Z :=
  if Z.eqb (Z.modulo dim 2) 0 then Ok dim else Err ValueError.

(** Lines 26-32 [ClassicSinusoidalEmbedding.forward].  [math.log(10000) / 0] raises; so does torch.arange of a negative
    number. *)
Definition sinusoidal_forward (dim : Z) (x : tensor R) : res (tensor R) :=
  let half_dim := Z.div dim 2 in
  if Z.eqb half_dim 1 then Err ZeroDivisionError else
  if Z.ltb half_dim 0 then Err RuntimeError else
  let emb := ln 10000 / IZR (half_dim - 1) in
  let half := Z.to_nat half_dim in
  let emb := mkT [half] (fun ix => exp (INR (nth 0 ix 0%nat) * - emb)) in
  emb <- broadcast2 Rmult (unsqueeze (length (shape x)) x) (unsqueeze 0 emb) ;;
  (* torch.cat((emb.sin(), emb.cos()), dim=-1) *)
  Ok (mkT (removelast (shape emb) ++ [last (shape emb) 0%nat + last (shape emb) 0%nat]%nat) (fun ix =>
    let c := last ix 0%nat in let w := last (shape emb) 0%nat in
    if Nat.ltb c w then sin (at_ emb (removelast ix ++ [c])) else cos (at_ emb (removelast ix ++ [c - w]%nat)))).

(** Lines 41-49 [FourierSeriesEmbedding]: the layer is built, but there is no return statement. *)
Definition FourierSeriesEmbedding (n in_features out_features : nat) (length : R) (draw : nat -> nat -> R) : option func :=
  let _ := FourierSeries n in_features out_features length 1 None draw in None.

(** Lines 52-73, 76-97 [PiecewisePolynomialEmbedding], [PiecewiseDiscontinuousPolynomialEmbedding]. *)
Definition PiecewisePolynomialEmbedding (n in_features out_features segments : nat) (length weight_magnitude : R)
    (periodicity : option R) (draw : nat -> nat -> R) : option piecewise :=
  Some (new_piecewise PiecewisePolynomial n in_features out_features segments length weight_magnitude periodicity draw).
Definition PiecewiseDiscontinuousPolynomialEmbedding (n in_features out_features segments : nat) (length weight_magnitude : R)
    (periodicity : option R) (draw : nat -> nat -> R) : option piecewise :=
  Some (new_piecewise PiecewiseDiscontinuousPolynomial n in_features out_features segments length weight_magnitude periodicity draw).
