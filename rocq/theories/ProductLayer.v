(** * high_order_layers_torch/ProductLayer.py.  Definitions only. *)
From Coq Require Import String Reals ZArith List.
From Verif Require Import Spec Tensor Utils.
Import ListNotations.
Local Open Scope R_scope.

(** Reductions of a 3-d tensor over dimension 1: [torch.sum(t, dim=1)], [torch.prod(t, dim=1)]. *)
Definition sum_dim1 (t : tensor R) : tensor R :=
  mkT [nth 0 (shape t) 0%nat; nth 2 (shape t) 0%nat]
      (fun ix => rsum (nth 1 (shape t) 0%nat) (fun j => at_ t [nth 0 ix 0%nat; j; nth 1 ix 0%nat])).
Definition prod_dim1 (t : tensor R) : tensor R :=
  mkT [nth 0 (shape t) 0%nat; nth 2 (shape t) 0%nat]
      (fun ix => rprod (nth 1 (shape t) 0%nat) (fun j => at_ t [nth 0 ix 0%nat; j; nth 1 ix 0%nat])).

(** ProductLayer.py 11-30 [Product]; weight [out, in], bias [out] or None. *)
Record product := mkProduct {
  pr_in : nat; pr_out : nat; pr_weight : tensor R; pr_bias : option (tensor R);
  pr_alpha : R; pr_periodicity : option R }.

(** ProductLayer.py 12-42: the constructor; [draw_w], [draw_b] are the values drawn by
    kaiming_uniform_ and uniform_ in reset_parameters.  (in_features = 0 makes reset_parameters fail:
    not modelled.) *)
Definition new_product (in_features out_features : nat) (bias : bool) (alpha : R)
    (periodicity : option R) (draw_w : nat -> nat -> R) (draw_b : nat -> R) : product :=
  mkProduct in_features out_features
    (mkT [out_features; in_features] (fun ix => draw_w (nth 0 ix 0%nat) (nth 1 ix 0%nat)))
    (if bias then Some (mkT [out_features] (fun ix => draw_b (nth 0 ix 0%nat))) else None)
    alpha periodicity.

(** ProductLayer.py 44-55 [Product.forward].  Adding None raises TypeError.  The bias has the size of
    the last dimension, which is what the constructor establishes. *)
Definition Product_forward (l : product) (x : tensor R) : res (tensor R) :=
  let x := tmap (apply_periodicity (pr_periodicity l)) x in
  assemble <- einsum2 "ij" "kj" "ijk" x (pr_weight l) ;;
  let this_sum := sum_dim1 assemble in
  let assemble := tmap (fun a => a + 1) assemble in
  let assemble := tmap2 (fun p s => p - (1 - pr_alpha l) * s) (prod_dim1 assemble) this_sum in
  match pr_bias l with
  | None => Err TypeError
  | Some b => Ok (mkT (shape assemble) (fun ix => at_ assemble ix - 1 + at_ b [nth 1 ix 0%nat]))
  end.
