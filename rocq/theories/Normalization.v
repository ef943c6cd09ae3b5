(** * high_order_layers_torch/utils.py 8-71: normalisations.  Definitions only.

    Tensors have rank at least one.  Division is exact real division: with a zero denominator torch
    returns nan or inf, Coq's [/] some real, so statements keep the denominator non-zero. *)
From Coq Require Import Reals ZArith List.
From Verif Require Import Spec Tensor.
Import ListNotations.
Local Open Scope R_scope.

(** Index [ix] with position [d] replaced by [k]. *)
Fixpoint set_nth (d k : nat) (ix : list nat) : list nat :=
  match ix, d with
  | [], _ => []
  | _ :: ix, O => k :: ix
  | i :: ix, S d => i :: set_nth d k ix
  end.

(** Largest and smallest of [f 0 .. f (n-1)], n >= 1. *)
Fixpoint rmax (n : nat) (f : nat -> R) : R :=
  match n with O => 0 | S O => f O | S m => Rmax (rmax m f) (f m) end.
Fixpoint rmin (n : nat) (f : nat -> R) : R :=
  match n with O => 0 | S O => f O | S m => Rmin (rmin m f) (f m) end.

(** Reduction over dimension [dim] with keepdim=True.  An out-of-range dimension raises IndexError;
    so does reducing an empty dimension when the reduction has no value for it ([need]). *)
Definition reduce_keep (need : bool) (op : nat -> (nat -> R) -> R) (x : tensor R) (dim : Z) : res (tensor R) :=
  let rank := length (shape x) in
  if index_ok rank dim then
    let d := wrap rank dim in
    let m := nth d (shape x) 0%nat in
    if (need && Nat.eqb m 0)%bool then Err IndexError
    else Ok (mkT (set_nth d 1%nat (shape x)) (fun ix => op m (fun k => at_ x (set_nth d k ix))))
  else Err IndexError.

(** Elementwise operation of [x] with a reduced tensor, broadcast along [dim]. *)
Definition with_reduced (op : R -> R -> R) (x m : tensor R) (dim : Z) : tensor R :=
  let d := wrap (length (shape x)) dim in
  mkT (shape x) (fun ix => op (at_ x ix) (at_ m (set_nth d 0%nat ix))).

(** utils.py 8-9 [max_abs]. *)
Definition max_abs (x : tensor R) (dim : Z) : res (tensor R) :=
  reduce_keep true rmax (tmap Rabs x) dim.

(** utils.py 12-13 [max_abs_normalization]. *)
Definition max_abs_normalization (x : tensor R) (eps : R) (dim : Z) : res (tensor R) :=
  m <- max_abs x dim ;;
  Ok (with_reduced (fun a m => a / (m + eps)) x m dim).

(** utils.py 16-17 [max_abs_normalization_last]. *)
Definition max_abs_normalization_last (x : tensor R) (eps : R) : res (tensor R) :=
  max_abs_normalization x eps (Z.of_nat (length (shape x)) - 1).

(** utils.py 20-28 [max_center_normalization]. *)
Definition max_center_normalization (x : tensor R) (eps : R) (dim : Z) : res (tensor R) :=
  max_x <- reduce_keep true rmax x dim ;;
  min_x <- reduce_keep true rmin x dim ;;
  let midrange := tmap2 (fun a b => 1/2 * (a + b)) max_x min_x in
  let mag := tmap2 Rminus max_x midrange in
  let centered := with_reduced Rminus x midrange dim in
  Ok (with_reduced (fun c m => c / (m + eps)) centered mag dim).

(** utils.py 31-39 [max_center_normalization_last]. *)
Definition max_center_normalization_last (x : tensor R) (eps : R) : res (tensor R) :=
  max_center_normalization x eps (Z.of_nat (length (shape x)) - 1).

(** utils.py 42-54 [max_center_normalization_nd]. *)
Definition max_center_normalization_nd (x : tensor R) (eps : R) : res (tensor R) :=
  xn <- view_infer [nth 0 (shape x) 0%nat] [] x ;;
  norm <- max_center_normalization xn eps 1 ;;
  reshape (shape x) norm.

(** utils.py 57-58 [l2_normalization]; [x.norm(2, 1, keepdim=True)]. *)
Definition l2_normalization (x : tensor R) (eps : R) : res (tensor R) :=
  m <- reduce_keep false (fun n f => sqrt (rsum n (fun k => f k * f k))) x 1 ;;
  Ok (with_reduced (fun a m => a / (m + eps)) x m 1).

(** utils.py 61-65 [max_abs_normalization_nd]. *)
Definition max_abs_normalization_nd (x : tensor R) (eps : R) : res (tensor R) :=
  xn <- view_infer [nth 0 (shape x) 0%nat] [] x ;;
  m <- max_abs xn 1 ;;
  reshape (shape x) (with_reduced (fun a m => a / (m + eps)) xn m 1).
