(** * Polynomial and piecewise layers in floating point.  Definitions only.

    The functions of LagrangePolynomial.v, Basis.v and PolynomialLayers.v (sum units) with every arithmetic operation followed
    by a rounding [rnd].  torch does not fix the order in which [torch.prod] and [torch.einsum] combine their
    terms, nor whether a product and an addition are fused; so results are relations that allow every order.
    Overflow, infinities and NaN are not modelled. *)
From Coq Require Import Reals ZArith List Permutation.
From Verif Require Import Spec Tensor Utils LagrangePolynomial Basis PolynomialLayers FloatUtils.
Import ListNotations.
Local Open Scope R_scope.

Section Rounded.
Variable rnd : R -> R.

(** [torch.prod] along a dimension (LagrangePolynomial.py 210): rounded products in any order. *)
Inductive fl_product : list R -> R -> Prop :=
| product_one a : fl_product [a] a
| product_mul l l' p p' : fl_product l p -> fl_product l' p' -> fl_product (l ++ l') (rnd (p * p'))
| product_any_order l l' p : Permutation l l' -> fl_product l p -> fl_product l' p.

(** The contraction of [torch.einsum] (Basis.py 406-408, 509-511): products summed in any order, each product rounded by itself
    or fused with an addition. *)
Inductive fl_contraction : list (R * R) -> R -> Prop :=
| contraction_one a b : fl_contraction [(a, b)] (rnd (a * b))
| contraction_fused a b l s : fl_contraction l s -> fl_contraction ((a, b) :: l) (rnd (a * b + s))
| contraction_add l l' s s' : fl_contraction l s -> fl_contraction l' s' -> fl_contraction (l ++ l') (rnd (s + s'))
| contraction_any_order l l' s : Permutation l l' -> fl_contraction l s -> fl_contraction l' s.

(** LagrangePolynomial.py 197-211 [LagrangeBasis._compute_denominators], [__call__] and 214-227 [LagrangeBasis1], with the stored
    nodes [X] (the values of chebyshevLobatto in floating point depend on the library's cosine: any nodes). *)
Definition fl_factor (X : tensor R) (x : R) (j m : nat) : R :=
  if negb (Nat.eqb m j) then rnd (rnd (x - at_ X [m]) / rnd (at_ X [j] - at_ X [m])) else 1.
Definition fl_lagrange_call (n : nat) (X : tensor R) (x : R) (j : nat) (r : R) : Prop :=
  if Nat.eqb n 1 then r = 1 else fl_product (map (fl_factor X x j) (seq 0 n)) r.

(** Basis.py 391-408 [BasisFlat.interpolate], 492-512 [Basis.interpolate]: one entry of the result, for the inputs [x i] and
    the weights [w i j] of one output. *)
Definition fl_interpolate (n : nat) (X : tensor R) (I : nat) (x : nat -> R) (w : nat -> nat -> R) (r : R) : Prop :=
  exists b, (forall i j, (i < I)%nat -> (j < n)%nat -> fl_lagrange_call n X (x i) j (b i j)) /\
    fl_contraction (flat_map (fun i => map (fun j => (b i j, w i j)) (seq 0 n)) (seq 0 I)) r.

(** utils.py 74-79 as called in the forward methods. *)
Definition fl_apply_periodicity (p : option R) (x : R) : R :=
  match p with None => x | Some p => fl_make_periodic rnd x p end.

(** PolynomialLayers.py 60-67 [Function.forward] of a [Polynomial] layer with nodes [X] and weights [w]. *)
Definition fl_polynomial_forward (n : nat) (X : tensor R) (p : option R) (w x y : tensor R) : Prop :=
  exists B I O, shape x = [B; I] /\ shape w = [O; I; n] /\ shape y = [B; O] /\
    forall b o, (b < B)%nat -> (o < O)%nat ->
      fl_interpolate n X I (fun i => fl_apply_periodicity p (at_ x [b; i])) (fun i j => at_ w [o; i; j]) (at_ y [b; o]).

(** PolynomialLayers.py 299-303 (and 643-647): the segment of one entry; python scalars are converted to the tensor's
    format first. *)
Definition fl_segment (length : R) (segments : nat) (x : R) : Z :=
  clampZ 0 (Z.of_nat segments - 1) (to_long (rnd (rnd (rnd (x + rnd (1/2 * length)) / rnd length) * rnd (INR segments)))).

(** PolynomialLayers.py 338-344 [_eta]. *)
Definition fl_eta (segments : nat) (index : Z) : R := rnd (rnd (rnd (rnd (IZR index) / rnd (INR segments)) * 2) - 1).

(** PolynomialLayers.py 329-333 (and 671-674). *)
Definition fl_x_local (length : R) (segments : nat) (x : R) (index : Z) : R :=
  let x_min := fl_eta segments index in
  let x_max := fl_eta segments (index + 1) in
  rnd (rnd (rnd length * rnd (rnd (x - x_min) / rnd (x_max - x_min))) - rnd (1/2 * length)).

(** PolynomialLayers.py 294-336, 639-676: forward of the classes with sum units.  The gather of the weights is exact integer
    arithmetic (see [Piecewise_forward]) and fused: node [j] of segment [s] has position [s * stride + j]. *)
Definition fl_piecewise_forward (l : piecewise) (X x y : tensor R) : Prop :=
  exists B, shape x = [B; pw_in l] /\ shape y = [B; pw_out l] /\
    forall b o, (b < B)%nat -> (o < pw_out l)%nat ->
      let v i := fl_apply_periodicity (pw_periodicity l) (at_ x [b; i]) in
      let s i := fl_segment (pw_length l) (pw_segments l) (v i) in
      fl_interpolate (pw_n l) X (pw_in l) (fun i => fl_x_local (pw_length l) (pw_segments l) (v i) (s i))
        (fun i j => at_ (pw_w l) [o; i; (Z.to_nat (s i) * pw_stride (pw_cls l) (pw_n l) + j)%nat]) (at_ y [b; o]).
End Rounded.
