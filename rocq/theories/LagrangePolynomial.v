(** * high_order_layers_torch/LagrangePolynomial.py (one-dimensional part).  Definitions only. *)
From Coq Require Import Reals ZArith List.
From Verif Require Import Spec Tensor.
Import ListNotations.
Local Open Scope R_scope.

(** LagrangePolynomial.py 9-22 [chebyshevLobatto].  Exact reals instead of float32. *)
Definition chebyshevLobatto (n : nat) : tensor R :=
  if Nat.eqb n 1 then mkT [1%nat] (fun _ => 0)
  else mkT [n] (fun ix => - cos (PI * INR (hd 0%nat ix) / (INR n - 1))).

(** A basis object: what the interpolation classes of Basis.py use, namely the call
    [basis(x, j)] (elementwise in x) and the attribute [num_basis]. *)
Record basis := mkBasis { num_basis : option nat; call : R -> nat -> R }.

(** LagrangePolynomial.py 190-227: attributes [n], [X] of LagrangeBasis and LagrangeBasis1. *)
Record lagrange := mkLagrange { lb_n : nat; lb_X : tensor R; lb_basis : basis }.

(** LagrangePolynomial.py 197-203 [LagrangeBasis._compute_denominators]; the two loops fill every
    entry off the diagonal of a matrix of ones. *)
Definition denominators (n : nat) (X : tensor R) : tensor R :=
  mkT [n; n] (fun ix => match ix with
    | [j; m] => if Nat.eqb m j then 1 else at_ X [j] - at_ X [m]
    | _ => 1 end).

(** LagrangePolynomial.py 205-211 [LagrangeBasis.__call__] on one entry of x: unsqueeze, broadcast
    subtraction, where and prod over the last dimension, fused. *)
Definition lagrange_call (n : nat) (X : tensor R) (x : R) (j : nat) : R :=
  rprod n (fun m => if negb (Nat.eqb m j)
                    then (x - at_ X [m]) / at_ (denominators n X) [j; m]
                    else 1).

(** LagrangePolynomial.py 190-211 [LagrangeBasis]. *)
Definition LagrangeBasis (n : nat) (length : R) : lagrange :=
  let X := tmap (fun c => length / 2 * c) (chebyshevLobatto n) in
  mkLagrange n X (mkBasis (Some n) (lagrange_call n X)).

(** LagrangePolynomial.py 214-227 [LagrangeBasis1]. *)
Definition LagrangeBasis1 : lagrange :=
  mkLagrange 1 (mkT [1%nat] (fun _ => 0)) (mkBasis (Some 1%nat) (fun _ _ => 1)).

(** LagrangePolynomial.py 230-234 [get_lagrange_basis]. *)
Definition get_lagrange_basis (n : nat) (length : R) : lagrange :=
  if Nat.eqb n 1 then LagrangeBasis1 else LagrangeBasis n length.

(** LagrangePolynomial.py 161-187 [FourierBasis]; length 0 is a division by zero in python. *)
Definition fourier_call (length : R) (x : R) (j : nat) : R :=
  if Nat.eqb j 0 then 1/2 + 0 * x
  else let i := ((j + 1) / 2)%nat in
       if Nat.eqb (j mod 2) 0 then cos (2 * PI * INR i * x / length)
       else sin (2 * PI * INR i * x / length).
Definition FourierBasis (length : R) : basis := mkBasis None (fourier_call length).
