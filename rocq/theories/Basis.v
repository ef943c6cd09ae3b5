(** * high_order_layers_torch/Basis.py, interpolation classes.  Definitions only. *)
From Coq Require Import String Reals ZArith List.
From Verif Require Import Spec Tensor LagrangePolynomial.
Import ListNotations.
Local Open Scope R_scope.

(** The loop [for j in range(n): mat.append(basis(x, j))] followed by [torch.stack(mat)]:
    Basis.py 30-35 (BasisExpand.__call__), 400-405, 470-474, 504-508, 533-537.
    torch.stack of an empty list raises RuntimeError. *)
Definition stack_basis (n : nat) (b : basis) (x : tensor R) : res (tensor R) :=
  if Nat.eqb n 0 then Err RuntimeError
  else Ok (stack n (shape x) (fun j => tmap (fun v => call b v j) x)).

(** Basis.py 381-408 [BasisFlat]: [num_basis = basis.num_basis or n] (0 and None are falsy). *)
Definition BasisFlat_num_basis (n : nat) (b : basis) : nat :=
  match num_basis b with Some (S k) => S k | _ => n end.

(** Basis.py 391-408 [BasisFlat.interpolate]. *)
Definition BasisFlat_interpolate (n : nat) (b : basis) (x w : tensor R) : res (tensor R) :=
  m <- stack_basis n b x ;; einsum2 "ijk" "lki" "jl" m w.

(** The last lines shared by the two product classes: sum over the inputs (dim 2), product of
    1 + assemble over the inputs, combination with alpha.  Basis.py 476-483 and 542-548. *)
Definition prod_combine (alpha : R) (assemble : tensor R) : tensor R :=
  let this_sum := sum_last assemble in
  let assemble := tmap (fun a => a + 1) assemble in
  tmap2 (fun p s => p - 1 + (1 - alpha) * s) (prod_last assemble) this_sum.

(** Basis.py 461-483 [BasisFlatProd.interpolate]. *)
Definition BasisFlatProd_interpolate (n : nat) (b : basis) (alpha : R) (x w : tensor R)
  : res (tensor R) :=
  m <- stack_basis n b x ;;
  assemble <- einsum2 "ijk" "lki" "jlk" m w ;;
  Ok (prod_combine alpha assemble).

(** Basis.py 492-512 [Basis.interpolate]. *)
Definition Basis_interpolate (n : nat) (b : basis) (x w : tensor R) : res (tensor R) :=
  m <- stack_basis n b x ;; einsum2 "ijk" "jkli" "jl" m w.

(** Basis.py 524-548 [BasisProd.interpolate]. *)
Definition BasisProd_interpolate (n : nat) (b : basis) (alpha : R) (x w : tensor R)
  : res (tensor R) :=
  m <- stack_basis n b x ;;
  assemble <- einsum2 "ijk" "jkli" "jlk" m w ;;
  Ok (prod_combine alpha assemble).

(** The polynomial object of a piecewise layer: LagrangePolynomial.py 305-312, [LagrangePoly]
    (sum units, alpha = None) or [LagrangePolyProd] (product units).  Its attributes [n], [basis];
    [basis.X] and [basis.n] are read by the refinement functions. *)
Record poly := mkPoly { poly_n : nat; poly_basis : lagrange; poly_alpha : option R }.

(** LagrangePolynomial.py 305-307. *)
Definition LagrangePoly (n : nat) (length : R) : poly :=
  mkPoly n (get_lagrange_basis n length) None.
(** LagrangePolynomial.py 310-312; alpha defaults to 1.0 (Basis.py 518). *)
Definition LagrangePolyProd (n : nat) (length : R) : poly :=
  mkPoly n (get_lagrange_basis n length) (Some 1).

(** [poly.interpolate(x, w)]: Basis.py 492-512 or 524-548. *)
Definition poly_interpolate (p : poly) (x w : tensor R) : res (tensor R) :=
  match poly_alpha p with
  | None => Basis_interpolate (poly_n p) (lb_basis (poly_basis p)) x w
  | Some alpha => BasisProd_interpolate (poly_n p) (lb_basis (poly_basis p)) alpha x w
  end.
