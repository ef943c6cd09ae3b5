(** * Vocabulary used by the property statements.

    Nothing here refers to the model: finite sums and products, polynomials of bounded degree,
    the interval of a segment, distances between vectors. *)
From Coq Require Import Reals ZArith List Lia Lra.
Local Open Scope R_scope.

(** Sum of [f 0 .. f (n-1)]. *)
Fixpoint rsum (n : nat) (f : nat -> R) : R :=
  match n with O => 0 | S m => rsum m f + f m end.

(** Product of [f 0 .. f (n-1)]. *)
Fixpoint rprod (n : nat) (f : nat -> R) : R :=
  match n with O => 1 | S m => rprod m f * f m end.

(** [f] is (extensionally) a polynomial of degree [< n]. *)
Definition poly_lt (n : nat) (f : R -> R) : Prop :=
  exists c : nat -> R, forall x, f x = rsum n (fun k => c k * x ^ k).

(** Left end of segment [s] when [[-1,1]] is cut into [S] equal segments. *)
Definition knot (S s : nat) : R := -1 + 2 * INR s / INR S.

(** [x] belongs to segment [s]: half-open intervals, the first one open to the left, the last one
    to the right. *)
Definition in_segment (S s : nat) (x : R) : Prop :=
  (s < S)%nat /\ (s = 0%nat \/ knot S s <= x) /\ (S = Datatypes.S s \/ x < knot S (Datatypes.S s)).

(** Affine map of [[-1,1]] onto segment [s]. *)
Definition seg_global (S s : nat) (t : R) : R := knot S s + (t + 1) / INR S.

(** Continuity of a function of finitely many reals (epsilon-delta, sup distance). *)
Definition continuous_vec (n : nat) (f : (nat -> R) -> R) : Prop :=
  forall x eps, 0 < eps -> exists delta, 0 < delta /\
    forall y, (forall i, (i < n)%nat -> Rabs (y i - x i) < delta) -> Rabs (f y - f x) < eps.

(** Inverse of [seg_global]: local coordinate of [x] in segment [s]. *)
Definition seg_local (S s : nat) (x : R) : R := INR S * (x - knot S s) - 1.

(** Chebyshev-Lobatto points. *)
Definition lobatto (n i : nat) : R :=
  if Nat.eqb n 1 then 0 else - cos (INR i * PI / INR (n - 1)).

(** [f] is the polynomial of degree [< n] with values [v] at the Chebyshev-Lobatto points. *)
Definition interpolates (n : nat) (v : nat -> R) (f : R -> R) : Prop :=
  poly_lt n f /\ forall k, (k < n)%nat -> f (lobatto n k) = v k.

(** Vector [v] with entry [i] replaced. *)
Definition set_entry (v : nat -> R) (i : nat) (t : R) : nat -> R :=
  fun j => if Nat.eqb j i then t else v j.

(** Two multi-indices lie in the same slice along dimension [d]: they differ at most there. *)
Definition same_slice (d : nat) (ix jx : list nat) : Prop :=
  length ix = length jx /\ forall e, e <> d -> nth e ix 0%nat = nth e jx 0%nat.

(** [M] is the largest / [m] the smallest value of [f] on the set [A]; attained. *)
Definition is_largest {T} (A : T -> Prop) (f : T -> R) (M : R) : Prop :=
  (exists a, A a /\ f a = M) /\ forall a, A a -> f a <= M.
Definition is_smallest {T} (A : T -> Prop) (f : T -> R) (m : R) : Prop :=
  (exists a, A a /\ f a = m) /\ forall a, A a -> m <= f a.

(** Sum, over the non-empty subsets A of {0,..,n-1}, of the product of [f i] for i in A; the subsets
    are numbered 1 .. 2^n - 1, bit i telling whether i is in A. *)
Definition sum_of_products (n : nat) (f : nat -> R) : R :=
  rsum (2 ^ n - 1) (fun m => rprod n (fun i => if Nat.testbit (m + 1) i then f i else 1)).

(** Sum of [f ix] over the multi-indices [ix] with [ix_d < n_d] for every dimension [d]. *)
Fixpoint nsum (n : list nat) (f : list nat -> R) : R :=
  match n with
  | nil => f nil
  | cons d n => rsum d (fun i => nsum n (fun ix => f (i :: ix)))
  end.

(** [f] is a polynomial in [length n] variables, of degree [< n_d] in variable [d]. *)
Definition poly_nd (n : list nat) (f : (nat -> R) -> R) : Prop :=
  exists c : list nat -> R, forall v,
    f v = nsum n (fun a => c a * rprod (length n) (fun d => v d ^ nth d a 0%nat)).

(** The grid of Chebyshev-Lobatto points scaled to [[-len/2, len/2]]: node number [j] (a multi-index). *)
Definition grid (n : list nat) (len : R) (j : list nat) : nat -> R :=
  fun d => len / 2 * lobatto (nth d n 0%nat) (nth d j 0%nat).
