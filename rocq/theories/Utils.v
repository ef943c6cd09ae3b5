(** * high_order_layers_torch/utils.py (part 1: scalar functions).  Definitions only. *)
From Coq Require Import Reals ZArith List.
From Flocq Require Import Core.Raux.
From Verif Require Import Spec Tensor.
Import ListNotations.
Local Open Scope R_scope.

(** [torch.remainder(a, b)] = [a - b*floor(a/b)] (documented formula; python sign convention). *)
Definition remainder (a b : R) : R := a - b * IZR (Zfloor (a / b)).

(** utils.py 74-79 [make_periodic], on one entry (the function is elementwise). *)
Definition make_periodic (x periodicity : R) : R :=
  let xp := x + 1/2 * periodicity in
  let xp := remainder xp (2 * periodicity) in
  let xp := if Rlt_dec periodicity xp then 2 * periodicity - xp else xp in
  xp - 1/2 * periodicity.

(** [if periodicity is not None: x = make_periodic(x, periodicity)], the first two lines of the
    forward methods: PolynomialLayers.py 61-63, 295-296, 640-641 and ProductLayer.py 45-47. *)
Definition apply_periodicity (p : option R) (x : R) : R :=
  match p with Some p => make_periodic x p | None => x end.

(** [tensor.long()] on a float: truncation toward zero.  The result of the C cast for values that
    do not fit in 64 bits is not modelled here. *)
Definition to_long (x : R) : Z := Ztrunc x.

(** [z.clamp(lo, hi)] on integers. *)
Definition clampZ (lo hi z : Z) : Z := Z.min (Z.max z lo) hi.
