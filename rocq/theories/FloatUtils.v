(** * utils.py in floating point.  Definitions only.

    The same functions as in Normalization.v and Utils.v, with every arithmetic operation followed by a rounding [rnd];
    maximum, minimum, absolute value and comparisons are exact.  Overflow, infinities and NaN are not modelled. *)
From Coq Require Import Reals ZArith List.
From Flocq Require Import Core.
From Verif Require Import Spec Tensor Utils Normalization.
Import ListNotations.
Local Open Scope R_scope.

Section Rounded.
Variable rnd : R -> R.

(** utils.py 12-13 [max_abs_normalization]; the scalar [eps] is converted to the tensor's format first. *)
Definition fl_max_abs_normalization (x : tensor R) (eps : R) (dim : Z) : res (tensor R) :=
  m <- max_abs x dim ;;
  Ok (with_reduced (fun a m => rnd (a / rnd (m + rnd eps))) x m dim).

(** utils.py 20-28 [max_center_normalization]. *)
Definition fl_max_center_normalization (x : tensor R) (eps : R) (dim : Z) : res (tensor R) :=
  max_x <- reduce_keep true rmax x dim ;;
  min_x <- reduce_keep true rmin x dim ;;
  let midrange := tmap2 (fun a b => rnd (1/2 * rnd (a + b))) max_x min_x in
  let mag := tmap2 (fun a b => rnd (a - b)) max_x midrange in
  let centered := with_reduced (fun a b => rnd (a - b)) x midrange dim in
  Ok (with_reduced (fun c m => rnd (c / rnd (m + rnd eps))) centered mag dim).

(** [torch.remainder] on floats: fmod, which is exact, then a correction of the sign. *)
Definition fl_remainder (a b : R) : R :=
  let m := a - b * IZR (Ztrunc (a / b)) in
  if Req_EM_T m 0 then m
  else if (if Rlt_dec b 0 then negb (if Rlt_dec m 0 then true else false) else if Rlt_dec m 0 then true else false) then rnd (m + b) else m.

(** utils.py 74-79 [make_periodic]. *)
Definition fl_make_periodic (x periodicity : R) : R :=
  let xp := rnd (x + rnd (1/2 * periodicity)) in
  let xp := fl_remainder xp (rnd (2 * periodicity)) in
  let xp := if Rlt_dec (rnd periodicity) xp then rnd (rnd (2 * periodicity) - xp) else xp in
  rnd (xp - rnd (1/2 * periodicity)).
End Rounded.

(** Rounding to nearest, ties to even, with [prec] bits and smallest exponent [emin]; single and double precision. *)
Definition nearest (emin prec : Z) : R -> R := round radix2 (FLT_exp emin prec) ZnearestE.
Definition representable (emin prec : Z) : R -> Prop := generic_format radix2 (FLT_exp emin prec).
Definition float32 : R -> R := nearest (-149) 24.
Definition float64 : R -> R := nearest (-1074) 53.
