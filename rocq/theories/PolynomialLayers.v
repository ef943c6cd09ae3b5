(** * high_order_layers_torch/PolynomialLayers.py: layers and their forward passes.
    Definitions only. *)
From Coq Require Import Reals ZArith List.
From Verif Require Import Spec Tensor Utils LagrangePolynomial Basis.
Import ListNotations.
Local Open Scope R_scope.

(** PolynomialLayers.py 12-23 [constant_random_initialization]: the weight tensor [out, in, k]
    after initialisation; [draw o i] is the value of [torch.rand] for that link.  (unsqueeze(2)
    and expand fused.) *)
Definition constant_random_initialization (out_features in_features k : nat)
    (weight_magnitude : R) (draw : nat -> nat -> R) : tensor R :=
  mkT [out_features; in_features; k] (fun ix => match ix with
    | [o; i; _] => draw o i * weight_magnitude / INR in_features
    | _ => 0 end).

(** ** Function and its subclasses (single polynomial or Fourier series per link) *)

(** PolynomialLayers.py 26-67 [Function] with a BasisFlat polynomial object; the unused parameter
    [result] (line 56) is left out. *)
Record func := mkFunc {
  f_n : nat; f_basis : basis; f_periodicity : option R; f_w : tensor R }.

(** PolynomialLayers.py 60-67 [Function.forward]. *)
Definition Function_forward (l : func) (x : tensor R) : res (tensor R) :=
  let x := tmap (apply_periodicity (f_periodicity l)) x in
  BasisFlat_interpolate (f_n l) (f_basis l) x (f_w l).

(** PolynomialLayers.py 70-76 [Polynomial], default initialisation. *)
Definition Polynomial (n in_features out_features : nat) (length weight_magnitude : R)
    (periodicity : option R) (draw : nat -> nat -> R) : func :=
  let b := lb_basis (get_lagrange_basis n length) in
  mkFunc n b periodicity
    (constant_random_initialization out_features in_features (BasisFlat_num_basis n b)
       weight_magnitude draw).

(** PolynomialLayers.py 187-193 [FourierSeries]: weight_magnitude, periodicity, device, ... land in
    kwargs, which are not forwarded (unlike in Polynomial). *)
Definition FourierSeries (n in_features out_features : nat) (length weight_magnitude : R)
    (periodicity : option R) (draw : nat -> nat -> R) : func :=
  let b := FourierBasis length in
  mkFunc n b None
    (constant_random_initialization out_features in_features (BasisFlat_num_basis n b) 1 draw).

(** ** Piecewise layers *)

(** The four concrete classes (PolynomialLayers.py 532-581 and 706-754), for isinstance tests. *)
Inductive pw_class :=
| PiecewisePolynomial | PiecewisePolynomialProd
| PiecewiseDiscontinuousPolynomial | PiecewiseDiscontinuousPolynomialProd.

(** Base class Piecewise or PiecewiseDiscontinuous. *)
Definition is_continuous_class (c : pw_class) : bool :=
  match c with PiecewisePolynomial | PiecewisePolynomialProd => true | _ => false end.

(** Attributes set by [Piecewise.__init__] (234-257) and [PiecewiseDiscontinuous.__init__]
    (599-619); [_half] is [0.5 * _length]. *)
Record piecewise := mkPw {
  pw_cls : pw_class;
  pw_poly : poly;
  pw_n : nat;
  pw_segments : nat;
  pw_in : nat;
  pw_out : nat;
  pw_periodicity : option R;
  pw_length : R;
  pw_w : tensor R }.

Definition pw_half (l : piecewise) : R := 1/2 * pw_length l.

(** Number of weights per link: lines 243 ([(n-1)*segments+1]) and 608 ([n*segments]).  n >= 1 is
    assumed (for n = 0 python would compute a negative size). *)
Definition pw_num_weights (c : pw_class) (n segments : nat) : nat :=
  if is_continuous_class c then ((n - 1) * segments + 1)%nat else (n * segments)%nat.

(** Offset between the first weights of consecutive segments: lines 307 and 650. *)
Definition pw_stride (c : pw_class) (n : nat) : nat :=
  if is_continuous_class c then (n - 1)%nat else n.

(** The polynomial object [poly(n)], lines 234 and 602: called with n only, so its length is the
    default 2 whatever the layer's length is. *)
Definition pw_poly_of (c : pw_class) (n : nat) : poly :=
  match c with
  | PiecewisePolynomial | PiecewiseDiscontinuousPolynomial => LagrangePoly n 2
  | PiecewisePolynomialProd | PiecewiseDiscontinuousPolynomialProd => LagrangePolyProd n 2
  end.

(** Constructors 532-581, 706-754 with the base class constructors 196-257, 584-619.  [initialize]
    is not forwarded by any subclass, so the initialisation is always constant_random. *)
Definition new_piecewise (c : pw_class) (n in_features out_features segments : nat)
    (length weight_magnitude : R) (periodicity : option R) (draw : nat -> nat -> R) : piecewise :=
  mkPw c (pw_poly_of c n) n segments in_features out_features periodicity length
    (constant_random_initialization out_features in_features (pw_num_weights c n segments)
       weight_magnitude draw).

(** The layer with another content of its weight parameter (what training and the in-place
    functions change). *)
Definition with_w (l : piecewise) (w : tensor R) : piecewise :=
  mkPw (pw_cls l) (pw_poly l) (pw_n l) (pw_segments l) (pw_in l) (pw_out l)
       (pw_periodicity l) (pw_length l) w.

(** [(((x + half) / length) * segments).long().clamp(0, segments - 1)]: lines 273-274, 299-303,
    632-636, 643-647, on one entry. *)
Definition segment_index (l : piecewise) (x : R) : Z :=
  clampZ 0 (Z.of_nat (pw_segments l) - 1)
    (to_long ((x + pw_half l) / pw_length l * INR (pw_segments l))).

(** PolynomialLayers.py 259-275, 628-637 [which_segment]. *)
Definition which_segment (l : piecewise) (x : R) : Z :=
  segment_index l (apply_periodicity (pw_periodicity l) x).

(** PolynomialLayers.py 338-344, 695-697 [_eta]. *)
Definition eta (l : piecewise) (index : Z) : R := IZR index / INR (pw_segments l) * 2 - 1.

(** PolynomialLayers.py 277-284, 678-685 [x_local]; the same expression is inlined in the forward
    methods (329-333, 671-674). *)
Definition x_local (l : piecewise) (x : R) (index : Z) : R :=
  let x_min := eta l index in
  let x_max := eta l (index + 1) in
  pw_length l * ((x - x_min) / (x_max - x_min)) - pw_half l.

(** PolynomialLayers.py 286-292, 687-693 [x_global]. *)
Definition x_global (l : piecewise) (x : R) (index : Z) : R :=
  let x_min := eta l index in
  let x_max := eta l (index + 1) in
  (x + pw_half l) / pw_length l * (x_max - x_min) + x_min.

(** PolynomialLayers.py 294-336 [Piecewise.forward] and 639-676 [PiecewiseDiscontinuous.forward];
    they differ in the factor of [wid_min] only ([pw_stride]).  [x] is [batch, in]. *)
Definition Piecewise_forward (l : piecewise) (x : tensor R) : res (tensor R) :=
  let x := tmap (apply_periodicity (pw_periodicity l)) x in
  let id_min := tmap (segment_index l) x in
  let wid_min := tmap (fun i => (i * Z.of_nat (pw_stride (pw_cls l) (pw_n l)))%Z) id_min in
  (* (wid_min.unsqueeze(-1) + arange(n)).flatten() *)
  let wrange := flatten (mkT (shape wid_min ++ [pw_n l])
                  (fun ix => (at_ wid_min (removelast ix) + Z.of_nat (last ix 0%nat))%Z)) in
  (* div(arange(numel), n, floor) % in_features *)
  let windex := tmap (fun k => ((k / Z.of_nat (pw_n l)) mod Z.of_nat (pw_in l))%Z)
                  (arange (numel wrange)) in
  w1 <- index_rows (pw_w l) windex wrange ;;
  w2 <- view_infer [pw_out l] [pw_in l; pw_n l] w1 ;;
  let w3 := permute [1; 2; 0; 3]%nat w2 in
  let x_in := tmap2 (fun v i => x_local l v i) x id_min in
  poly_interpolate (pw_poly l) x_in w3.
