(** * N-dimensional elements: LagrangePolynomial.py 82-158, 290-297 and PolynomialLayers.py 79-171,
    359-529.  Definitions only.

    Inputs are meant to be tensors [batch, inputs, dimensions]; those of lower rank are broadcast. *)
From Coq Require Import String Reals ZArith List Bool.
From Verif Require Import Spec Tensor Utils LagrangePolynomial PolynomialLayers.
Import ListNotations.
Local Open Scope R_scope.

(** LagrangePolynomial.py 82-97: attributes of LagrangeBasisND. *)
Record lagrange_nd := mkND {
  nd_n : list nat; nd_X : list (tensor R); nd_denominators : list (tensor R); nd_num_basis : nat;
  nd_indexes : tensor nat }.

(** LagrangePolynomial.py 99-103 [_compute_denominators] for one dimension: entry [j, m] is
    [X[m] - X[j]] (row minus column), ones where that is 0. *)
Definition nd_denominator (X : tensor R) : tensor R :=
  let n := hd 0%nat (shape X) in
  mkT [n; n] (fun ix => match ix with
    | [j; m] => let diff := at_ X [m] - at_ X [j] in if Req_EM_T diff 0 then 1 else diff
    | _ => 1 end).

(** LagrangePolynomial.py 105-108 [_compute_indexes]: stack(meshgrid(.., "ij")).reshape(D, -1).T;
    meshgrid of an empty list raises. *)
Definition nd_compute_indexes (n : list nat) : res (tensor nat) :=
  match n with
  | [] => Err RuntimeError
  | _ =>
      let meshgrid := stack (length n) n (fun d => mkT n (fun ix => nth d ix 0%nat)) in
      r <- view_infer [length n] [] meshgrid ;;
      Ok (permute [1; 0]%nat r)
  end.

(** LagrangePolynomial.py 87-97 [LagrangeBasisND.__init__]; [n] is a list. *)
Definition LagrangeBasisND (n : list nat) (length : R) : res lagrange_nd :=
  let X := map (fun ni => tmap (fun c => length / 2 * c) (chebyshevLobatto ni)) n in
  indexes <- nd_compute_indexes n ;;
  Ok (mkND n X (map nd_denominator X) (prodn n) indexes).

Definition no_tensor : tensor R := mkT [] (fun _ => 0).

(** LagrangePolynomial.py 119-130: [x[..., d].unsqueeze(-1) - X[d]] is broadcast against [num_basis, 1, 1, n], so a tensor
    [inputs, dimensions] acts as one sample and a tensor [dimensions] as one sample with one input. *)
Definition as_points (x : tensor R) : tensor R :=
  match shape x with
  | [J; D] => mkT [1%nat; J; D] (fun ix => at_ x (tl ix))
  | [D] => mkT [1%nat; 1%nat; D] (fun ix => at_ x (tl (tl ix)))
  | _ => x
  end.

(** LagrangePolynomial.py 110-133 [_compute_basis]: [num_basis, batch, inputs].  [x[..., d]] raises
    IndexError when x has too few dimensions' worth of coordinates.  For ranks above 3 the callers' einsum raises
    RuntimeError, here raised at once. *)
Definition nd_compute_basis (p : lagrange_nd) (x : tensor R) : res (tensor R) :=
  let x := as_points x in
  match shape x with
  | [B; J; D] =>
      if Nat.ltb D (length (nd_n p)) then Err IndexError
      else Ok (mkT [nd_num_basis p; B; J] (fun ix => match ix with
        | [r; b; i] =>
            rprod (length (nd_n p)) (fun d =>
              let id := at_ (nd_indexes p) [r; d] in
              rprod (nth d (nd_n p) 0%nat) (fun m =>
                if negb (Nat.eqb id m)
                then (at_ x [b; i; d] - at_ (nth d (nd_X p) no_tensor) [m]) /
                     at_ (nth d (nd_denominators p) no_tensor) [id; m]
                else 1))
        | _ => 0 end))
  | [] => Err IndexError
  | _ => Err RuntimeError
  end.

(** LagrangePolynomial.py 135-145 [LagrangeBasisND.interpolate]. *)
Definition nd_interpolate (p : lagrange_nd) (x w : tensor R) : res (tensor R) :=
  basis <- nd_compute_basis p x ;; einsum2 "ibk" "oki" "bo" basis w.

(** LagrangePolynomial.py 147-158 [LagrangeBasisPiecewiseND.interpolate]. *)
Definition nd_piecewise_interpolate (p : lagrange_nd) (x w : tensor R) : res (tensor R) :=
  basis <- nd_compute_basis p x ;; einsum2 "ibk" "bkoi" "bo" basis w.

(** An argument that may be an int or a list of ints. *)
Inductive ints := Int (k : nat) | Ints (l : list nat).

(** PolynomialLayers.py 79-171 [PolynomialND], [Polynomial2D] .. [Polynomial5D]: a Function
    (PolynomialLayers.py 26-67) whose polynomial object is LagrangePolyFlatND (LagrangePolynomial.py
    290-297), i.e. LagrangeBasisND: [dimensions] lands in its kwargs and is ignored.  An int [n] fails
    at [len(n)]. *)
Record poly_nd_layer := mkPND { pn_poly : lagrange_nd; pn_periodicity : option R; pn_w : tensor R }.
Definition new_PolynomialND (n : ints) (in_features out_features : nat) (length weight_magnitude : R)
    (periodicity : option R) (draw : nat -> nat -> R) : res poly_nd_layer :=
  match n with
  | Int _ => Err TypeError
  | Ints n =>
      p <- LagrangeBasisND n length ;;
      Ok (mkPND p periodicity
            (constant_random_initialization out_features in_features (nd_num_basis p) weight_magnitude draw))
  end.
Definition PolynomialND_forward (l : poly_nd_layer) (x : tensor R) : res (tensor R) :=
  nd_interpolate (pn_poly l) (tmap (apply_periodicity (pn_periodicity l)) x) (pn_w l).

(** ** PiecewiseND (PolynomialLayers.py 359-529) *)

Record piecewise_nd := mkPwND {
  pd_dimensions : nat; pd_n : list nat; pd_segments : list nat; pd_in : nat; pd_out : nat;
  pd_length : R; pd_basis : lagrange_nd; pd_w : tensor R }.

Definition as_list (v : ints) (d : nat) : list nat := match v with Int k => repeat k d | Ints l => l end.

(** Lines 360-423, 425-436.  [initialize] is the comparison with "constant_random": if true the weight
    tensor is replaced by a 1-d one, the draws repeated; otherwise it keeps its shape and is uniform.
    Device and prints are dropped. *)
Definition new_PiecewiseND (n : ints) (in_features out_features : nat) (segments : ints)
    (dimensions : option nat) (length weight_magnitude : R) (constant_random : bool)
    (draw : nat -> nat -> R) (u : index -> R) : res piecewise_nd :=
  dims <- match dimensions, n with
          | None, Int _ => Err ValueError
          | Some (S d), _ => Ok (S d)
          | _, Ints l => Ok (List.length l)
          | Some O, Int _ => Err TypeError (* len of an int *)
          end ;;
  let nl := as_list n dims in
  let sl := as_list segments dims in
  if negb (Nat.eqb (List.length nl) (List.length sl)) then Err ValueError
  else
    p <- LagrangeBasisND nl length ;;
    let k := (prodn sl * prodn nl)%nat in
    let segment_values := mkT [in_features; out_features] (fun ix =>
          (draw (nth 0 ix 0%nat) (nth 1 ix 0%nat) * 2 * weight_magnitude - weight_magnitude) / INR in_features) in
    let w := if constant_random
             then mkT [numel segment_values * k]%nat
                    (fun ix => at_ (flatten segment_values) [hd 0 ix / k]%nat)
             else mkT [in_features; out_features; k] (fun ix =>
                    - weight_magnitude / INR in_features + 2 * weight_magnitude / INR in_features * u ix) in
    Ok (mkPwND dims nl sl in_features out_features length p w).

(** Number of segments that coordinate [d] is compared with (a single one is broadcast). *)
Definition pd_segments_at (l : piecewise_nd) (d : nat) : nat :=
  nth (bc (length (pd_segments l)) d) (pd_segments l) 0%nat.

(** Lines 438-451 [which_segment], one entry; lines 463-467 [_eta]; lines 453-456 [x_local]. *)
Definition pd_segment_index (l : piecewise_nd) (d : nat) (x : R) : Z :=
  let s := pd_segments_at l d in
  clampZ 0 (Z.of_nat s - 1) (to_long ((x + 1/2 * pd_length l) / pd_length l * INR s)).
Definition pd_eta (l : piecewise_nd) (d : nat) (index : Z) : R := IZR index / INR (pd_segments_at l d) * 2 - 1.
Definition pd_x_local (l : piecewise_nd) (d : nat) (x : R) (index : Z) : R :=
  let x_min := pd_eta l d index in
  let x_max := pd_eta l d (index + 1) in
  pd_length l * ((x - x_min) / (x_max - x_min)) - 1/2 * pd_length l.

(** Lines 438-451 on a tensor [batch, inputs, dimensions]: the print statement reads [x[:, :, 0]] and
    [x[:, :, 1]] (IndexError) and takes their minimum and maximum (RuntimeError when empty). *)
Definition pd_which_segment (l : piecewise_nd) (x : tensor R) : res (tensor Z) :=
  match shape x with
  | [B; J; D] =>
      if Nat.ltb D 2 then Err IndexError
      else if Nat.eqb (B * J) 0 then Err RuntimeError
      else match bsize D (length (pd_segments l)) with
           | Some D' => Ok (mkT [B; J; D'] (fun ix => match ix with
               | [b; i; d] => pd_segment_index l d (at_ x [b; i; bc D d]) | _ => 0%Z end))
           | None => Err RuntimeError
           end
  | [] | [_] | [_; _] => Err IndexError
  | _ => Err RuntimeError
  end.

(** Lines 488-511 [_get_weight_indices]. *)
Definition pd_weight_indices (l : piecewise_nd) (seg : tensor Z) : res (tensor Z) :=
  match shape seg with
  | [B; J; D] =>
      if Nat.ltb D (pd_dimensions l) then Err IndexError
      else
        let flat b i := fold_left Z.add
              (map (fun d => (at_ seg [b; i; d] * Z.of_nat (prodn (skipn (d + 1) (pd_segments l))))%Z)
                   (seq 0 (pd_dimensions l))) 0%Z in
        Ok (mkT [B; J; prodn (pd_n l)] (fun ix => match ix with
             | [b; i; k] => (flat b i * Z.of_nat (prodn (pd_n l)) + Z.of_nat k)%Z | _ => 0%Z end))
  | _ => Err RuntimeError
  end.

(** Lines 513-529 [_reshape_weights]: [self.w[indices]] indexes the first dimension of w. *)
Definition pd_reshape_weights (l : piecewise_nd) (wi : tensor Z) : res (tensor R) :=
  match shape wi, shape (pd_w l) with
  | [B; J; k], d0 :: rest =>
      if forallb (fun m => index_ok d0 (at_ (flatten wi) [m])) (seq 0 (numel wi))
      then reshape [B; J; pd_out l; k]
             (mkT ([B; J; pd_out l; k] ++ rest) (fun ix => match ix with
                | b :: i :: o :: j :: tl => at_ (pd_w l) (wrap d0 (at_ wi [b; i; j]) :: tl)
                | _ => 0 end))
      else Err IndexError
  | _, _ => Err IndexError
  end.

(** Lines 469-486 [forward].  [x_local] broadcasts x against the segment numbers. *)
Definition PiecewiseND_forward (l : piecewise_nd) (x : tensor R) : res (tensor R) :=
  seg <- pd_which_segment l x ;;
  let xl := mkT (shape seg) (fun ix => match ix with
        | [b; i; d] => pd_x_local l d (at_ x [b; i; bc (nth 2 (shape x) 0%nat) d]) (at_ seg ix) | _ => 0 end) in
  wi <- pd_weight_indices l seg ;;
  w <- pd_reshape_weights l wi ;;
  nd_piecewise_interpolate (pd_basis l) xl w.
