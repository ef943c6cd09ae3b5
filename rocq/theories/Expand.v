(** * high_order_layers_torch/Basis.py and LagrangePolynomial.py: the expansion classes used by the
    convolutions.  Definitions only. *)
From Coq Require Import Reals ZArith List Bool.
From Verif Require Import Spec Tensor Utils LagrangePolynomial Basis.
Import ListNotations.
Local Open Scope R_scope.

(** [t[I, J] = v] for a 2-d tensor and three 1-d tensors of the same length; later assignments win. *)
Definition put_rows {A} (t : tensor A) (I J : tensor Z) (v : tensor A) : res (tensor A) :=
  match shape t, shape I, shape J, shape v with
  | [d0; d1], [k], [k'], [k''] =>
      if (Nat.eqb k k' && Nat.eqb k k'')%bool then
        if forallb (fun m => index_ok d0 (at_ I [m]) && index_ok d1 (at_ J [m]))%bool (seq 0 k)
        then Ok (fold_left (fun t m => upd t [wrap d0 (at_ I [m]); wrap d1 (at_ J [m])] (at_ v [m])) (seq 0 k) t)
        else Err IndexError
      else Err IndexError
  | _, _, _, _ => Err IndexError
  end.

(** Basis.py 38-65, 138-154, 220-236, 299-315. *)
Inductive expand_class :=
| PiecewiseExpand | PiecewiseExpand1d | PiecewiseDiscontinuousExpand | PiecewiseDiscontinuousExpand1d.

(** Attributes [_basis], [_n], [_segments], [_length] ([_half] is [0.5 * length]). *)
Record expand := mkExpand { e_cls : expand_class; e_basis : basis; e_n : nat; e_segments : nat; e_length : R }.

Definition e_continuous (e : expand) : bool :=
  match e_cls e with PiecewiseExpand | PiecewiseExpand1d => true | _ => false end.
(** Rank of the tensors the class accepts. *)
Definition e_rank (e : expand) : nat :=
  match e_cls e with PiecewiseExpand | PiecewiseDiscontinuousExpand => 4%nat | _ => 3%nat end.
Definition e_half (e : expand) : R := 1/2 * e_length e.
(** Lines 63, 152 ([(n-1)*segments+1]) and 234, 313 ([n*segments]); n >= 1 is assumed. *)
Definition e_variables (e : expand) : nat :=
  if e_continuous e then ((e_n e - 1) * e_segments e + 1)%nat else (e_n e * e_segments e)%nat.
(** Lines 86, 175 ([n - 1]) and 251, 336 ([n]). *)
Definition e_stride (e : expand) : nat := if e_continuous e then (e_n e - 1)%nat else e_n e.

(** Segment of one entry: lines 76-83, 165-172, 326-333 (two [torch.where]) and 245-249 ([clamp]). *)
Definition expand_index (e : expand) (x : R) : Z :=
  let id_min := to_long ((x + e_half e) / e_length e * INR (e_segments e)) in
  let last := (Z.of_nat (e_segments e) - 1)%Z in
  match e_cls e with
  | PiecewiseDiscontinuousExpand => clampZ 0 last id_min
  | _ => let id_min := if (id_min <=? last)%Z then id_min else last in
         if (id_min >=? 0)%Z then id_min else 0%Z
  end.

(** Lines 129-135, 211-217, 290-296, 372-378 [_eta]. *)
Definition expand_eta (e : expand) (index : Z) : R := IZR index / INR (e_segments e) * 2 - 1.

(** Lines 89-93, 178-182, 254-258, 339-343. *)
Definition expand_x_in (e : expand) (x : R) (id_min : Z) : R :=
  let x_min := expand_eta e id_min in
  let x_max := expand_eta e (id_min + 1) in
  e_length e * ((x - x_min) / (x_max - x_min)) - e_half e.

(** Basis.py 67-127, 156-209, 238-288, 317-370 [__call__]: the four methods differ in the rank they
    accept, the clamping of the segment and the stride.  Devices and memory layout are not modelled
    (the 1d classes call [view] on a tensor with the layout of the input). *)
Definition expand_call (e : expand) (x : tensor R) : res (tensor R) :=
  let r := e_rank e in
  let id_min := tmap (expand_index e) x in
  let wid_min := tmap (fun i => (i * Z.of_nat (e_stride e))%Z) id_min in
  let x_in := tmap2 (expand_x_in e) x id_min in
  out <- stack_basis (e_n e) (e_basis e) x_in ;;
  if Nat.ltb (length (shape x)) r
  then Err (match e_cls e with PiecewiseDiscontinuousExpand => RuntimeError | _ => IndexError end)
  else if Nat.ltb r (length (shape x)) then Err RuntimeError
  else
    let out := permute (seq 1 r ++ [0%nat]) out in
    let mat := mkT (shape x ++ [e_variables e]) (fun _ => 0) in
    let wid_min_flat := flatten wid_min in
    let wrange := mkT [numel wid_min; e_n e] (fun ix => match ix with
                    | [m; k] => (at_ wid_min_flat [m] + Z.of_nat k)%Z | _ => 0%Z end) in
    let windex := tmap (fun m => (m / Z.of_nat (e_n e))%Z) (arange (numel wrange)) in
    mat_trans <- view_infer [] [e_variables e] mat ;;
    mat_trans <- put_rows mat_trans windex (flatten wrange) (flatten out) ;;
    mat' <- reshape (shape mat) mat_trans ;;
    Ok (permute (r :: seq 0 r) mat').

(** The expansion objects: LagrangePolynomial.py 237-239 [LagrangeExpand], 270-272 [FourierExpand]
    (both BasisExpand, Basis.py 9-35) and 242-267, the four piecewise ones. *)
Inductive expansion :=
| BasisExpand (n : nat) (b : basis)
| Piecewise_ (e : expand).

Definition LagrangeExpand (n : nat) (length : R) : expansion :=
  BasisExpand n (lb_basis (get_lagrange_basis n length)).
Definition FourierExpand (n : nat) (length : R) : expansion := BasisExpand n (FourierBasis length).
(** LagrangePolynomial.py 242-267: [c] chooses the class. *)
Definition PiecewisePolynomialExpand (c : expand_class) (n segments : nat) (length : R) : expansion :=
  Piecewise_ (mkExpand c (lb_basis (get_lagrange_basis n length)) n segments length).

Definition expansion_call (x : expansion) (t : tensor R) : res (tensor R) :=
  match x with
  | BasisExpand n b => stack_basis n b t
  | Piecewise_ e => expand_call e t
  end.

(** FunctionalConvolution.py 107-139 [Expansion2d.__call__]. *)
Definition Expansion2d (x : expansion) (inputs : tensor R) : res (tensor R) :=
  res <- expansion_call x inputs ;;
  match shape res with
  | [nb; B; C; H; W] =>
      let res := permute [1; 3; 4; 2; 0]%nat res in
      res <- reshape [B; H; W; (C * nb)%nat] res ;;
      Ok (permute [0; 3; 1; 2]%nat res)
  | _ => Err RuntimeError (* permute with the wrong number of dimensions *)
  end.

(** FunctionalConvolution.py 142-172 [Expansion1d.__call__]. *)
Definition Expansion1d (x : expansion) (inputs : tensor R) : res (tensor R) :=
  res <- expansion_call x inputs ;;
  match shape res with
  | [nb; B; C; W] =>
      let res := permute [1; 3; 2; 0]%nat res in
      res <- reshape [B; W; (C * nb)%nat] res ;;
      Ok (permute [0; 2; 1]%nat res)
  | _ => Err RuntimeError
  end.
