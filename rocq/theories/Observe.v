(** * Observations used by the property statements.

    Shorthands for calling the API: the output of a layer on one input vector, and the class of
    layers a user can hold (constructor followed by any change of the weights' values).
    Definitions only. *)
From Coq Require Import Reals ZArith List.
From Verif Require Import Spec Tensor Utils LagrangePolynomial Basis PolynomialLayers.
Import ListNotations.
Local Open Scope R_scope.

(** A batch with one sample. *)
Definition one_sample (m : nat) (v : nat -> R) : tensor R :=
  mkT [1%nat; m] (fun ix => v (nth 1 ix 0%nat)).

(** Row [b] of a batch. *)
Definition row (x : tensor R) (b : nat) : nat -> R := fun i => at_ x [b; i].

(** Entry of the result of a call that succeeded. *)
Definition value_at (r : res (tensor R)) (ix : index) : R :=
  match r with Ok y => at_ y ix | Err _ => 0 end.

(** Output [o] of a piecewise layer for the input vector [v]. *)
Definition layer_out (l : piecewise) (v : nat -> R) (o : nat) : R :=
  value_at (Piecewise_forward l (one_sample (pw_in l) v)) [0%nat; o].

(** A Polynomial or FourierSeries layer with another content of its weights. *)
Definition with_fw (l : func) (w : tensor R) : func := mkFunc (f_n l) (f_basis l) (f_periodicity l) w.

(** A layer a user can hold: built by the constructor of class [c] with at least one node,
    segment, input and output, its weights then having been given any values (by training or
    assignment). *)
Definition held (l : piecewise) : Prop :=
  exists c n I O S len mag per draw w,
    (1 <= n)%nat /\ (1 <= S)%nat /\ (1 <= I)%nat /\ (1 <= O)%nat /\
    shape w = shape (pw_w (new_piecewise c n I O S len mag per draw)) /\
    l = with_w (new_piecewise c n I O S len mag per draw) w.

(** Sum units, as opposed to product units. *)
Definition sum_class (c : pw_class) : Prop :=
  c = PiecewisePolynomial \/ c = PiecewiseDiscontinuousPolynomial.
Definition continuous_class (c : pw_class) : Prop :=
  c = PiecewisePolynomial \/ c = PiecewisePolynomialProd.
Definition discontinuous_class (c : pw_class) : Prop :=
  c = PiecewiseDiscontinuousPolynomial \/ c = PiecewiseDiscontinuousPolynomialProd.

(** Position, in the weight vector of a link, of weight [k] of segment [s]: neighbouring segments
    of a continuous layer share a weight. *)
Definition weight_pos (c : pw_class) (n s k : nat) : nat :=
  match c with
  | PiecewisePolynomial | PiecewisePolynomialProd => (s * (n - 1) + k)%nat
  | _ => (s * n + k)%nat
  end.

(** Two layers return the same tensor for every batch. *)
Definition same_function (l l' : piecewise) : Prop :=
  forall x B, shape x = [B; pw_in l] ->
  exists y y', Piecewise_forward l x = Ok y /\ Piecewise_forward l' x = Ok y' /\ teq y y'.

(** Entries of a tensor of shape [s] that are normalised together with entry [ix]: those that differ
    from it along dimension [d] only, or those of sample [b]. *)
Definition in_slice (s : list nat) (d : nat) (ix : list nat) (jx : list nat) : Prop := valid s jx /\ same_slice d ix jx.
Definition in_sample (s : list nat) (b : nat) (jx : list nat) : Prop := valid s jx /\ hd 0%nat jx = b.

(** The link of input [i] and output [o] as a layer of its own: one input, one output, sum unit, same
    number of nodes, segments, length and periodicity, and the weights of that link. *)
Definition one_link (l : piecewise) (o i : nat) : piecewise :=
  let c := match pw_cls l with
           | PiecewisePolynomial | PiecewisePolynomialProd => PiecewisePolynomial
           | _ => PiecewiseDiscontinuousPolynomial end in
  let l1 := new_piecewise c (pw_n l) 1 1 (pw_segments l) (pw_length l) 1 (pw_periodicity l) (fun _ _ => 0) in
  with_w l1 (mkT (shape (pw_w l1)) (fun ix => at_ (pw_w l) [o; i; nth 2 ix 0%nat])).

(** Gradient of a batch with respect to the weights of a layer: [delta b o] is the derivative of the
    loss with respect to output [o] of sample [b] (any loss, any network after the layer), and entry
    [o,i,p] of [g] the derivative of the loss with respect to that weight. *)
Definition is_gradient (l : piecewise) (x : tensor R) (B : nat) (delta : nat -> nat -> R) (g : tensor R) : Prop :=
  shape g = shape (pw_w l) /\
  forall o i p, valid (shape (pw_w l)) [o; i; p] ->
    derivable_pt_lim
      (fun t => rsum B (fun b => rsum (pw_out l) (fun o' =>
         delta b o' * layer_out (with_w l (upd (pw_w l) [o; i; p] t)) (row x b) o')))
      (at_ (pw_w l) [o; i; p]) (at_ g [o; i; p]).
