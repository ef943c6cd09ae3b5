(** * high_order_layers_torch/PolynomialLayers.py 757-1023: functions that fill the weights of a
    layer in place.  Definitions only.

    Each function is modelled by the final content of the mutated weight tensor and the exception
    that stopped it, if any.  The source and the target layer are different objects (when they are
    the same object the code would read weights it has already overwritten).  Device transfers and
    no_grad are dropped. *)
From Coq Require Import Reals ZArith List.
From Verif Require Import Spec Tensor Utils LagrangePolynomial Basis PolynomialLayers.
Import ListNotations.
Local Open Scope R_scope.

(** Run code that may raise, then code that mutates. *)
Definition mbind {A B} (r : res B) (s : A) (k : B -> mut A) : mut A :=
  match r with Ok b => k b | Err e => (s, Some e) end.

(** [t[a, b, lo:hi]] of a 3-d tensor: python clamps the ends of a slice. *)
Definition slice3 (t : tensor R) (a b lo hi : nat) : res (tensor R) :=
  match shape t with
  | [d0; d1; d2] =>
      if (Nat.ltb a d0 && Nat.ltb b d1)%bool then
        let lo := Nat.min lo d2 in
        let hi := Nat.min hi d2 in
        Ok (mkT [hi - lo]%nat (fun ix => at_ t [a; b; lo + hd 0 ix]%nat))
      else Err IndexError
  | _ => Err IndexError
  end.

(** [t[a, b, lo:hi] = v] for a 1-d tensor [v]: the length must match, or be 1 (broadcast). *)
Definition assign3 (t : tensor R) (a b lo hi : nat) (v : tensor R) : mut (tensor R) :=
  match shape t with
  | [d0; d1; d2] =>
      if (Nat.ltb a d0 && Nat.ltb b d1)%bool then
        let lo := Nat.min lo d2 in
        let hi := Nat.min hi d2 in
        if (Nat.eqb (numel v) (hi - lo) || Nat.eqb (numel v) 1)%bool then
          (mkT (shape t) (fun ix => match ix with
             | [a'; b'; p] =>
                 if (Nat.eqb a' a && Nat.eqb b' b && Nat.leb lo p && Nat.ltb p hi)%bool
                 then at_ v [bc (numel v) (p - lo)] else at_ t ix
             | _ => at_ t ix end), None)
        else (t, Some RuntimeError)
      else (t, Some IndexError)
  | _ => (t, Some IndexError)
  end.

(** [t[a, b, p] = v]. *)
Definition assign_at (t : tensor R) (a b p : nat) (v : R) : mut (tensor R) :=
  match shape t with
  | [d0; d1; d2] =>
      if (Nat.ltb a d0 && Nat.ltb b d1 && Nat.ltb p d2)%bool then (upd t [a; b; p] v, None)
      else (t, Some IndexError)
  | _ => (t, Some IndexError)
  end.

Definition dim (t : tensor R) (k : nat) : nat := nth k (shape t) 0%nat.

(** [.reshape(1, 1, 1, -1)] of a 1-d tensor. *)
Definition as_weights (t : tensor R) : res (tensor R) := reshape [1; 1; 1; numel t]%nat t.

(** Lines 790-795: [(n + offset, end)]; the variables stay unbound for the product classes, which
    are not instances of the two tested classes. *)
Definition offset_end (c : pw_class) : option ((nat -> nat) * nat) :=
  match c with
  | PiecewisePolynomial => Some (fun n => (n - 1)%nat, 1%nat)
  | PiecewiseDiscontinuousPolynomial => Some (fun n => n, 0%nat)
  | _ => None
  end.

(** PolynomialLayers.py 757-812 [interpolate_polynomial_layer]: final content of [layer_out.w]. *)
Definition interpolate_polynomial_layer (layer_in layer_out : piecewise) : mut (tensor R) :=
  let w_in := pw_w layer_in in
  let w_out := pw_w layer_out in
  if negb (Nat.eqb (pw_segments layer_in) (pw_segments layer_out)) then (w_out, Some ValueError)
  else
    mbind (view_infer [] [1]%nat (lb_X (poly_basis (pw_poly layer_out)))) w_out (fun x_out =>
    let n_in := lb_n (poly_basis (pw_poly layer_in)) in
    let n_out := lb_n (poly_basis (pw_poly layer_out)) in
    mfor (dim w_in 0) (fun inputs =>
      mfor (dim w_in 1) (fun outputs =>
        mfor (pw_segments layer_in) (fun i w_out =>
          match offset_end (pw_cls layer_in) with
          | None => (w_out, Some UnboundLocalError)
          | Some (st, e) =>
              mbind (w <- slice3 w_in inputs outputs (i * st n_in) ((i + 1) * st n_in + e) ;;
                     w <- as_weights w ;;
                     poly_interpolate (pw_poly layer_in) x_out w) w_out (fun w_b =>
              assign3 w_out inputs outputs (i * st n_out) ((i + 1) * st n_out + e) (flatten w_b))
          end))) w_out).

(** PolynomialLayers.py 815-881 [refine_discontinuous_polynomial_layer]: the statements before the
    unconditional [raise] (line 866) do not write; those after it are unreachable. *)
Definition refine_discontinuous_polynomial_layer (layer_in layer_out : piecewise) : mut (tensor R) :=
  let w_in := pw_w layer_in in
  mfor (dim w_in 0) (fun inputs =>
    mfor (dim w_in 1) (fun outputs =>
      mfor (pw_segments layer_out) (fun j w_out => (w_out, Some ValueError)))) (pw_w layer_out).

(** PolynomialLayers.py 884-948 [refine_polynomial_layer].  The segment numbers used as slice
    bounds are not negative because [which_segment] clamps (segments >= 1). *)
Definition refine_polynomial_layer (layer_in layer_out : piecewise) : mut (tensor R) :=
  let w_in := pw_w layer_in in
  let w_out := pw_w layer_out in
  mbind (view_infer [] [1]%nat (lb_X (poly_basis (pw_poly layer_out)))) w_out (fun x_out =>
  let n_in := lb_n (poly_basis (pw_poly layer_in)) in
  let n_out := lb_n (poly_basis (pw_poly layer_out)) in
  mfor (dim w_in 0) (fun inputs =>
    mfor (dim w_in 1) (fun outputs =>
      mfor (pw_segments layer_out) (fun j =>
        let xg := tmap (fun t => x_global layer_out t (Z.of_nat j)) x_out in
        let index_in := tmap (which_segment layer_in) xg in
        let x_local_in := tmap2 (x_local layer_in) xg index_in in
        mfor (nth 0 (shape index_in) 0%nat) (fun index w_out =>
          let i := Z.to_nat (at_ index_in [index; 0%nat]) in
          let x := mkT [1; 1]%nat (fun _ => at_ x_local_in [index; 0%nat]) in
          mbind (w <- slice3 w_in inputs outputs (i * (n_in - 1)) ((i + 1) * (n_in - 1) + 1) ;;
                 w <- as_weights w ;;
                 poly_interpolate (pw_poly layer_in) x w) w_out (fun w_b =>
          assign_at w_out inputs outputs (j * (n_out - 1) + index) (at_ (flatten w_b) [0%nat])))))) w_out).

(** Methods [interpolate] (346-350, 699-700) and [refine] (352-356, 702-703). *)
Definition pw_interpolate := interpolate_polynomial_layer.
Definition pw_refine (layer_in layer_out : piecewise) : mut (tensor R) :=
  if is_continuous_class (pw_cls layer_in) then refine_polynomial_layer layer_in layer_out
  else refine_discontinuous_polynomial_layer layer_in layer_out.

(** Number of positions of the slice [lo:hi:step]. *)
Definition slice_len (lo hi step : nat) : nat :=
  if Nat.leb hi lo then 0%nat else ((hi - lo - 1) / step + 1)%nat.

(** [t[:, :, lo:hi:step] = v] where v has size [m] in the last dimension ([v o i k]). *)
Definition assign_strided (t : tensor R) (lo hi step m : nat) (v : nat -> nat -> nat -> R)
  : mut (tensor R) :=
  let len := slice_len lo hi step in
  if (Nat.eqb m len || Nat.eqb m 1)%bool then
    (mkT (shape t) (fun ix => match ix with
       | [o; i; p] =>
           if (Nat.leb lo p && Nat.ltb p hi && Nat.eqb ((p - lo) mod step) 0)%bool
           then v o i (bc m ((p - lo) / step)) else at_ t ix
       | _ => at_ t ix end), None)
  else (t, Some RuntimeError).

(** PolynomialLayers.py 951-969 [smooth_discontinuous_layer].  Only PiecewiseDiscontinuous has the
    property [n] (line 622).  [left] and [right] are views: [right] is read again after the first
    assignment (line 969), [diff] is not.  The stop -1 is the last position. *)
Definition smooth_discontinuous_layer (layer : piecewise) (factor : R) : mut (tensor R) :=
  let w := pw_w layer in
  if is_continuous_class (pw_cls layer) then (w, Some AttributeError)
  else
    let n := pw_n layer in
    let stop := (dim w 2 - 1)%nat in
    let ll := slice_len (n - 1) stop n in
    let lr := slice_len n stop n in
    let left (w : tensor R) o i k := at_ w [o; i; n - 1 + k * n]%nat in
    let right (w : tensor R) o i k := at_ w [o; i; n + k * n]%nat in
    match bsize ll lr with
    | None => (w, Some RuntimeError)
    | Some m =>
        let diff o i k := left w o i (bc ll k) - right w o i (bc lr k) in
        match bsize ll m with
        | None => (w, Some RuntimeError)
        | Some ml =>
            match assign_strided w (n - 1) stop n ml
                    (fun o i k => left w o i (bc ll k) - 1/2 * factor * diff o i (bc m k)) with
            | (w1, Some e) => (w1, Some e)
            | (w1, None) =>
                match bsize lr m with
                | None => (w1, Some RuntimeError)
                | Some mr =>
                    assign_strided w1 n stop n mr
                      (fun o i k => right w1 o i (bc lr k) + 1/2 * factor * diff o i (bc m k))
                end
            end
        end
    end.

(** PolynomialLayers.py 972-1023 [initialize_polynomial_layer].  [ra o i] and [rb o i] are the
    results of the two [random.random()] calls for that link. *)
Definition initialize_polynomial_layer (layer_in : piecewise) (max_slope max_offset : R)
    (ra rb : nat -> nat -> R) : mut (tensor R) :=
  let w_in := pw_w layer_in in
  match pw_cls layer_in with
  | PiecewisePolynomialProd => (w_in, None)
  | c =>
      mbind (view_infer [] [1]%nat (lb_X (poly_basis (pw_poly layer_in)))) w_in (fun x_in =>
      let n_in := lb_n (poly_basis (pw_poly layer_in)) in
      let '(nodes_per_segment, upper_limit) :=
        match c with PiecewisePolynomial => (n_in - 1, 1)%nat | _ => (n_in, 0%nat) end in
      mfor (dim w_in 0) (fun inputs =>
        mfor (dim w_in 1) (fun outputs =>
          let a := max_slope * (ra inputs outputs * 2 - 1) in
          let b := max_offset * (rb inputs outputs * 2 - 1) in
          mfor (pw_segments layer_in) (fun j w_in =>
            let xg := tmap (fun t => x_global layer_in t (Z.of_nat j)) x_in in
            let y_global := tmap (fun x => a * x + b) xg in
            assign3 w_in inputs outputs (j * nodes_per_segment)
              ((j + 1) * nodes_per_segment + upper_limit) (flatten y_global)))) w_in)
  end.
