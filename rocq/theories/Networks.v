(** * high_order_layers_torch/networks.py: multi-layer perceptrons and the functions that copy weights
    between networks.  Definitions only. *)
From Coq Require Import String Reals ZArith List Bool.
From Verif Require Import Spec Tensor Utils LagrangePolynomial Basis PolynomialLayers Refine ProductLayer LagrangeND
  Rotation Layers.
Import ListNotations.
Local Open Scope R_scope.

(** A normalisation passed as a class: every call builds a new module with this forward method (eval mode)
    and these parameters. *)
Definition norm_class : Type := ((tensor R -> res (tensor R)) * list string)%type.

(** The lines [if normalization is not None: append(normalization())] and [if non_linearity is not None:
    append(non_linearity)]; non_linearity is a module object (a plain function makes nn.Sequential raise
    TypeError: not modelled), the same for all layers. *)
Definition between (normalization : option norm_class) (non_linearity : option nat) : M (list nat) :=
  nl <~ match normalization with
        | Some (f, ps) => k <~ alloc (fun _ => OModule f ps) ;; mret [k]
        | None => mret []
        end ;;
  mret (nl ++ match non_linearity with Some k => [k] | None => [] end).

(** Lines 34-82 [LowOrderMLP]. *)
Fixpoint low_hidden (g : rng) (width : nat) (nm : option norm_class) (nl : option nat) (n : nat) (layer_list : list nat)
  : M (list nat) :=
  match n with
  | O => mret layer_list
  | S n =>
      b <~ between nm nl ;;
      k <~ Linear g width width ;;
      low_hidden g width nm nl n (layer_list ++ b ++ [k])
  end.
Definition LowOrderMLP (g : rng) (in_width out_width hidden_layers hidden_width : nat)
    (non_linearity : option nat) (normalization : option norm_class) : M nat :=
  k <~ Linear g in_width hidden_width ;;
  ls <~ low_hidden g hidden_width normalization non_linearity hidden_layers [k] ;;
  b <~ between normalization non_linearity ;;
  k <~ Linear g hidden_width out_width ;;
  m <~ alloc (fun _ => OSequential (ls ++ b ++ [k])) ;;
  alloc (fun _ => OModel m).

(** Lines 85-157 [HighOrderMLPList].  [range(1, len(layer_list))] is empty: layer_list has one element at
    that point. *)
Definition lookup {A} (l : list A) (i : nat) : res A := match nth_error l i with Some a => Ok a | None => Err IndexError end.
Definition HighOrderMLPList (g : rng) (layer_type : list string) (n : list nat) (width : list nat) (segments : list nat)
    (scale : R) (rescale_output : bool) (periodicity : option R) : M nat :=
  if negb (Nat.eqb (length width) (length layer_type + 1)) then mraise ValueError
  else
    lt <~ mlift (lookup layer_type 0) ;;
    n0 <~ mlift (lookup n 0) ;;
    w0 <~ mlift (lookup width 0) ;;
    w1 <~ mlift (lookup width 1) ;;
    s0 <~ mlift (lookup segments 0) ;;
    k <~ high_order_fc_layers g lt (mkArgs (Int n0) w0 w1 (Some (Int s0)) None None periodicity scale rescale_output ""%string) ;;
    m <~ alloc (fun _ => OSequential [k]) ;;
    alloc (fun _ => OModel m).

(** Arguments of HighOrderMLP, lines 160-185. *)
Record mlp_args := mkMLP {
  ma_layer_type : string; ma_n : ints; ma_in_width : nat; ma_out_width : nat;
  ma_hidden_layers : nat; ma_hidden_width : nat; ma_scale : R;
  ma_n_in : option ints; ma_n_out : option ints; ma_n_hidden : option ints;
  ma_rescale_output : bool; ma_periodicity : option R; ma_non_linearity : option nat;
  ma_in_segments : option ints; ma_out_segments : option ints; ma_hidden_segments : option ints;
  ma_normalization : option norm_class; ma_resnet : bool; ma_layer_type_in : option string;
  ma_initialization : string; ma_dropout : R }.

(** Python's [a or b]: None, 0 and empty lists and strings are false. *)
Definition or_ints (a : option ints) (b : ints) : ints :=
  match a with Some (Int (S k)) => Int (S k) | Some (Ints (x :: l)) => Ints (x :: l) | _ => b end.
Definition or_string (a : option string) (b : string) : string :=
  match a with Some (String c s) => String c s | _ => b end.

(** One call of the factory, e.g. lines 222-233. *)
Definition mlp_layer (g : rng) (a : mlp_args) (layer_type : string) (n : ints) (in_features out_features : nat)
    (segments : option ints) : M nat :=
  high_order_fc_layers g layer_type
    (mkArgs n in_features out_features segments None None (ma_periodicity a) (ma_scale a) (ma_rescale_output a) (ma_initialization a)).

(** [if dropout > 0: append(self.dropout_layer)]. *)
Definition dropout_list (a : mlp_args) (dl : nat) : list nat := if Rlt_dec 0 (ma_dropout a) then [dl] else [].

(** Lines 235-262: the loop over the hidden layers, [i] counting up. *)
Fixpoint mlp_hidden (g : rng) (a : mlp_args) (dl : nat) (n i : nat) (layer_list : list nat) : M (list nat) :=
  match n with
  | O => mret layer_list
  | S n =>
      b <~ between (ma_normalization a) (ma_non_linearity a) ;;
      let layer_list := layer_list ++ b ++ dropout_list a dl in
      k <~ mlp_layer g a (ma_layer_type a) (or_ints (ma_n_hidden a) (ma_n a)) (ma_hidden_width a) (ma_hidden_width a) (ma_hidden_segments a) ;;
      k <~ (if (ma_resnet a && Nat.ltb 0 i)%bool then alloc (fun _ => OSum [k; last layer_list 0%nat]) else mret k) ;;
      mlp_hidden g a dl n (S i) (layer_list ++ [k])
  end.

(** Lines 160-288 [HighOrderMLP].  nn.Dropout rejects p outside [0,1]. *)
Definition HighOrderMLP (g : rng) (a : mlp_args) : M nat :=
  if Rlt_dec (ma_dropout a) 0 then mraise ValueError
  else if Rlt_dec 1 (ma_dropout a) then mraise ValueError
  else
    dl <~ alloc (fun _ => OModule (fun x => Ok x) []) ;;
    k1 <~ mlp_layer g a (or_string (ma_layer_type_in a) (ma_layer_type a)) (or_ints (ma_n_in a) (ma_n a)) (ma_in_width a) (ma_hidden_width a) (ma_in_segments a) ;;
    ls <~ mlp_hidden g a dl (ma_hidden_layers a) 0 [k1] ;;
    b <~ between (ma_normalization a) (ma_non_linearity a) ;;
    k2 <~ mlp_layer g a (ma_layer_type a) (or_ints (ma_n_out a) (ma_n a)) (ma_hidden_width a) (ma_out_width a) (ma_out_segments a) ;;
    m <~ alloc (fun _ => OSequential (ls ++ b ++ dropout_list a dl ++ [k2])) ;;
    alloc (fun _ => OMLP dl k1 k2 m).

(** Lines 291-441 [HighOrderMultiMLP].  The constructor calls itself with the same number of replicas; [fuel]
    is python's recursion limit.  Line 432 reads [self.input_list], which does not exist. *)
Fixpoint HighOrderMultiMLP (fuel : nat) (g : rng) (a : mlp_args) (replicas : nat) : M nat :=
  match fuel with
  | O => mraise RecursionError
  | S fuel =>
      if Rlt_dec (ma_dropout a) 0 then mraise ValueError
      else if Rlt_dec 1 (ma_dropout a) then mraise ValueError
      else
        let n_hidden := or_ints (ma_n_hidden a) (ma_n a) in
        dl <~ alloc (fun _ => OModule (fun x => Ok x) []) ;;
        k1 <~ mlp_layer g a (or_string (ma_layer_type_in a) (ma_layer_type a)) (or_ints (ma_n_in a) (ma_n a)) (ma_in_width a) (ma_hidden_width a) (ma_in_segments a) ;;
        b <~ between (ma_normalization a) (ma_non_linearity a) ;;
        rs <~ replicate replicas (HighOrderMultiMLP fuel g
                (mkMLP (ma_layer_type a) (ma_n a) (ma_hidden_width a) (ma_hidden_width a) (ma_hidden_layers a) (ma_hidden_width a)
                   (ma_scale a) (Some n_hidden) (Some n_hidden) (Some n_hidden) (ma_rescale_output a) (ma_periodicity a)
                   (ma_non_linearity a) (ma_hidden_segments a) (ma_hidden_segments a) (ma_hidden_segments a)
                   (ma_normalization a) (ma_resnet a) (ma_layer_type_in a) (ma_initialization a) (ma_dropout a)) replicas) ;;
        b2 <~ between (ma_normalization a) (ma_non_linearity a) ;;
        k2 <~ mlp_layer g a (ma_layer_type a) (or_ints (ma_n_out a) (ma_n a)) (ma_hidden_width a) (ma_out_width a) (ma_out_segments a) ;;
        mraise AttributeError
  end.

(** Lines 928-973 [transform_mlp]: a fixed rotation followed by a HighOrderMLP on the widened input.  The
    rotation is a Linear layer without bias; scale, rescale_output etc. as in HighOrderMLP's defaults. *)
Definition transform_mlp (g : rng) (a : mlp_args) (rotations : Z) : M nat :=
  r <~ mlift (fixed_rotation_layer (ma_in_width a) rotations true) ;;
  let (weight, width) := r in
  f <~ alloc (fun _ => OModule (linear_forward weight) []) ;;
  k <~ HighOrderMLP g (mkMLP (ma_layer_type a) (ma_n a) (Z.to_nat width) (ma_out_width a) (ma_hidden_layers a) (ma_hidden_width a)
         (ma_scale a) (ma_n_in a) (ma_n_out a) (ma_n_hidden a) false (ma_periodicity a) None (ma_in_segments a) (ma_out_segments a)
         (ma_hidden_segments a) (ma_normalization a) (ma_resnet a) None "constant_random"%string 0) ;;
  alloc (fun _ => OSequential [f; k]).

(** Lines 976-1000 [transform_low_mlp]: the same with a LowOrderMLP. *)
Definition transform_low_mlp (g : rng) (in_width hidden_width out_width hidden_layers : nat) (non_linearity : option nat)
    (normalization : option norm_class) (rotations : Z) : M nat :=
  r <~ mlift (fixed_rotation_layer in_width rotations true) ;;
  let (weight, width) := r in
  f <~ alloc (fun _ => OModule (linear_forward weight) []) ;;
  k <~ LowOrderMLP g (Z.to_nat width) out_width hidden_layers hidden_width non_linearity normalization ;;
  alloc (fun _ => OSequential [f; k]).

(** ** Functions on networks *)

(** [network.model] *)
Definition model_of (h : heap) (i : nat) : res nat :=
  match get h i with OMLP _ _ _ m | OModel m => Ok m | _ => Err AttributeError end.

Definition is_sequential (o : obj) : bool := match o with OSequential _ => true | _ => false end.

(** Lines 1063-1072, 1094-1103: modules of [network.model] that are not Sequential. *)
Definition layers_of (h : heap) (i : nat) : res (list nat) :=
  m <- model_of h i ;;
  Ok (filter (fun k => negb (is_sequential (get h k))) (modules h m)).

(** Lines 1048-1078 [interpolate_high_order_mlp] and 1081-1120 [hp_refine_high_order_mlp]. *)
Definition copy_network (copy : piecewise -> piecewise -> mut (tensor R)) (network_in network_out : nat) (h : heap) : mut heap :=
  mbind (layers_of h network_in) h (fun layers_in =>
  mbind (layers_of h network_out) h (fun layers_out =>
  mfold (fun p h => if has_refine (get h (fst p)) then obj_copy copy (S (fst p)) (fst p) (snd p) h else (h, None))
        (combine layers_in layers_out) h)).
Definition interpolate_high_order_mlp := copy_network pw_interpolate.
Definition hp_refine_high_order_mlp := copy_network pw_refine.

(** Lines 1002-1045 [initialize_network_polynomial_layers] (on any module); [ra k o i], [rb k o i] are the
    random numbers drawn for link (o,i) of object [k]; [scale_slope] takes the number of inputs. *)
Definition init_layer (max_slope max_offset : R) (ra rb : nat -> nat -> nat -> R) (k : nat) (h : heap) : mut heap :=
  match get h k with
  | OPiecewise l =>
      let (w, e) := initialize_polynomial_layer l max_slope max_offset (ra k) (rb k) in
      (set_obj h k (OPiecewise (with_w l w)), e)
  | _ => (h, None)
  end.
Definition init_visit (max_slope max_offset : R) (scale_slope : nat -> R) (ra rb : nat -> nat -> nat -> R) (k : nat) (h : heap)
  : mut heap :=
  match get h k with
  | OPiecewise l => init_layer (max_slope * scale_slope (pw_in l)) max_offset ra rb k h
  | OSwitch i _ ls _ => mfold (init_layer (max_slope * scale_slope i) max_offset ra rb) ls h
  | _ => (h, None)
  end.
Definition initialize_network_polynomial_layers (network : nat) (max_slope max_offset : R) (scale_slope : nat -> R)
    (ra rb : nat -> nat -> nat -> R) (h : heap) : mut heap :=
  mfold (init_visit max_slope max_offset scale_slope ra rb)
        (filter (fun k => negb (is_sequential (get h k))) (modules h network)) h.

(** Lines 1123-1131 [smooth_discontinuous_network]. *)
Definition is_discontinuous (o : obj) : bool :=
  match o with OPiecewise l => negb (is_continuous_class (pw_cls l)) | _ => false end.
Definition smooth_visit (factor : R) (k : nat) (h : heap) : mut heap :=
  match get h k with
  | OPiecewise l => let (w, e) := smooth_discontinuous_layer l factor in (set_obj h k (OPiecewise (with_w l w)), e)
  | _ => (h, None)
  end.
Definition smooth_discontinuous_network (network : nat) (factor : R) (h : heap) : mut heap :=
  mbind (model_of h network) h (fun m =>
  mfold (smooth_visit factor) (filter (fun k => is_discontinuous (get h k)) (modules h m)) h).
