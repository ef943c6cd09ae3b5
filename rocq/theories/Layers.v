(** * high_order_layers_torch/layers.py: adapters, SumLayer, SwitchLayer and the factory of fully connected
    layers, on a heap of module objects.  Definitions only.

    A python object is a position in the heap; constructors append the new object, so an object refers
    to earlier positions only.  Two references to the same position are the same object (what sharing,
    [modules()] and in-place weight updates depend on).  Device arguments are dropped.  Modules are in
    eval mode (Dropout is the identity, normalisations are functions of their input). *)
From Coq Require Import String Reals ZArith List Bool.
From Verif Require Import Spec Tensor Utils LagrangePolynomial Basis PolynomialLayers Refine ProductLayer LagrangeND.
Import ListNotations.
Local Open Scope R_scope.

(** ** Objects *)

Inductive obj :=
| OPiecewise (l : piecewise)             (* PiecewisePolynomial and the three other classes *)
| OFunc (l : func)                       (* Polynomial, FourierSeries *)
| OPolyND (l : poly_nd_layer)            (* Polynomial2D .. Polynomial5D *)
| OPiecewiseND (l : piecewise_nd)
| OProduct (l : product)
| OLinear (weight bias : tensor R)       (* torch.nn.Linear with bias *)
| OLinearRelu (f : nat)                  (* layers.py 152-158: registered child [f] *)
| OSum (layer_list : list nat)           (* layers.py 161-168: a python list, its modules are not registered *)
| OSwitch (in_features out_features : nat) (layers : list nat) (normalization : option nat)
                                         (* layers.py 171-247: [_layers] is a python list as well *)
| OSequential (children : list nat)      (* torch.nn.Sequential *)
| OMLP (dropout_layer input_layer output_layer model : nat)   (* HighOrderMLP: its registered children *)
| OModel (model : nat)                   (* LowOrderMLP, HighOrderMLPList: one child, [model] *)
| OModule (forward : tensor R -> res (tensor R)) (params : list string).
                                         (* any other module: activation, normalisation, dropout *)

Definition heap := list obj.
Definition null : obj := OModule (fun _ => Err TypeError) [].
Definition get (h : heap) (i : nat) : obj := nth i h null.
Definition set_obj (h : heap) (i : nat) (o : obj) : heap := firstn i h ++ o :: skipn (i + 1) h.

(** Code that allocates objects and may raise. *)
Definition M (A : Type) : Type := heap -> res (A * heap).
Definition mret {A} (a : A) : M A := fun h => Ok (a, h).
Definition mthen {A B} (m : M A) (k : A -> M B) : M B :=
  fun h => match m h with Ok (a, h') => k a h' | Err e => Err e end.
Definition mraise {A} (e : exn) : M A := fun _ => Err e.
Definition mlift {A} (r : res A) : M A := fun h => match r with Ok a => Ok (a, h) | Err e => Err e end.
Notation "x <~ m ;; k" := (mthen m (fun x => k)) (at level 61, m at next level, right associativity).
(** Allocation: the object may depend on its own position (used to look up its random numbers). *)
Definition alloc (o : nat -> obj) : M nat := fun h => Ok (length h, h ++ [o (length h)]).

(** ** Forward passes *)

(** Broadcasting of two shapes (aligned at the end), and the index it gives in one operand. *)
Fixpoint bshape_rev (a b : list nat) : option (list nat) :=
  match a, b with
  | [], s | s, [] => Some s
  | x :: a, y :: b =>
      match bsize x y, bshape_rev a b with Some d, Some s => Some (d :: s) | _, _ => None end
  end.
Definition bshape (a b : list nat) : option (list nat) :=
  match bshape_rev (rev a) (rev b) with Some s => Some (rev s) | None => None end.
Fixpoint bc_list (s : list nat) (ix : list nat) : list nat :=
  match s, ix with d :: s, i :: ix => bc d i :: bc_list s ix | _, _ => [] end.
Definition bindex (s ix : list nat) : list nat := bc_list s (skipn (length ix - length s) ix).
Definition broadcast2 (f : R -> R -> R) (a b : tensor R) : res (tensor R) :=
  match bshape (shape a) (shape b) with
  | Some s => Ok (mkT s (fun ix => f (at_ a (bindex (shape a) ix)) (at_ b (bindex (shape b) ix))))
  | None => Err RuntimeError
  end.

(** torch.nn.Linear on a tensor whose last dimension is the number of inputs. *)
Definition Linear_forward (weight bias x : tensor R) : res (tensor R) :=
  match shape weight with
  | [o; i] =>
      match rev (shape x) with
      | i' :: _ =>
          if Nat.eqb i' i then
            Ok (mkT (removelast (shape x) ++ [o]) (fun ix =>
                  rsum i (fun k => at_ x (removelast ix ++ [k]) * at_ weight [last ix 0%nat; k]) + at_ bias [last ix 0%nat]))
          else Err RuntimeError
      | [] => Err RuntimeError
      end
  | _ => Err RuntimeError
  end.

Definition relu (x : tensor R) : tensor R := tmap (Rmax 0) x.

(** [[f(x) for f in fs]]. *)
Fixpoint all_outputs (call : nat -> tensor R -> res (tensor R)) (fs : list nat) (x : tensor R) : res (list (tensor R)) :=
  match fs with
  | [] => Ok []
  | f :: fs => y <- call f x ;; ys <- all_outputs call fs x ;; Ok (y :: ys)
  end.

(** layers.py 166-168: [torch.add] of the unpacked list takes exactly two tensors (outputs are not 0-dimensional). *)
Definition sum_outputs (ys : list (tensor R)) : res (tensor R) :=
  match ys with
  | [a; b] => broadcast2 Rplus a b
  | _ => Err TypeError
  end.

(** layers.py 220-230: [final *= outputs[i]] works in place, so the shape of [final] must not grow. *)
Definition times_ (final y : tensor R) : res (tensor R) :=
  match bshape (shape final) (shape y) with
  | Some s => if list_eq_dec Nat.eq_dec s (shape final) then broadcast2 Rmult final y else Err RuntimeError
  | None => Err RuntimeError
  end.
Fixpoint times_all (final : tensor R) (ys : list (tensor R)) : res (tensor R) :=
  match ys with
  | [] => Ok final
  | y :: ys => f <- times_ final y ;; times_all f ys
  end.
Definition product_outputs (ys : list (tensor R)) : res (tensor R) :=
  match ys with [] => Err IndexError | y :: ys => times_all y ys end.

(** torch.nn.Sequential: the composition. *)
Fixpoint run (call : nat -> tensor R -> res (tensor R)) (fs : list nat) (x : tensor R) : res (tensor R) :=
  match fs with [] => Ok x | f :: fs => y <- call f x ;; run call fs y end.

(** The forward method of an object, [call] being the forward methods of the objects it refers to. *)
Definition obj_forward (call : nat -> tensor R -> res (tensor R)) (o : obj) (x : tensor R) : res (tensor R) :=
  match o with
  | OPiecewise l => Piecewise_forward l x
  | OFunc l => Function_forward l x
  | OPolyND l => PolynomialND_forward l x
  | OPiecewiseND l => PiecewiseND_forward l x
  | OProduct l => Product_forward l x
  | OLinear w b => Linear_forward w b x
  | OLinearRelu f => y <- call f x ;; Ok (relu y)
  | OSum fs => ys <- all_outputs call fs x ;; sum_outputs ys
  | OSwitch _ _ fs nm =>
      ys <- all_outputs call fs x ;;
      y <- product_outputs ys ;;
      match nm with Some f => call f y | None => Ok y end
  | OSequential fs => run call fs x
  | OMLP _ _ _ m => call m x
  | OModel m => call m x
  | OModule f _ => f x
  end.

(** Forward methods of all objects of a heap, in order: each object calls earlier ones only. *)
Definition calls (h : heap) : list (tensor R -> res (tensor R)) :=
  fold_left (fun fs o => fs ++ [obj_forward (fun j => nth j fs (fun _ => Err RuntimeError)) o]) h [].
(** Calling object [i]. *)
Definition call (h : heap) (i : nat) (x : tensor R) : res (tensor R) := nth i (calls h) (fun _ => Err RuntimeError) x.

(** ** Registered modules and parameters *)

(** torch.nn.Module: children registered by attribute assignment (python lists are not). *)
Definition children (o : obj) : list nat :=
  match o with
  | OLinearRelu f => [f]
  | OSwitch _ _ _ (Some f) => [f]
  | OSequential fs => fs
  | OMLP d i o m => [d; i; o; m]
  | OModel m => [m]
  | _ => []
  end.

(** torch.nn.Module.named_modules: depth first, each object once.  [walks] gives, for every object, the
    map from the list of visited objects to the list after visiting it. *)
Definition mem (i : nat) (l : list nat) : bool := existsb (Nat.eqb i) l.
Definition walk_obj (ws : list (list nat -> list nat)) (i : nat) (o : obj) (memo : list nat) : list nat :=
  if mem i memo then memo
  else fold_left (fun m c => nth c ws (fun m => m) m) (children o) (memo ++ [i]).
Definition walks (h : heap) : list (list nat -> list nat) :=
  fold_left (fun ws o => ws ++ [walk_obj ws (length ws) o]) h [].
(** [list(module.modules())] *)
Definition modules (h : heap) (i : nat) : list nat := nth i (walks h) (fun m => m) [].

(** Names of the parameters an object owns. *)
Definition own_parameters (o : obj) : list string :=
  match o with
  | OPiecewise _ | OPiecewiseND _ => ["w"%string]
  | OFunc _ | OPolyND _ => ["w"%string; "result"%string]
  | OProduct l => match pr_bias l with Some _ => ["weight"%string; "bias"%string] | None => ["weight"%string] end
  | OLinear _ _ => ["weight"%string; "bias"%string]
  | OModule _ ps => ps
  | _ => []
  end.
(** [module.parameters()]: what an optimizer built from it updates. *)
Definition parameters (h : heap) (i : nat) : list (nat * string) :=
  flat_map (fun k => map (fun p => (k, p)) (own_parameters (get h k))) (modules h i).

(** ** Factory of fully connected layers *)

(** Keyword arguments of high_order_fc_layers.  [fa_initialization] stands for both spellings
    [initialization] and [intialization] (networks.py 226); no class has a parameter of either name, nor
    of the names [scale] and [rescale_output]: they end in kwargs. *)
Record fc_args := mkArgs {
  fa_n : ints; fa_in : nat; fa_out : nat; fa_segments : option ints;
  fa_length : option R; fa_weight_magnitude : option R; fa_periodicity : option R;
  fa_scale : R; fa_rescale_output : bool; fa_initialization : string }.

(** Random numbers: entry [ix] of the tensor drawn while constructing object [k]. *)
Definition rng := nat -> index -> R.

Definition default {A} (d : A) (o : option A) : A := match o with Some a => a | None => d end.

(** PolynomialLayers.py 532-581, 706-754: a list for n, or None or a list for segments, raises TypeError. *)
Definition make_piecewise (c : pw_class) (g : rng) (a : fc_args) : M nat :=
  match fa_n a, fa_segments a with
  | Int n, Some (Int s) => alloc (fun k => OPiecewise
      (new_piecewise c n (fa_in a) (fa_out a) s (default 2 (fa_length a)) (default 1 (fa_weight_magnitude a))
         (fa_periodicity a) (fun o i => g k [o; i])))
  | _, _ => mraise TypeError
  end.

(** PolynomialLayers.py 70-76, 187-193; ProductLayer.py 11-30 with bias and alpha at their defaults. *)
Definition make_polynomial (g : rng) (a : fc_args) : M nat :=
  match fa_n a with
  | Int n => alloc (fun k => OFunc (Polynomial n (fa_in a) (fa_out a) (default 2 (fa_length a))
               (default 1 (fa_weight_magnitude a)) (fa_periodicity a) (fun o i => g k [o; i])))
  | Ints _ => mraise TypeError
  end.
Definition make_fourier (g : rng) (a : fc_args) : M nat :=
  match fa_n a with
  | Int n => alloc (fun k => OFunc (FourierSeries n (fa_in a) (fa_out a) (default 2 (fa_length a))
               (default 1 (fa_weight_magnitude a)) (fa_periodicity a) (fun o i => g k [o; i])))
  | Ints _ => mraise TypeError
  end.
Definition make_product (g : rng) (a : fc_args) : M nat :=
  alloc (fun k => OProduct (new_product (fa_in a) (fa_out a) true 1 (fa_periodicity a)
                              (fun o i => g k [o; i]) (fun o => g k [o]))).

(** PolynomialLayers.py 174-184 [PolynomialProd]: the polynomial is built, then Function.__init__ (line 44)
    reads [basis.num_basis], which BasisFlatProd does not have. *)
Definition make_polynomial_prod (a : fc_args) : M nat :=
  match fa_n a with Int _ => mraise AttributeError | Ints _ => mraise TypeError end.

(** PolynomialLayers.py 98-171. *)
Definition make_polynomial_nd (g : rng) (a : fc_args) : M nat := fun h =>
  match new_PolynomialND (fa_n a) (fa_in a) (fa_out a) (default 2 (fa_length a)) (default 1 (fa_weight_magnitude a))
          (fa_periodicity a) (fun o i => g (length h) [o; i]) with
  | Ok l => alloc (fun _ => OPolyND l) h
  | Err e => Err e
  end.
(** PolynomialLayers.py 359-423, without the argument [dimensions]. *)
Definition make_piecewise_nd (g : rng) (a : fc_args) : M nat := fun h =>
  match fa_n a, fa_segments a with
  | Int _, _ => Err ValueError
  | Ints _, None => Err TypeError
  | Ints _, Some s =>
      match new_PiecewiseND (fa_n a) (fa_in a) (fa_out a) s None (default 2 (fa_length a))
              (default 1 (fa_weight_magnitude a)) true (fun i o => g (length h) [i; o]) (g (length h)) with
      | Ok l => alloc (fun _ => OPiecewiseND l) h
      | Err e => Err e
      end
  end.

(** torch.nn.Linear(bias=True); layers.py 148-149 [LinearAdapter], 152-158 [LinearReluAdapter]. *)
Definition Linear (g : rng) (in_features out_features : nat) : M nat :=
  alloc (fun k => OLinear (mkT [out_features; in_features] (g k)) (mkT [out_features] (g k))).
Definition LinearReluAdapter (g : rng) (a : fc_args) : M nat :=
  f <~ Linear g (fa_in a) (fa_out a) ;; alloc (fun _ => OLinearRelu f).

Local Open Scope string_scope.
(** layers.py 258-276 [fc_layers], all entries but the two switch layers. *)
Definition fc_layers_basic (layer_type : string) : option (rng -> fc_args -> M nat) :=
  if layer_type =? "baseline_relu" then Some LinearReluAdapter
  else if layer_type =? "baseline" then Some (fun g a => Linear g (fa_in a) (fa_out a))
  else if layer_type =? "continuous" then Some (make_piecewise PiecewisePolynomial)
  else if layer_type =? "continuous_prod" then Some (make_piecewise PiecewisePolynomialProd)
  else if layer_type =? "discontinuous" then Some (make_piecewise PiecewiseDiscontinuousPolynomial)
  else if layer_type =? "discontinuous_prod" then Some (make_piecewise PiecewiseDiscontinuousPolynomialProd)
  else if layer_type =? "polynomial" then Some make_polynomial
  else if layer_type =? "polynomial_prod" then Some (fun _ => make_polynomial_prod)
  else if layer_type =? "product" then Some make_product
  else if layer_type =? "fourier" then Some make_fourier
  else if layer_type =? "polynomial_2d" then Some make_polynomial_nd
  else if layer_type =? "polynomial_3d" then Some make_polynomial_nd
  else if layer_type =? "polynomial_4d" then Some make_polynomial_nd
  else if layer_type =? "polynomial_5d" then Some make_polynomial_nd
  else if layer_type =? "continuous_nd" then Some make_piecewise_nd
  else None.
Local Close Scope string_scope.

(** [[make() for _ in range(n)]]. *)
Fixpoint replicate (n : nat) (make : M nat) : M (list nat) :=
  match n with
  | O => mret []
  | S n => l <~ make ;; ls <~ replicate n make ;; mret (l :: ls)
  end.

(** layers.py 178-210 [SwitchLayer.__init__]; [make] is high_order_fc_layers.  periodicity is replaced by
    None and length and weight_magnitude are not passed on (they end in kwargs). *)
Definition SwitchLayer (make : string -> fc_args -> M nat) (layer_type : string) (num_input_layers : nat)
    (normalization : option nat) (a : fc_args) : M nat :=
  ls <~ replicate num_input_layers (make layer_type
          (mkArgs (fa_n a) (fa_in a) (fa_out a) (fa_segments a) None None None (fa_scale a) false ""%string)) ;;
  alloc (fun _ => OSwitch (fa_in a) (fa_out a) ls normalization).

(** layers.py 357-363 [high_order_fc_layers]; 250-255: the switch layers use the entries "continuous" and
    "discontinuous" of the table, so [make] only needs the other entries. *)
Definition high_order_fc_layers_basic (g : rng) (layer_type : string) (a : fc_args) : M nat :=
  match fc_layers_basic layer_type with Some make => make g a | None => mraise ValueError end.
Definition high_order_fc_layers (g : rng) (layer_type : string) (a : fc_args) : M nat :=
  if String.eqb layer_type "switch_continuous" then
    SwitchLayer (high_order_fc_layers_basic g) "continuous" 2 None a
  else if String.eqb layer_type "switch_discontinuous" then
    SwitchLayer (high_order_fc_layers_basic g) "discontinuous" 2 None a
  else high_order_fc_layers_basic g layer_type a.

(** ** Copying weights between layers *)

(** [for b in l: body(b)] over mutable state. *)
Fixpoint mfold {A B} (body : B -> A -> mut A) (l : list B) (s : A) : mut A :=
  match l with
  | [] => (s, None)
  | b :: l => match body b s with (s', None) => mfold body l s' | (s', Some e) => (s', Some e) end
  end.

(** Which objects have methods [interpolate] and [refine]. *)
Definition has_refine (o : obj) : bool :=
  match o with OPiecewise _ | OSwitch _ _ _ _ => true | _ => false end.

(** [l_in.interpolate(l_out)] / [l_in.refine(l_out)] with [copy] the function for two piecewise layers:
    PolynomialLayers.py 346-356, 699-703 and layers.py 238-247 (pairs of branches in order; nested
    switch layers, hence the fuel, which [S i] always covers).  i and j are different objects. *)
Fixpoint obj_copy (copy : piecewise -> piecewise -> mut (tensor R)) (fuel : nat) (i j : nat) (h : heap) : mut heap :=
  match fuel with
  | O => (h, Some RecursionError)
  | S fuel =>
      match get h i, get h j with
      | OPiecewise li, OPiecewise lo =>
          let (w, e) := copy li lo in (set_obj h j (OPiecewise (with_w lo w)), e)
      | OSwitch _ _ ls _, OSwitch _ _ ls' _ => mfold (fun p => obj_copy copy fuel (fst p) (snd p)) (combine ls ls') h
      | _, _ => (h, Some AttributeError)
      end
  end.
