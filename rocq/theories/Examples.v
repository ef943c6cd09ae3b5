(** * The example programs: examples/mnist.py, block_mnist.py, invariant_mnist.py, xor.py, function_example.py and
    cifar10.py.
    Definitions only.

    Modelled: the networks they build, their forward passes and the control flow of the refinement loop.  Data
    loading, optimizers, the Lightning trainer and plotting are not: training is any change of weights. *)
From Coq Require Import String Reals ZArith List Bool.
From Verif Require Import Spec Tensor Utils Normalization Convolution LagrangeND Layers Networks ConvNetworks LayerNorm.
Import ListNotations.
Local Open Scope R_scope.

(** ** torch modules *)

(** Rows and columns of 2 x 2 windows. *)
Definition pool2d (f : R -> R -> R -> R -> R) (x : tensor R) : res (tensor R) :=
  match shape x with
  | [B; C; H; W] =>
      if (Nat.ltb H 2 || Nat.ltb W 2)%bool then Err RuntimeError
      else Ok (mkT [B; C; H / 2; W / 2]%nat (fun ix => match ix with
        | [b; c; i; j] => f (at_ x [b; c; 2 * i; 2 * j]%nat) (at_ x [b; c; 2 * i; 2 * j + 1]%nat)
                            (at_ x [b; c; 2 * i + 1; 2 * j]%nat) (at_ x [b; c; 2 * i + 1; 2 * j + 1]%nat)
        | _ => 0 end))
  | _ => Err RuntimeError
  end.
(** nn.AvgPool2d(2, 2), nn.MaxPool2d(2, 2) on a batch of images. *)
Definition avg_pool2d : tensor R -> res (tensor R) := pool2d (fun a b c d => (a + b + c + d) / 4).
Definition max_pool2d : tensor R -> res (tensor R) := pool2d (fun a b c d => Rmax (Rmax a b) (Rmax c d)).

(** torch.nn.Conv2d with bias and default stride, padding and dilation. *)
Record standard_conv := mkStandard { sc_weight : tensor R; sc_bias : tensor R }.
Definition new_standard_conv (in_channels out_channels kernel_size : nat) (u : index -> R) : standard_conv :=
  mkStandard (mkT [out_channels; in_channels; kernel_size; kernel_size] u) (mkT [out_channels] u).
Definition standard_conv_forward (l : standard_conv) (x : tensor R) : res (tensor R) :=
  y <- conv2d (sc_weight l) 1 0 1 x ;;
  Ok (mkT (shape y) (fun ix => at_ y ix + at_ (sc_bias l) [nth 1 ix 0%nat])).

(** A convolution of either sort. *)
Inductive any_conv := Standard (l : standard_conv) | HighOrder (l : conv_layer).
Definition any_conv_forward (l : any_conv) (x : tensor R) : res (tensor R) :=
  match l with Standard l => standard_conv_forward l x | HighOrder l => conv_layer_forward l x end.

(** An attribute that may not have been set. *)
Definition attribute {A} (a : option A) : res A := match a with Some a => Ok a | None => Err AttributeError end.

(** [s[:-2]] *)
Definition drop_last2 (s : string) : string := String.substring 0 (String.length s - 2) s.

(** ** examples/mnist.py *)

Record mnist_cfg := mkMnistCfg {
  mc_layer_type : string; mc_n : nat; mc_segments : nat; mc_channels : nat * nat; mc_kernel_size : nat;
  mc_double : bool; mc_normalization : string; mc_output_layer_type : string }.

(** Lines 23-26, 90: the table [normalization]; the classes with their default eps (layers.py 96-126). *)
Definition mnist_normalization (name : string) : res (tensor R -> res (tensor R)) :=
  if String.eqb name "max_abs" then Ok (fun x => max_abs_normalization_nd x (1 / 1000000))
  else if String.eqb name "max_center" then Ok (fun x => max_center_normalization_nd x (1 / 1000000))
  else Err KeyError.

(** The attributes set by __init__ that forward reads; [fc1] is an object of the heap. *)
Record mnist_net := mkMnist {
  mn_conv1 : any_conv; mn_conv15 : option any_conv; mn_conv2 : any_conv; mn_conv25 : option any_conv;
  mn_normalize : tensor R -> res (tensor R); mn_fc1 : nat }.

(** Lines 59-66 and the like: length, weight magnitude, stride etc. at their defaults. *)
Definition mnist_conv_args (c : mnist_cfg) (i o : nat) : conv_args :=
  mkConvArgs (mc_n c) (mc_segments c) i o (mc_kernel_size c) 2 false None 1 1 0 1.
Definition mnist_conv (c : mnist_cfg) (i o : nat) (u draw : index -> R) : res any_conv :=
  rmap HighOrder (high_order_convolution_layers (mc_layer_type c) (mnist_conv_args c i o) u draw).

(** Lines 95-102. *)
Definition mnist_last_layer_size (c : mnist_cfg) : nat :=
  let out := snd (mc_channels c) in
  if mc_double c then (if Nat.eqb (mc_kernel_size c) 3 then 4 * 4 * out else 2 * 2 * out)%nat
  else (if Nat.eqb (mc_kernel_size c) 3 then 5 * 5 * out else 4 * 4 * out)%nat.

(** Lines 104-122. *)
Definition mnist_fc1 (g : rng) (c : mnist_cfg) : M nat :=
  if String.eqb (mc_output_layer_type c) "linear" then Linear g (mnist_last_layer_size c) 10
  else
    let output_layer_type := if String.eqb (mc_output_layer_type c) "auto" then drop_last2 (mc_layer_type c)
                             else mc_output_layer_type c in
    high_order_fc_layers g output_layer_type
      (mkArgs (Int (mc_n c)) (mnist_last_layer_size c) 10 (Some (Int (mc_segments c))) (Some 2) None None 2 false ""%string).

(** Lines 30-122 [Net.__init__]; [u k], [draw k] are the random numbers of the k-th convolution. *)
Definition mnist_convs (c : mnist_cfg) (u draw : nat -> index -> R) : res (any_conv * option any_conv * any_conv * option any_conv) :=
  let (i, o) := mc_channels c in
  if String.eqb (mc_layer_type c) "standard" then
    Ok (Standard (new_standard_conv 1 i 5 (u 0%nat)), None, Standard (new_standard_conv i o 5 (u 2%nat)), None)
  else
    conv1 <- mnist_conv c 1 i (u 0%nat) (draw 0%nat) ;;
    conv15 <- (if mc_double c then rmap Some (mnist_conv c i i (u 1%nat) (draw 1%nat)) else Ok None) ;;
    conv2 <- mnist_conv c i o (u 2%nat) (draw 2%nat) ;;
    conv25 <- (if mc_double c then rmap Some (mnist_conv c o o (u 3%nat) (draw 3%nat)) else Ok None) ;;
    Ok (conv1, conv15, conv2, conv25).
Definition new_mnist (g : rng) (c : mnist_cfg) (u draw : nat -> index -> R) : M mnist_net :=
  convs <~ mlift (mnist_convs c u draw) ;;
  normalize <~ mlift (mnist_normalization (mc_normalization c)) ;;
  fc1 <~ mnist_fc1 g c ;;
  match convs with (conv1, conv15, conv2, conv25) => mret (mkMnist conv1 conv15 conv2 conv25 normalize fc1) end.

(** Lines 124-154 [forward]: everything before [self.fc1]. *)
Definition mnist_features (c : mnist_cfg) (m : mnist_net) (x : tensor R) : res (tensor R) :=
  x <- (if negb (mc_double c) then
          if String.eqb (mc_layer_type c) "standard" then
            x <- any_conv_forward (mn_conv1 m) x ;;
            x <- avg_pool2d (relu x) ;;
            x <- any_conv_forward (mn_conv2 m) x ;;
            avg_pool2d (relu x)
          else
            x <- any_conv_forward (mn_conv1 m) x ;;
            x <- avg_pool2d x ;;
            x <- mn_normalize m x ;;
            x <- any_conv_forward (mn_conv2 m) x ;;
            x <- avg_pool2d x ;;
            mn_normalize m x
        else
          x <- any_conv_forward (mn_conv1 m) x ;;
          x <- mn_normalize m x ;;
          conv15 <- attribute (mn_conv15 m) ;;
          x <- any_conv_forward conv15 x ;;
          x <- avg_pool2d x ;;
          x <- mn_normalize m x ;;
          x <- any_conv_forward (mn_conv2 m) x ;;
          x <- mn_normalize m x ;;
          conv25 <- attribute (mn_conv25 m) ;;
          x <- any_conv_forward conv25 x ;;
          x <- avg_pool2d x ;;
          mn_normalize m x) ;;
  view_infer [nth 0 (shape x) 0%nat] [] x.
Definition mnist_forward (h : heap) (c : mnist_cfg) (m : mnist_net) (x : tensor R) : res (tensor R) :=
  x <- mnist_features c m x ;; call h (mn_fc1 m) x.

(** ** examples/block_mnist.py *)

(** Lines 32-35: [(torch.arange(28) - 13.5) / 13.5]. *)
Definition block_axis (i : nat) : R := (INR i - 27 / 2) / (27 / 2).
Definition block_grid : tensor R :=
  mkT [2; 28; 28]%nat (fun ix => match ix with [O; i; j] => block_axis i | [_; i; j] => block_axis j | _ => 0 end).

(** Lines 43: [torch.cat([element[0], grid]).permute(1, 2, 0).view(-1, 3)]. *)
Definition block_element (image : tensor R) : res (tensor R) :=
  match shape image with
  | [C; H; W] =>
      if (Nat.eqb H 28 && Nat.eqb W 28)%bool then
        view_infer [] [3%nat] (permute [1; 2; 0]%nat (mkT [C + 2; H; W]%nat (fun ix => match ix with
          | [c; i; j] => if Nat.ltb c C then at_ image [c; i; j] else at_ block_grid [c - C; i; j]%nat
          | _ => 0 end)))
      else Err RuntimeError
  | _ => Err RuntimeError
  end.
(** Lines 38-51 [collate_fn], the inputs only: [torch.stack] of the elements. *)
Fixpoint all_elements (images : list (tensor R)) : res (list (tensor R)) :=
  match images with
  | [] => Ok []
  | i :: l => e <- block_element i ;; es <- all_elements l ;; Ok (e :: es)
  end.
Definition stack_list (ts : list (tensor R)) : res (tensor R) :=
  match ts with
  | [] => Err RuntimeError
  | t :: _ =>
      if forallb (fun u => if list_eq_dec Nat.eq_dec (shape u) (shape t) then true else false) ts
      then Ok (stack (length ts) (shape t) (fun b => nth b ts t)) else Err RuntimeError
  end.
Definition block_collate (images : list (tensor R)) : res (tensor R) :=
  es <- all_elements images ;; stack_list es.

(** Lines 25-28, 83: the table [normalization]. *)
Definition block_normalization (name : string) : res (tensor R -> res (tensor R)) :=
  if String.eqb name "max_abs" then Ok (fun x => max_abs_normalization x (1 / 1000000) 1)
  else if String.eqb name "max_center" then Ok (fun x => max_center_normalization x (1 / 1000000) 1)
  else Err KeyError.
(** Lines 55-85 [Net.__init__]: the layer and its normalisation in a Sequential. *)
Definition new_block_net (g : rng) (layer_type : string) (n segments : nat) (normalization : string) : M nat :=
  layer1 <~ high_order_fc_layers g layer_type
    (mkArgs (Ints [3; n; n]%nat) 1 10 (Some (Int segments)) None None None 2 false "constant_random"%string) ;;
  f <~ mlift (block_normalization normalization) ;;
  normalize <~ alloc (fun _ => OModule f []) ;;
  alloc (fun _ => OSequential [layer1; normalize]).
(** Lines 87-97 [forward]. *)
Definition block_forward (h : heap) (model : nat) (x : tensor R) : res (tensor R) :=
  match shape x with
  | batch_size :: inputs :: _ =>
      xin <- view_infer [] [1; 3]%nat x ;;
      r <- call h model xin ;;
      r <- view_infer [batch_size; inputs] [] r ;;
      Ok (mkT [batch_size; nth 2 (shape r) 0%nat] (fun ix => match ix with
            | [b; o] => rsum inputs (fun p => at_ r [b; p; o]) | _ => 0 end))
  | _ => Err ValueError
  end.

(** ** examples/invariant_mnist.py *)

(** The entries of the configuration that the network depends on, [n] excepted.  [ic_normalize]: None for False. *)
Record inv_cfg := mkInvCfg {
  ic_layer_type : string; ic_in_width : nat; ic_out_width : nat; ic_in_segments : nat; ic_out_segments : nat;
  ic_hidden_segments : nat; ic_periodicity : option R; ic_hidden_layers : nat; ic_hidden_width : nat;
  ic_normalize : option string; ic_dropout : R }.

(** Lines 43-45.  The modules are called in eval mode; for "layer_norm" its weight and bias keep their initial values. *)
Definition inv_normalization (c : inv_cfg) : res (option norm_class) :=
  match ic_normalize c with
  | None => Ok None
  | Some name => rmap (fun m => Some (fun x => fst (normalization_call true m x), [])) (normalization_layers name)
  end.
(** Lines 47-60: arguments of HighOrderMLP; the others are at their defaults (networks.py 160-185). *)
Definition inv_args (c : inv_cfg) (normalization : option norm_class) (n : nat) : mlp_args :=
  mkMLP (ic_layer_type c) (Int n) (ic_in_width c) (ic_out_width c) (ic_hidden_layers c) (ic_hidden_width c) 2 None None None
    false (ic_periodicity c) None (Some (Int (ic_in_segments c))) (Some (Int (ic_out_segments c)))
    (Some (Int (ic_hidden_segments c))) normalization false None "constant_random"%string (ic_dropout c).
(** Lines 24-62 [Net.__init__]: the attribute [layer], which is also what forward (lines 78-80) calls. *)
Definition inv_net (g : rng) (c : inv_cfg) (n : nat) : M nat :=
  normalization <~ mlift (inv_normalization c) ;;
  HighOrderMLP g (inv_args c normalization n).

(** Lines 196-211, the loop over the orders: [k] of them remain.  [train order model h] is the heap after
    trainer.fit; [g order] the random numbers of the network built for it. *)
Fixpoint inv_loop (g : nat -> rng) (c : inv_cfg) (train : nat -> nat -> heap -> heap) (order k : nat) (model : nat) : M nat :=
  match k with
  | O => mret model
  | S k => fun h =>
      let h := train order model h in
      (next_model <~ inv_net (g (order + 1)%nat) c (order + 1) ;;
       fun h => match interpolate_high_order_mlp model next_model h with
                | (h, None) => inv_loop g c train (order + 1) k next_model h
                | (_, Some e) => Err e
                end) h
  end.
(** Lines 180-219 [invariant_mnist]: the model that is tested at the end.  max_epochs only matters through
    [max_epochs // diff], which raises for diff = 0. *)
Definition invariant_mnist (g : nat -> rng) (c : inv_cfg) (train : nat -> nat -> heap -> heap) (p_refine : bool) (n target_n : nat) : M nat :=
  model <~ inv_net (g n) c n ;;
  if negb p_refine then fun h => Ok (model, train n model h)
  else
    model <~ inv_loop g c train n (target_n - n) model ;;
    if Nat.eqb target_n n then mraise ZeroDivisionError else mret model.
(** Lines 198-199: epochs every order is trained for. *)
Definition inv_epochs (max_epochs n target_n : nat) : nat := (max_epochs / (target_n - n))%nat.

(** ** examples/xor.py *)

(** Lines 52-101 [NDFunctionApproximation.__init__].  Polynomial2D.__init__ (PolynomialLayers.py 98-115) passes
    [dimensions=2] together with its own kwargs, which here contain [dimensions]: TypeError.  [alpha] only
    matters for "product" and is not passed on here. *)
Inductive xor_net := XorND (l : piecewise_nd) | XorStandard (layer1 layer2 : nat).
Definition new_xor (g : rng) (n segments : nat) (layer_type : string) : M xor_net := fun h =>
  if String.eqb layer_type "polynomial_2d" then Err TypeError
  else if String.eqb layer_type "continuous_nd" then
    (l <~ mlift (new_PiecewiseND (Ints [n; n]) 1 1 (Int segments) (Some 2%nat) 2 1 true
                   (fun i o => g (length h) [i; o]) (g (length h))) ;;
     mret (XorND l)) h
  else
    (layer1 <~ high_order_fc_layers g layer_type
       (mkArgs (Int n) 2 2 (Some (Int segments)) None None None 2 false "constant_random"%string) ;;
     layer2 <~ high_order_fc_layers g layer_type
       (mkArgs (Int n) 2 1 (Some (Int segments)) None None None 2 false "constant_random"%string) ;;
     mret (XorStandard layer1 layer2)) h.
(** [x.unsqueeze(1)] of a tensor of at least one dimension. *)
Definition unsqueeze1 (x : tensor R) : tensor R :=
  mkT (hd 0%nat (shape x) :: 1%nat :: tl (shape x)) (fun ix => at_ x (hd 0%nat ix :: tl (tl ix))).
(** Lines 106-116 [forward]. *)
Definition xor_forward (h : heap) (m : xor_net) (x : tensor R) : res (tensor R) :=
  match m with
  | XorND l => PiecewiseND_forward l (unsqueeze1 x)
  | XorStandard layer1 layer2 => run (call h) [layer1; layer2] x
  end.
(** Line 35: the target values. *)
Definition xor_target (x y : R) : R := if Rlt_dec 0 (x * y) then - (1/2) else 1/2.

(** ** examples/function_example.py *)

(** Lines 68-109 [PolynomialFunctionApproximation.__init__].  In the "product" case n is not passed to the factory, whose product
    entry does not read it; alpha = 1 is the default of Product. *)
Inductive function_net := FnStandard (layer1 layer2 layer3 : nat) | FnProduct (layer1 layer2 : nat) | FnLayer (layer : nat).
Definition new_function (g : rng) (n segments : nat) (function : string) (periodicity : option R) : M function_net :=
  if String.eqb function "standard" then
    layer1 <~ Linear g 1 n ;;
    layer2 <~ Linear g n n ;;
    layer3 <~ Linear g n 1 ;;
    mret (FnStandard layer1 layer2 layer3)
  else if String.eqb function "product" then
    layer1 <~ high_order_fc_layers g function (mkArgs (Int n) 1 n None None None None 2 false ""%string) ;;
    layer2 <~ high_order_fc_layers g function (mkArgs (Int n) n 1 None None None None 2 false ""%string) ;;
    mret (FnProduct layer1 layer2)
  else
    layer <~ high_order_fc_layers g function
      (mkArgs (Int n) 1 1 (Some (Int segments)) (Some 2) None periodicity 2 false ""%string) ;;
    mret (FnLayer layer).
(** Lines 111-112 [forward]. *)
Definition function_forward (h : heap) (m : function_net) (x : tensor R) : res (tensor R) :=
  x <- view_infer [nth 0 (shape x) 0%nat] [] x ;;
  match m with
  | FnStandard layer1 layer2 layer3 =>
      x <- call h layer1 x ;;
      x <- call h layer2 (relu x) ;;
      call h layer3 (relu x)
  | FnProduct layer1 layer2 => run (call h) [layer1; layer2] x
  | FnLayer layer => call h layer x
  end.
(** Lines 25-31 [simple_func]. *)
Definition simple_func (x : R) : R := 1/2 * cos ((15/10 * (314159/100000)) * 1 / (Rabs x + 25/100)).

(** ** examples/cifar10.py *)

(** Lines 58-88 [Net.__init__]: conv1, conv2; any other layer_type leaves them unset. *)
Record cifar_net := mkCifar { ci_convs : option (any_conv * any_conv); ci_weight : tensor R; ci_bias : tensor R }.
Definition cifar_conv (k : conv_kind) (n segments i o : nat) (u draw : index -> R) : res any_conv :=
  rmap HighOrder (class2d k (mkConvArgs n segments i o 5 2 false None 1 1 0 1) u draw).
Definition cifar_kind (layer_type : string) : option conv_kind :=
  if String.eqb layer_type "continuous" then Some PolynomialConv
  else if String.eqb layer_type "piecewise" then Some PiecewiseConv
  else if String.eqb layer_type "discontinuous" then Some PiecewiseDiscontinuousConv
  else None.
Definition new_cifar (n segments : nat) (layer_type : string) (u draw : nat -> index -> R) : res cifar_net :=
  convs <- match cifar_kind layer_type with
           | Some k =>
               conv1 <- cifar_conv k n segments 3 6 (u 0%nat) (draw 0%nat) ;;
               conv2 <- cifar_conv k n segments 6 16 (u 1%nat) (draw 1%nat) ;;
               Ok (Some (conv1, conv2))
           | None =>
               if String.eqb layer_type "standard" then
                 let mid := (6 * ((n - 1) * segments + 1))%nat in
                 Ok (Some (Standard (new_standard_conv 3 mid 5 (u 0%nat)), Standard (new_standard_conv mid 16 5 (u 1%nat))))
               else Ok None
           end ;;
  Ok (mkCifar convs (mkT [10; 16 * 5 * 5]%nat (u 2%nat)) (mkT [10]%nat (u 3%nat))).
(** Lines 90-101 [forward]. *)
Definition cifar_forward (layer_type : string) (m : cifar_net) (x : tensor R) : res (tensor R) :=
  convs <- attribute (ci_convs m) ;;
  let (conv1, conv2) := (convs : any_conv * any_conv) in
  x <- any_conv_forward conv1 x ;;
  x <- max_pool2d (if String.eqb layer_type "standard" then relu x else x) ;;
  x <- any_conv_forward conv2 x ;;
  x <- max_pool2d (if String.eqb layer_type "standard" then relu x else x) ;;
  x <- view_infer [] [16 * 5 * 5]%nat x ;;
  Linear_forward (ci_weight m) (ci_bias m) x.
