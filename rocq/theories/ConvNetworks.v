(** * high_order_layers_torch/layers.py and networks.py: factories of convolution layers and the networks made of them.
    Definitions only.  Devices and prints are dropped; sizes are natural numbers. *)
From Coq Require Import String Reals ZArith List Bool.
From Verif Require Import Spec Tensor Utils Convolution Layers Vae.
Import ListNotations.
Local Open Scope R_scope.

(** ** Factories *)

(** A convolution layer object; the constructor records which class built it. *)
Inductive conv_layer := Layer2d (l : conv) | Layer1d (l : conv).
Definition conv_layer_forward (c : conv_layer) (x : tensor R) : res (tensor R) :=
  match c with Layer2d l => conv2d_forward l x | Layer1d l => conv1d_forward l x end.

(** A constructor applied to keyword arguments and the random numbers it draws. *)
Definition conv_class : Type := conv_args -> (index -> R) -> (index -> R) -> res conv_layer.
Definition class2d (k : conv_kind) : conv_class := fun a u draw => rmap Layer2d (new_conv2d k a u draw).
Definition class1d (k : conv_kind) : conv_class := fun a u draw => rmap Layer1d (new_conv1d k a u).

Local Open Scope string_scope.
(** layers.py 278-291 [convolutional_layers]: None if the name is no key, [Some None] if its value is None. *)
Definition convolutional_layers (layer_type : string) : option (option conv_class) :=
  if layer_type =? "continuous2d" then Some (Some (class2d PiecewiseConv))
  else if layer_type =? "continuous1d" then Some (Some (class1d PiecewiseConv))
  else if layer_type =? "continuous_prod2d" then Some None
  else if layer_type =? "discontinuous2d" then Some (Some (class2d PiecewiseDiscontinuousConv))
  else if layer_type =? "discontinuous1d" then Some (Some (class1d PiecewiseDiscontinuousConv))
  else if layer_type =? "discontinuous_prod2d" then Some None
  else if layer_type =? "polynomial2d" then Some (Some (class2d PolynomialConv))
  else if layer_type =? "polynomial1d" then Some (Some (class1d PolynomialConv))
  else if layer_type =? "polynomial_prod2d" then Some None
  else if layer_type =? "product2d" then Some None
  else if layer_type =? "fourier2d" then Some (Some (class2d FourierConv))
  else if layer_type =? "fourier1d" then Some (Some (class1d FourierConv))
  else None.

(** layers.py 366-372 [high_order_convolution_layers]; calling None raises TypeError. *)
Definition high_order_convolution_layers (layer_type : string) (a : conv_args) (u draw : index -> R) : res conv_layer :=
  match convolutional_layers layer_type with
  | Some (Some make) => make a u draw
  | Some None => Err TypeError
  | None => Err ValueError
  end.

(** layers.py 293-295, 375-381 [high_order_convolution_transpose_layers]; output_padding is at its default. *)
Definition high_order_convolution_transpose_layers (layer_type : string) (a : conv_args) (u : index -> R)
  : res conv_transpose :=
  if layer_type =? "continuous2d" then Ok (new_conv_transpose2d a 0 u) else Err ValueError.
Local Close Scope string_scope.

(** ** Arguments of the networks *)

(** A scalar or a list (None is [None] of the surrounding option). *)
Inductive listed (A : Type) := Scalar (a : A) | Listed (l : list A).
Arguments Scalar {A}. Arguments Listed {A}.
(** networks.py 444-450 [scalar_to_list]. *)
Definition scalar_to_list {A} (val : option (listed A)) (size : nat) : option (list A) :=
  match val with
  | None => None
  | Some (Scalar a) => Some (repeat a size)
  | Some (Listed l) => Some l
  end.

(** [len(v)] and [v[i]], i >= 0. *)
Definition py_len {A} (v : option (list A)) : res nat := match v with Some l => Ok (length l) | None => Err TypeError end.
Definition py_get {A} (v : option (list A)) (i : nat) : res A :=
  match v with
  | Some l => match nth_error l i with Some a => Ok a | None => Err IndexError end
  | None => Err TypeError
  end.

(** [k is False] for an integer. *)
Definition is_False (k : nat) : bool := false.
(** networks.py 506-512, 602-608, 707-713: [len(segments) == len(kernel_size) == len(layer_type) == len(n) is False], a
    chained comparison: each link is evaluated if the previous ones hold. *)
Definition lengths_differ (segments : option (list nat)) (kernel_size : list nat) (layer_type : option (list string))
    (n : option (list nat)) : res bool :=
  s <- py_len segments ;;
  if negb (Nat.eqb s (length kernel_size)) then Ok false else
  t <- py_len layer_type ;;
  if negb (Nat.eqb (length kernel_size) t) then Ok false else
  m <- py_len n ;;
  if negb (Nat.eqb t m) then Ok false else Ok (is_False m).
(** networks.py 517, 613, 718: [len(channels) == len(n) + 1 is False]. *)
Definition channels_differ (channels : list nat) (n : option (list nat)) : res bool :=
  m <- py_len n ;; Ok (Nat.eqb (length channels) (m + 1) && is_False (m + 1))%bool.

(** Arguments of the three constructors.  [cn_normalization] is a callable giving a module for a number of channels; the
    module is its forward pass (eval mode). *)
Record cn_args := mkCN {
  cn_layer_type : option (listed string); cn_n : option (listed nat); cn_channels : list nat;
  cn_segments : option (listed nat); cn_kernel_size : list nat; cn_rescale_output : bool; cn_periodicity : option R;
  cn_normalization : option (nat -> tensor R -> res (tensor R)); cn_stride : option (listed nat); cn_padding : nat }.

(** [for i in range(n): l.append(body(i))]. *)
Fixpoint collect {A} (body : nat -> res A) (i n : nat) : res (list A) :=
  match n with
  | O => Ok []
  | S n => a <- body i ;; l <- collect body (i + 1) n ;; Ok (a :: l)
  end.

(** networks.py 493-520, 589-616, 693-721: the checks, with [size] the length scalars are repeated to. *)
Definition cn_check (a : cn_args) (size : nat) : res unit :=
  if Nat.ltb (length (cn_channels a)) 2 then Err ValueError else
  let segments := scalar_to_list (cn_segments a) size in
  let n := scalar_to_list (cn_n a) size in
  d <- lengths_differ segments (cn_kernel_size a) (scalar_to_list (cn_layer_type a) size) n ;;
  if d then Err ValueError else
  d <- channels_differ (cn_channels a) n ;;
  if d then Err ValueError else Ok tt.

(** networks.py 524-535, 624-635, 726-737: arguments of layer [i].  length, weight_magnitude and dilation are at their
    defaults. *)
Definition cn_layer (a : cn_args) (size i : nat) : res (string * conv_args) :=
  t <- py_get (scalar_to_list (cn_layer_type a) size) i ;;
  n <- py_get (scalar_to_list (cn_n a) size) i ;;
  c <- py_get (Some (cn_channels a)) i ;;
  c' <- py_get (Some (cn_channels a)) (i + 1) ;;
  k <- py_get (Some (cn_kernel_size a)) i ;;
  s <- py_get (scalar_to_list (cn_segments a) size) i ;;
  st <- match scalar_to_list (cn_stride a) size with None => Ok 1%nat | Some l => py_get (Some l) i end ;;
  Ok (t, mkConvArgs n s c c' k 2 (cn_rescale_output a) (cn_periodicity a) 1 st (cn_padding a) 1).

(** Layer [i], followed by its normalisation if there is one. *)
Record stage (L : Type) := mkStage { st_layer : L; st_normal : option (tensor R -> res (tensor R)) }.
Arguments mkStage {L}. Arguments st_layer {L}. Arguments st_normal {L}.
Definition cn_stage {L} (a : cn_args) (size : nat) (make : nat -> string -> conv_args -> res L) (i : nat) : res (stage L) :=
  ta <- cn_layer a size i ;;
  l <- make i (fst ta) (snd ta) ;;
  match cn_normalization a with
  | Some normalization => c <- py_get (Some (cn_channels a)) (i + 1) ;; Ok (mkStage l (Some (normalization c)))
  | None => Ok (mkStage l None)
  end.
(** The layers of a network. *)
Definition cn_stages {L} (a : cn_args) (size : nat) (make : nat -> string -> conv_args -> res L) : res (list (stage L)) :=
  _ <- cn_check a size ;;
  collect (cn_stage a size make) 0 (length (cn_channels a) - 1).

(** nn.Sequential of the layers and normalisations. *)
Definition st_apply (normal : option (tensor R -> res (tensor R))) (x : tensor R) : res (tensor R) :=
  match normal with Some f => f x | None => Ok x end.
Fixpoint run_stages {L} (fwd : L -> tensor R -> res (tensor R)) (l : list (stage L)) (x : tensor R) : res (tensor R) :=
  match l with
  | [] => Ok x
  | s :: l => y <- fwd (st_layer s) x ;; z <- st_apply (st_normal s) y ;; run_stages fwd l z
  end.

(** ** HighOrderFullyConvolutionalNetwork (networks.py 453-560) *)

(** [nn.AdaptiveAvgPool1d(1)], [nn.AdaptiveAvgPool2d((1, 1))], [nn.AdaptiveAvgPool3d((1, 1, 1))] with d = 1, 2, 3: the mean
    over the last d dimensions of a tensor of rank d+1 (no batch dimension) or d+2. *)
Definition adaptive_avg_pool (d : nat) (x : tensor R) : res (tensor R) :=
  let r := length (shape x) in
  if (Nat.eqb r (d + 1) || Nat.eqb r (d + 2))%bool then
    let lead := firstn (r - d) (shape x) in
    let tail := skipn (r - d) (shape x) in
    if Nat.eqb (prodn tail) 0 then Err RuntimeError
    else Ok (mkT (lead ++ repeat 1%nat d) (fun ix =>
           rsum (prodn tail) (fun m => at_ x (firstn (r - d) ix ++ unravel tail m)) / INR (prodn tail)))
  else Err RuntimeError.

(** networks.py 540-552: [pooling] chooses d. *)
Definition pool_dims (pooling : string) : option nat :=
  if String.eqb pooling "1d" then Some 1%nat
  else if String.eqb pooling "2d" then Some 2%nat
  else if String.eqb pooling "3d" then Some 3%nat
  else None.

Record conv_net := mkConvNet { fc_stages : list (stage conv_layer); fc_pooling : string; fc_channels : list nat }.
Definition new_conv_net (a : cn_args) (pooling : string) (u draw : nat -> index -> R) : res conv_net :=
  st <- cn_stages a (length (cn_kernel_size a)) (fun i t c => high_order_convolution_layers t c (u i) (draw i)) ;;
  Ok (mkConvNet st pooling (cn_channels a)).
Definition conv_net_forward (m : conv_net) (x : tensor R) : res (tensor R) :=
  y <- run_stages conv_layer_forward (fc_stages m) x ;;
  z <- match pool_dims (fc_pooling m) with Some d => adaptive_avg_pool d y | None => Ok y end ;;
  flatten1 z.
(** networks.py 558-560. *)
Definition output_size (m : conv_net) : nat := last (fc_channels m) 0%nat.

(** ** HighOrderFullyDeconvolutionalNetwork (networks.py 563-647): scalars are repeated [len(channels)] times *)
Definition new_deconv_net (a : cn_args) (u : nat -> index -> R) : res (list (stage conv_transpose)) :=
  cn_stages a (length (cn_channels a)) (fun i t c => high_order_convolution_transpose_layers t c (u i)).
Definition deconv_net_forward (m : list (stage conv_transpose)) (x : tensor R) : res (tensor R) :=
  run_stages conv_transpose2d_forward m x.

(** ** HighOrderTailFocusNetwork (networks.py 650-783) *)

(** Attributes used by the methods; [layer_list] holds the names conv_0, normal_0, conv_1, ... in the order of the stages. *)
Record tail_net := mkTail {
  tl_stages : list (stage conv_layer); tl_channels : list nat; tl_kernel_size : list nat;
  tl_stride : option (list nat); tl_focus : option (list Z) }.
Definition new_tail_net (a : cn_args) (focus : option (listed Z)) (u draw : nat -> index -> R) : res tail_net :=
  let size := length (cn_kernel_size a) in
  st <- cn_stages a size (fun i t c => high_order_convolution_layers t c (u i) (draw i)) ;;
  Ok (mkTail st (cn_channels a) (cn_kernel_size a) (scalar_to_list (cn_stride a) size) (scalar_to_list focus size)).

(** [math.ceil(a / b)] (exact; python divides in double precision). *)
Definition ceil_div (a : Z) (b : nat) : res Z :=
  if Nat.eqb b 0 then Err ZeroDivisionError else Ok (- ((- a) / Z.of_nat b))%Z.
(** Lines 752-763 [compute_sizes].  [widths_from w ks i] are the widths after width [w], [i] being the index of the next
    kernel size. *)
Fixpoint widths_from (stride : option (list nat)) (w : Z) (ks : list nat) (i : nat) : res (list Z) :=
  match ks with
  | [] => Ok []
  | k :: ks =>
      s <- py_get stride i ;;
      nw <- ceil_div (w - Z.of_nat k + 1) s ;;
      ws <- widths_from stride nw ks (i + 1) ;;
      Ok (nw :: ws)
  end.
Fixpoint output_sizes_from (channels : list nat) (focus : list Z) (i : nat) : res (list Z) :=
  match focus with
  | [] => Ok []
  | f :: fs =>
      c <- py_get (Some channels) i ;;
      os <- output_sizes_from channels fs (i + 1) ;;
      Ok (Z.of_nat c * f :: os)%Z
  end.
Definition compute_sizes (m : tail_net) (input_size : Z) : res (list Z * list Z) :=
  ws <- widths_from (tl_stride m) input_size (tl_kernel_size m) 0 ;;
  let widths := input_size :: ws in
  match tl_focus m with
  | None => Err TypeError
  | Some focus =>
      os <- output_sizes_from (tl_channels m) (focus ++ [last widths 0%Z]) 0 ;;
      Ok (widths, os)
  end.

(** Start of the python slice [start:] of a dimension of size [W]. *)
Definition slice_start (W : nat) (start : Z) : nat :=
  if (start <? 0)%Z then Z.to_nat (start + Z.of_nat W) else Nat.min (Z.to_nat start) W.
(** [x[:, :, -f:]]. *)
Definition tail_of (f : Z) (x : tensor R) : res (tensor R) :=
  match shape x with
  | a :: b :: W :: s =>
      let st := slice_start W (- f) in
      Ok (mkT (a :: b :: (W - st)%nat :: s) (fun ix => match ix with
            | i :: j :: k :: r => at_ x (i :: j :: (st + k)%nat :: r)
            | _ => at_ x ix end))
  | _ => Err IndexError
  end.
(** [torch.cat(ts, dim=1)] of two-dimensional tensors (the only ones that occur). *)
Fixpoint cat1 (ts : list (tensor R)) : res (tensor R) :=
  match ts with
  | [] => Err RuntimeError
  | [t] => Ok t
  | t :: ts =>
      r <- cat1 ts ;;
      match shape t, shape r with
      | [b; w], [b'; w'] =>
          if Nat.eqb b b' then Ok (mkT [b; (w + w')%nat] (fun ix => match ix with
            | [i; j] => if Nat.ltb j w then at_ t [i; j] else at_ r [i; (j - w)%nat]
            | _ => 0 end))
          else Err RuntimeError
      | _, _ => Err RuntimeError
      end
  end.

(** Lines 767-775: the loop over the layers.  A name contains "normal" exactly if it is that of a normalisation. *)
Fixpoint tail_loop (stages : list (stage conv_layer)) (focus : list Z) (x : tensor R) (early : list (tensor R)) (count : nat)
  : res (tensor R * list (tensor R)) :=
  match stages with
  | [] => Ok (x, early)
  | s :: l =>
      x <- conv_layer_forward (st_layer s) x ;;
      match st_normal s with
      | None => tail_loop l focus x early count
      | Some f =>
          x <- f x ;;
          if Nat.ltb count (length focus) then
            fc <- py_get (Some focus) count ;;
            t <- tail_of fc x ;;
            t <- flatten1 t ;;
            tail_loop l focus x (early ++ [t]) (count + 1)
          else tail_loop l focus x early count
      end
  end.
(** Lines 765-783 [forward]. *)
Definition tail_forward (m : tail_net) (x : tensor R) : res (tensor R) :=
  f0 <- py_get (tl_focus m) 0 ;;
  t0 <- tail_of f0 x ;;
  t0 <- flatten1 t0 ;;
  match tl_focus m with
  | None => Err TypeError
  | Some focus =>
      xe <- tail_loop (tl_stages m) focus x [t0] 1 ;;
      last_ <- flatten1 (fst xe) ;;
      cat1 (snd xe ++ [last_])
  end.
