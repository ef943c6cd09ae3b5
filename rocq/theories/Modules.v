(** * high_order_layers_torch/modules.py: networks built from a configuration, the evaluation steps and the choice of the
    optimizer.  Definitions only.

    The pytorch-lightning class is reduced to what the mixins use: [self(x)] is the network, [self.log] appends to a list,
    [self.parameters()] are the registered parameters.  Logging options, hyperparameter bookkeeping and the torchmetrics
    object (created, never called) are dropped. *)
From Coq Require Import String Reals ZArith List Bool.
From Verif Require Import Spec Tensor Utils PolynomialLayers LagrangeND Layers Networks Convolution ConvNetworks.
Import ListNotations.
Local Open Scope R_scope.

(** ** torch.nn.LazyBatchNorm1d (torch documentation) *)

(** Per channel: running mean and variance, weight and bias. *)
Record bn_state := mkBN { bn_mean : nat -> R; bn_var : nat -> R; bn_weight : nat -> R; bn_bias : nat -> R }.
Definition bn_fresh : bn_state := mkBN (fun _ => 0) (fun _ => 1) (fun _ => 1) (fun _ => 0).

(** The constructor's first parameter is [eps] (the number of features is taken from the first input); default 1e-5.
    Inputs must be [batch, features] or [batch, channels, length].  A later input with another number of channels raises
    RuntimeError: not modelled, the number of channels never changes within a network.  Eval mode. *)
Definition batch_norm1d (eps : R) (s : bn_state) (x : tensor R) : res (tensor R) :=
  match shape x with
  | [_; _] | [_; _; _] =>
      Ok (mkT (shape x) (fun ix => let c := nth 1 ix 0%nat in
            (at_ x ix - bn_mean s c) / sqrt (bn_var s c + eps) * bn_weight s c + bn_bias s c))
  | [] | [_] => Err IndexError
  | _ => Err ValueError
  end.
(** Training mode: the mean and the (biased) variance are those of the batch; the running values are not used. *)
Definition over_batch (x : tensor R) (c : nat) (f : R -> R) : R :=
  match shape x with
  | [B; _] => rsum B (fun b => f (at_ x [b; c])) / INR B
  | [B; _; L] => rsum B (fun b => rsum L (fun l => f (at_ x [b; c; l]))) / INR (B * L)
  | _ => 0
  end.
Definition batch_mean (x : tensor R) (c : nat) : R := over_batch x c (fun v => v).
Definition batch_var (x : tensor R) (c : nat) : R := over_batch x c (fun v => (v - batch_mean x c) ^ 2).
Definition batch_norm1d_train (eps : R) (s : bn_state) (x : tensor R) : res (tensor R) :=
  match shape x with
  | [_; _] | [_; _; _] =>
      if Nat.eqb (nth 0 (shape x) 1%nat * nth 2 (shape x) 1%nat)%nat 1%nat then Err ValueError
      else Ok (mkT (shape x) (fun ix => let c := nth 1 ix 0%nat in
            (at_ x ix - batch_mean x c) / sqrt (batch_var x c + eps) * bn_weight s c + bn_bias s c))
  | [] | [_] => Err IndexError
  | _ => Err ValueError
  end.
Definition batch_norm (training : bool) : R -> bn_state -> tensor R -> res (tensor R) :=
  if training then batch_norm1d_train else batch_norm1d.
(** The class as passed to the fully connected networks, which call it without arguments; [s] is the state reached
    (the same for all modules of a network). *)
Definition LazyBatchNorm1d (training : bool) (s : bn_state) : norm_class :=
  (batch_norm training (1 / 100000) s, ["weight"; "bias"]%string).
(** The class as passed to the convolutional networks, which call it with the number of channels as only argument
    (networks.py 537-538, 744-745). *)
Definition LazyBatchNorm1d_of (training : bool) (s : nat -> bn_state) (channels : nat) : tensor R -> res (tensor R) :=
  batch_norm training (INR channels) (s channels).

(** torch.nn.LazyLinear: weight and bias get their shapes from the first input; [dw in], [db in] are the numbers drawn when
    the first input has [in] features. *)
Record lazy_linear := mkLazy { lz_out : nat; lz_params : option (tensor R * tensor R) }.
Definition lazy_forward (dw db : nat -> index -> R) (l : lazy_linear) (x : tensor R) : res (tensor R) * lazy_linear :=
  match lz_params l with
  | Some (w, b) => (Linear_forward w b x, l)
  | None =>
      match rev (shape x) with
      | i :: _ =>
          let w := mkT [lz_out l; i] (dw i) in
          let b := mkT [lz_out l] (db i) in
          (Linear_forward w b x, mkLazy (lz_out l) (Some (w, b)))
      | [] => (Err IndexError, l)
      end
  end.

(** ** Configuration (omegaconf DictConfig)

    None is a missing key: reading it raises ConfigAttributeError, a subclass of AttributeError.  A present key may hold
    null, hence the inner options.  Interpolations are resolved. *)
Definition key {A} (v : option A) : res A := match v with Some a => Ok a | None => Err AttributeError end.
Record net_cfg := mkNetCfg {
  nt_normalize : option bool; nt_model_type : option string; nt_layer_type : option (listed string);
  nt_n : option (listed nat); nt_n_in : option (option (listed nat)); nt_n_out : option (option (listed nat));
  nt_n_hidden : option (option (listed nat));
  nt_input_width : option nat; nt_input_segments : option (option (listed nat));
  nt_output_width : option nat; nt_output_segments : option (option (listed nat));
  nt_hidden_width : option nat; nt_hidden_layers : option Z; nt_hidden_segments : option (option (listed nat));
  nt_channels : option (list nat); nt_segments : option (option (listed nat)); nt_kernel_size : option (list nat);
  nt_periodicity : option (option R); nt_stride : option (option (listed nat)); nt_focus : option (option (listed Z));
  nt_features : option Z; nt_out_features : option nat }.
(** [cfg.net], and the keys [cfg.model_type] and [cfg.output.width] next to it. *)
Record cfg := mkCfg { c_net : net_cfg; c_model_type : option string; c_output_width : option nat }.

Definition to_ints (v : listed nat) : ints := match v with Scalar k => Int k | Listed l => Ints l end.
(** [layer_type in fc_layers.keys()] (layers.py 358-363).  A list in a configuration is an omegaconf ListConfig, which hashes as
    its text and equals no string: ValueError. *)
Definition layer_name (v : listed string) : res string := match v with Scalar s => Ok s | Listed _ => Err ValueError end.

(** ** select_network, lines 96-190 *)

(** The models: a fully connected network (objects of a heap), or a convolutional or tail focus network followed by a
    LazyLinear layer. *)
Inductive network :=
| NFull (h : heap) (root : nat)
| NConv (conv : conv_net) (linear : lazy_linear)
| NTail (tail : tail_net) (linear : lazy_linear).

(** Lines 98-100; [s] is the state of the batch normalisations. *)
Definition normalization_of (training : bool) (c : net_cfg) (s : bn_state) : res (option norm_class) :=
  v <- key (nt_normalize c) ;; Ok (if v then Some (LazyBatchNorm1d training s) else None).

(** Lines 102-132 ["high_order_input"].  [range(hidden_layers)] is empty for negative numbers.  The output width is read from
    [cfg.output.width]. *)
Definition high_order_input (g : rng) (c : cfg) (normalization : option norm_class) : M nat :=
  let n := c_net c in
  ty <~ mlift (key (nt_layer_type n)) ;;
  k <~ mlift (key (nt_n n)) ;;
  iw <~ mlift (key (nt_input_width n)) ;;
  hw <~ mlift (key (nt_hidden_width n)) ;;
  sg <~ mlift (key (nt_input_segments n)) ;;
  lt <~ mlift (layer_name ty) ;;
  input_layer <~ high_order_fc_layers g lt
     (mkArgs (to_ints k) iw hw (option_map to_ints sg) None None None 2 false ""%string) ;;
  nl <~ match normalization with
        | Some (f, ps) => b <~ alloc (fun _ => OModule f ps) ;; mret [b]
        | None => mret []
        end ;;
  ow <~ mlift (key (c_output_width c)) ;;
  hl <~ mlift (key (nt_hidden_layers n)) ;;
  r <~ alloc (fun _ => OModule (fun x => Ok (relu x)) []) ;;
  lower_layers <~ LowOrderMLP g hw ow (Z.to_nat (hl - 1)) hw (Some r) normalization ;;
  alloc (fun _ => OSequential ([input_layer] ++ nl ++ [lower_layers])).

(** Lines 134-152 ["high_order"].  [n_hidden] gets [cfg.net.n_in]; scale, periodicity, rescale_output, resnet, dropout and
    initialization are at their defaults (networks.py 168-184), [range(hidden_layers)] as above. *)
Definition high_order (g : rng) (n : net_cfg) (normalization : option norm_class) : M nat :=
  ty <~ mlift (key (nt_layer_type n)) ;;
  k <~ mlift (key (nt_n n)) ;;
  ni <~ mlift (key (nt_n_in n)) ;;
  nh <~ mlift (key (nt_n_in n)) ;;
  no <~ mlift (key (nt_n_out n)) ;;
  iw <~ mlift (key (nt_input_width n)) ;;
  si <~ mlift (key (nt_input_segments n)) ;;
  ow <~ mlift (key (nt_output_width n)) ;;
  so <~ mlift (key (nt_output_segments n)) ;;
  hw <~ mlift (key (nt_hidden_width n)) ;;
  hl <~ mlift (key (nt_hidden_layers n)) ;;
  sh <~ mlift (key (nt_hidden_segments n)) ;;
  lt <~ mlift (layer_name ty) ;;
  HighOrderMLP g (mkMLP lt (to_ints k) iw ow (Z.to_nat hl) hw 2 (option_map to_ints ni) (option_map to_ints no)
    (option_map to_ints nh) false None None (option_map to_ints si) (option_map to_ints so) (option_map to_ints sh)
    normalization false None "constant_random"%string 0).

(** Lines 154-165, 170-181: the arguments of the two convolutional networks.  The normalisation does not depend on
    [cfg.net.normalize]; padding is at its default 0. *)
Definition conv_arguments (training : bool) (n : net_cfg) (s : nat -> bn_state) : res cn_args :=
  lt <- key (nt_layer_type n) ;;
  k <- key (nt_n n) ;;
  ch <- key (nt_channels n) ;;
  sg <- key (nt_segments n) ;;
  ks <- key (nt_kernel_size n) ;;
  per <- key (nt_periodicity n) ;;
  st <- key (nt_stride n) ;;
  Ok (mkCN (Some lt) (Some k) ch sg ks false per (Some (LazyBatchNorm1d_of training s)) st 0).

(** Lines 95-191.  [pooling=None] is none of "1d", "2d", "3d".  [g], [u], [draw] are the random numbers, [s], [sc] the states
    of the batch normalisations (by number of channels in convolutional networks); [training] is the mode the model is in
    when it is called. *)
Definition select_network (training : bool) (g : rng) (u draw : nat -> index -> R) (s : bn_state) (sc : nat -> bn_state)
    (c : cfg) : res network :=
  let n := c_net c in
  normalization <- normalization_of training n s ;;
  model_type <- key (nt_model_type n) ;;
  if String.eqb model_type "high_order_input" then
    r <- high_order_input g c normalization [] ;; Ok (NFull (snd r) (fst r))
  else if String.eqb model_type "high_order" then
    r <- high_order g n normalization [] ;; Ok (NFull (snd r) (fst r))
  else if String.eqb model_type "high_order_conv" then
    a <- conv_arguments training n sc ;;
    m <- new_conv_net a "" u draw ;;
    o <- key (nt_out_features n) ;;
    Ok (NConv m (mkLazy o None))
  else if String.eqb model_type "high_order_tail_focus" then
    a <- conv_arguments training n sc ;;
    f <- key (nt_focus n) ;;
    m <- new_tail_net a f u draw ;;
    o <- key (nt_out_features n) ;;
    ft <- key (nt_features n) ;;
    _ <- compute_sizes m ft ;;
    Ok (NTail m (mkLazy o None))
  else
    _ <- key (c_model_type c) ;; Err ValueError.

(** Calling the model; a LazyLinear layer may change. *)
Definition network_forward (dw db : nat -> index -> R) (m : network) (x : tensor R) : res (tensor R) * network :=
  match m with
  | NFull h root => (call h root x, m)
  | NConv c l =>
      match conv_net_forward c x with
      | Ok y => let (r, l') := lazy_forward dw db l y in (r, NConv c l')
      | Err e => (Err e, m)
      end
  | NTail t l =>
      match tail_forward t x with
      | Ok y => let (r, l') := lazy_forward dw db l y in (r, NTail t l')
      | Err e => (Err e, m)
      end
  end.

(** ** Evaluation steps *)

(** A number that may be nan (None). *)
Definition num := option R.

(** [torch.nn.CrossEntropyLoss()] on logits [B, C] and B integer labels: mean over the labels other than -100
    (ignore_index) of log-sum-exp minus the logit of the label; nan if there are none.  Labels outside [0, C) raise IndexError.
    Logits of another rank do not fit flattened labels (the class of that exception is not checked). *)
Definition label_ok (C : nat) (t : Z) : bool := ((t =? -100) || ((0 <=? t) && (t <? Z.of_nat C)))%Z%bool.
Definition cross_entropy (y_hat : tensor R) (target : tensor Z) : res num :=
  match shape y_hat, shape target with
  | [B; C], [B'] =>
      if negb (Nat.eqb B B') then Err ValueError
      else if forallb (fun b => label_ok C (at_ target [b])) (seq 0 B) then
        let used := filter (fun b => negb (Z.eqb (at_ target [b]) (-100))) (seq 0 B) in
        match used with
        | [] => Ok None
        | _ => Ok (Some (fold_right (fun b acc =>
                 (ln (rsum C (fun c => exp (at_ y_hat [b; c]))) - at_ y_hat [b; Z.to_nat (at_ target [b])]) + acc) 0 used
                 / INR (length used)))
        end
      else Err IndexError
  | _, _ => Err RuntimeError
  end.

(** [torch.argmax(y_hat, dim=1)] of a tensor [B, C]: the first index of the largest entry of a row. *)
Fixpoint argmax_to (n : nat) (f : nat -> R) : nat :=
  match n with
  | O => 0%nat
  | S m => let j := argmax_to m f in if Rlt_dec (f j) (f m) then m else j
  end.
Definition argmax1 (y_hat : tensor R) : res (tensor Z) :=
  match shape y_hat with
  | [B; C] => if Nat.eqb C 0 then Err IndexError
              else Ok (mkT [B] (fun ix => match ix with [b] => Z.of_nat (argmax_to C (fun c => at_ y_hat [b; c])) | _ => 0%Z end))
  | _ => Err IndexError
  end.

(** A step returns the loss and appends to the log. *)
Definition log := list (string * num).
Definition join (name s : string) : string := String.append name s.

(** Lines 17-28 [ClassificationMixin.eval_step]; [y_hat] is the outcome of [self(x)].  [diff] has the length B of the labels. *)
Definition classification_eval_step (y_hat : res (tensor R)) (y : tensor Z) (name : string) : res (num * log) :=
  y_hat <- y_hat ;;
  loss <- cross_entropy y_hat (flatten y) ;;
  top <- argmax1 y_hat ;;
  let B := numel y in
  let hits := length (filter (fun b => Z.eqb (at_ top [b] - at_ (flatten y) [b]) 0) (seq 0 B)) in
  let accuracy := if Nat.eqb B 0 then None else Some (INR hits / INR B) in
  Ok (loss, [(join name "_loss", loss); (join name "_acc", accuracy)]).

(** torch.nn.functional.mse_loss of two 1-d tensors: broadcast (with a warning if the sizes differ), mean of the squares. *)
Definition mse_loss (a b : tensor R) : res num :=
  match shape a, shape b with
  | [n], [m] =>
      match bsize n m with
      | Some d => Ok (if Nat.eqb d 0 then None
                      else Some (rsum d (fun i => (at_ a [bc n i] - at_ b [bc m i]) ^ 2) / INR d))
      | None => Err RuntimeError
      end
  | _, _ => Err RuntimeError
  end.
(** Lines 31-38 [RegressionMixin.eval_step]. *)
Definition regression_eval_step (y_hat : res (tensor R)) (y : tensor R) (name : string) : res (num * log) :=
  y_hat <- y_hat ;;
  loss <- mse_loss (flatten y_hat) (flatten y) ;;
  Ok (loss, [(join name "_loss", loss)]).

(** Lines 45-52. *)
Definition training_step {Y} (eval_step : res (tensor R) -> Y -> string -> res (num * log)) (y_hat : res (tensor R)) (y : Y) :=
  eval_step y_hat y "train"%string.
Definition validation_step {Y} (eval_step : res (tensor R) -> Y -> string -> res (num * log)) (y_hat : res (tensor R)) (y : Y) :=
  eval_step y_hat y "val"%string.
Definition test_step {Y} (eval_step : res (tensor R) -> Y -> string -> res (num * log)) (y_hat : res (tensor R)) (y : Y) :=
  eval_step y_hat y "test"%string.

(** ** configure_optimizers, lines 54-92 *)

Record opt_cfg := mkOptCfg { op_name : option string; op_lr : option R; op_scheduler : option string;
  op_patience : option nat; op_factor : option R; op_gamma : option R }.
(** The optimizers and schedulers are classes of torch and lion_pytorch; an optimizer holds the parameters it updates.
    ReduceLROnPlateau rejects a factor of 1 or more. *)
Inductive optimizer := Adam (params : list (nat * string)) (lr : R) | Lion (params : list (nat * string)) (lr : R).
Inductive scheduler := ReduceLROnPlateau (patience : nat) (factor : R) | ExponentialLR (gamma : R).
Record sched_entry := mkSched { sd_scheduler : scheduler; sd_reduce_on_plateau : bool; sd_monitor : string }.
Inductive configured := OnlyOptimizer (o : optimizer) | WithScheduler (o : optimizer) (s : sched_entry).
Definition configure_optimizers (o : opt_cfg) (params : list (nat * string)) : res configured :=
  name <- key (op_name o) ;;
  optimizer <- (if String.eqb name "adam" then lr <- key (op_lr o) ;; Ok (Adam params lr)
                else if String.eqb name "lion" then lr <- key (op_lr o) ;; Ok (Lion params lr)
                else Err ValueError) ;;
  sch <- key (op_scheduler o) ;;
  if String.eqb sch "plateau" then
    p <- key (op_patience o) ;;
    f <- key (op_factor o) ;;
    if Rle_dec 1 f then Err ValueError
    else Ok (WithScheduler optimizer (mkSched (ReduceLROnPlateau p f) true "train_loss"))
  else if String.eqb sch "exponential" then
    gamma <- key (op_gamma o) ;;
    Ok (WithScheduler optimizer (mkSched (ExponentialLR gamma) false "train_loss"))
  else Ok (OnlyOptimizer optimizer).
