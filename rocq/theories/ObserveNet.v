(** * Observations on networks used by the property statements.  Definitions only. *)
From Coq Require Import String Reals ZArith List.
From Verif Require Import Spec Tensor Utils PolynomialLayers ProductLayer LagrangeND Observe Layers Networks.
Import ListNotations.
Local Open Scope R_scope.

(** Objects an object refers to. *)
Definition refs (o : obj) : list nat :=
  match o with
  | OLinearRelu f => [f]
  | OSum fs => fs
  | OSwitch _ _ fs nm => fs ++ match nm with Some k => [k] | None => [] end
  | OSequential fs => fs
  | OMLP d i o m => [d; i; o; m]
  | OModel m => [m]
  | _ => []
  end.
(** Objects refer to objects that existed when they were built. *)
Definition wf_heap (h : heap) : Prop :=
  forall i, (i < length h)%nat -> forall j, In j (refs (get h i)) -> (j < i)%nat.

(** The same tensor, or the same exception. *)
Definition same_result (r r' : res (tensor R)) : Prop :=
  match r, r' with
  | Ok y, Ok y' => teq y y'
  | Err e, Err e' => e = e'
  | _, _ => False
  end.

(** Modules put between layers: their result depends on the entries of their input only and has the same
    shape. *)
Definition shape_preserving (f : tensor R -> res (tensor R)) : Prop :=
  (forall x x', teq x x' -> same_result (f x) (f x')) /\ forall x y, f x = Ok y -> shape y = shape x.

(** Training, loading or assigning weights: every parameter may get any values, nothing else changes. *)
Inductive reweighted : obj -> obj -> Prop :=
| RwPiecewise l w : shape w = shape (pw_w l) -> reweighted (OPiecewise l) (OPiecewise (with_w l w))
| RwFunc l w : shape w = shape (f_w l) -> reweighted (OFunc l) (OFunc (with_fw l w))
| RwPolyND l w : shape w = shape (pn_w l) -> reweighted (OPolyND l) (OPolyND (mkPND (pn_poly l) (pn_periodicity l) w))
| RwPiecewiseND l w : shape w = shape (pd_w l) -> reweighted (OPiecewiseND l) (OPiecewiseND
    (mkPwND (pd_dimensions l) (pd_n l) (pd_segments l) (pd_in l) (pd_out l) (pd_length l) (pd_basis l) w))
| RwProduct l w b : shape w = shape (pr_weight l) ->
    match pr_bias l, b with Some b0, Some b => shape b = shape b0 | None, None => True | _, _ => False end ->
    reweighted (OProduct l) (OProduct (mkProduct (pr_in l) (pr_out l) w b (pr_alpha l) (pr_periodicity l)))
| RwLinear w b w' b' : shape w' = shape w -> shape b' = shape b -> reweighted (OLinear w b) (OLinear w' b')
| RwSame o : reweighted o o.
Definition retrained (h h' : heap) : Prop :=
  length h' = length h /\ forall i, (i < length h)%nat -> reweighted (get h i) (get h' i).

(** The four layer types that can be interpolated: one number of nodes, one number of segments. *)
Definition refinable_type (t : string) : Prop :=
  t = "continuous"%string \/ t = "discontinuous"%string \/ t = "switch_continuous"%string \/ t = "switch_discontinuous"%string.

(** A HighOrderMLP whose layers are refinable and that has no residual connections: [ni], [nh], [no] nodes per segment
    and [si], [sh], [so] segments in the input, hidden and output layers. *)
Record plain_mlp (a : mlp_args) (ni nh no si sh so : nat) : Prop := mkPlain {
  pm_type : refinable_type (ma_layer_type a);
  pm_type_in : refinable_type (or_string (ma_layer_type_in a) (ma_layer_type a));
  pm_n_in : or_ints (ma_n_in a) (ma_n a) = Int ni;
  pm_n_hidden : or_ints (ma_n_hidden a) (ma_n a) = Int nh;
  pm_n_out : or_ints (ma_n_out a) (ma_n a) = Int no;
  pm_s_in : ma_in_segments a = Some (Int si);
  pm_s_hidden : ma_hidden_segments a = Some (Int sh);
  pm_s_out : ma_out_segments a = Some (Int so);
  pm_sizes : (1 <= ni /\ 1 <= nh /\ 1 <= no /\ 1 <= si /\ 1 <= sh /\ 1 <= so)%nat;
  pm_widths : (1 <= ma_in_width a /\ 1 <= ma_hidden_width a /\ 1 <= ma_out_width a)%nat;
  pm_resnet : ma_resnet a = false;
  pm_dropout : 0 <= ma_dropout a <= 1 }.

(** Two argument lists for HighOrderMLP that differ in the numbers of nodes and of segments only (and in scale,
    rescale_output and initialization, which are ignored); the activation modules, objects of heap [h0], may be
    different objects with the same forward function. *)
Record same_architecture (h0 : heap) (a a' : mlp_args) : Prop := mkSame {
  sa_type : ma_layer_type a' = ma_layer_type a;
  sa_type_in : or_string (ma_layer_type_in a') (ma_layer_type a') = or_string (ma_layer_type_in a) (ma_layer_type a);
  sa_in : ma_in_width a' = ma_in_width a;
  sa_hidden : ma_hidden_width a' = ma_hidden_width a;
  sa_out : ma_out_width a' = ma_out_width a;
  sa_depth : ma_hidden_layers a' = ma_hidden_layers a;
  sa_per : ma_periodicity a' = ma_periodicity a;
  sa_norm : ma_normalization a' = ma_normalization a;
  sa_norm_sp : forall f ps, ma_normalization a = Some (f, ps) -> shape_preserving f;
  sa_dropout : ma_dropout a' = ma_dropout a;
  sa_act : match ma_non_linearity a, ma_non_linearity a' with
           | None, None => True
           | Some k, Some k' => (k < length h0)%nat /\ (k' < length h0)%nat /\
               exists f ps ps', shape_preserving f /\ get h0 k = OModule f ps /\ get h0 k' = OModule f ps'
           | _, _ => False
           end }.

(** Modules put between layers of width [W]: they never fail on batches of that width and keep the shape. *)
Definition on_width (W : nat) (f : tensor R -> res (tensor R)) : Prop :=
  forall x B, shape x = [B; W] -> exists y, f x = Ok y /\ shape y = shape x.

(** Layer types of the factory that take flat inputs, with the number(s) of nodes and of segments they need. *)
Definition flat_layer (t : string) (n : ints) (segments : option ints) : Prop :=
  In t ["baseline"; "baseline_relu"; "product"]%string \/
  (In t ["polynomial"; "fourier"]%string /\ exists k, n = Int k /\ (1 <= k)%nat) \/
  (In t ["continuous"; "continuous_prod"; "discontinuous"; "discontinuous_prod"; "switch_continuous"; "switch_discontinuous"]%string /\
   exists k s, n = Int k /\ segments = Some (Int s) /\ (1 <= k)%nat /\ (1 <= s)%nat).

(** Arguments of a HighOrderMLP of flat layers; the activation is an object of heap [h]. *)
Record flat_mlp (h : heap) (a : mlp_args) : Prop := mkFlat {
  fm_in : flat_layer (or_string (ma_layer_type_in a) (ma_layer_type a)) (or_ints (ma_n_in a) (ma_n a)) (ma_in_segments a);
  fm_hidden : ma_hidden_layers a = 0%nat \/
              flat_layer (ma_layer_type a) (or_ints (ma_n_hidden a) (ma_n a)) (ma_hidden_segments a);
  fm_out : flat_layer (ma_layer_type a) (or_ints (ma_n_out a) (ma_n a)) (ma_out_segments a);
  fm_widths : (1 <= ma_in_width a /\ 1 <= ma_hidden_width a /\ 1 <= ma_out_width a)%nat;
  fm_norm : forall f ps, ma_normalization a = Some (f, ps) -> on_width (ma_hidden_width a) f;
  fm_act : forall k, ma_non_linearity a = Some k ->
             (k < length h)%nat /\ exists f ps, get h k = OModule f ps /\ on_width (ma_hidden_width a) f;
  fm_dropout : 0 <= ma_dropout a <= 1 }.

(** Layers, as opposed to activation, normalisation and dropout modules. *)
Definition is_layer (o : obj) : bool := match o with OModule _ _ => false | _ => true end.
(** The layers of a network: the elements of its [model] that are layers. *)
Definition network_layers (h : heap) (net : nat) : list nat :=
  match model_of h net with
  | Ok m => match get h m with OSequential ls => filter (fun k => is_layer (get h k)) ls | _ => [] end
  | Err _ => []
  end.

(** Network [net] maps batches of width [W] to batches of width [W'] whatever its weights have become. *)
Definition maps_width (h : heap) (net W W' : nat) : Prop :=
  forall h', retrained h h' -> forall x B, shape x = [B; W] -> exists y, call h' net x = Ok y /\ shape y = [B; W'].

(** ** Initialisation and smoothing of whole networks *)

(** Every link of the layer, taken as a layer of its own, is one straight line with the given slopes and offsets;
    the periodicity of the layer, if any, is applied first. *)
Definition straight_links (l : piecewise) (slope offset : nat -> nat -> R) : Prop :=
  forall o i, (o < pw_out l)%nat -> (i < pw_in l)%nat ->
  forall t, layer_out (one_link l o i) (fun _ => t) 0 = slope o i * apply_periodicity (pw_periodicity l) t + offset o i.

(** Objects whose weights belong to module [k], with the number of inputs of [k]: [k] itself if it is a layer,
    the branches if it is a switch layer. *)
Definition polynomial_layers (h : heap) (k : nat) : list (nat * nat) :=
  match get h k with
  | OPiecewise l => [(k, pw_in l)]
  | OSwitch i _ ls _ => map (fun j => (j, i)) ls
  | _ => []
  end.

(** A module that maps each sample of a batch by the same function of the sample alone. *)
Definition rowwise (W W' : nat) (f : tensor R -> res (tensor R)) : Prop :=
  exists F : (nat -> R) -> nat -> R,
    (forall u v, (forall i, (i < W)%nat -> u i = v i) -> forall o, (o < W')%nat -> F u o = F v o) /\
    forall x B, shape x = [B; W] -> exists y, f x = Ok y /\ shape y = [B; W'] /\
      forall b o, (b < B)%nat -> (o < W')%nat -> at_ y [b; o] = F (row x b) o.

(** A module that maps each sample of a batch by the same function of the sample, continuous in all inputs. *)
Definition rowwise_continuous (W W' : nat) (f : tensor R -> res (tensor R)) : Prop :=
  exists F : (nat -> R) -> nat -> R,
    (forall o, (o < W')%nat -> continuous_vec W (fun v => F v o)) /\
    forall x B, shape x = [B; W] -> exists y, f x = Ok y /\ shape y = [B; W'] /\
      forall b o, (b < B)%nat -> (o < W')%nat -> at_ y [b; o] = F (row x b) o.

(** A module that maps each sample of a batch by the same affine function of the sample. *)
Definition rowwise_affine (W W' : nat) (f : tensor R -> res (tensor R)) : Prop :=
  exists (M : nat -> nat -> R) (c : nat -> R),
    forall x B, shape x = [B; W] -> exists y, f x = Ok y /\ shape y = [B; W'] /\
      forall b o, (b < B)%nat -> (o < W')%nat -> at_ y [b; o] = rsum W (fun i => M o i * at_ x [b; i]) + c o.
