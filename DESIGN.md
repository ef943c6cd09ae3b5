# Formal model of high-order-layers-torch: design

Source: `/repo` (python, PyTorch).  Model and proofs: `rocq/theories` (Coq 8.16.1).
The properties are in `properties.jsonl`, the map property -> theorem in `MANIFEST.json`, the
mutation tests in `seeded/LOG.jsonl`.

## 1. How the code is modelled

* **Tensors** (`Tensor.v`).  `tensor A` is a shape (list of nat) and a map from multi-indices to
  entries; only entries at valid indices are observable.  `reshape`/`view` go through the
  row-major linear index (`ravel`/`unravel`), so every layout operation of the code
  (`view`, `flatten`, `permute`, `reshape`, advanced indexing, `index_put`, `einsum`, ...) is
  modelled by its index map and not replaced by what it is meant to achieve.
* **Exceptions** are values: `res A := Ok a | Err e` with one constructor of `exn` for each python
  exception class that occurs.  In-place functions return the final content of the mutated
  object together with the outcome, so "raises without side effect" can be stated.
* **Numbers**.  Tensor entries are exact real numbers (`R` of Coq's standard library); integer
  tensors are `Z`.  Floating-point rounding, overflow and NaN are not modelled in the real-valued
  part.  `.long()` is truncation toward zero.  Where torch yields NaN by a 0/0 (a fully masked row
  of a softmax) the model says so explicitly instead of using Coq's total division.
  Properties about rounding are in `FloatUtils.v`/`Prop_Float.v` on top of Flocq, where each
  operation is rounded to an arbitrary radix-2 format; overflow is not modelled there.  `FloatLayers.v`
  does the same for polynomial and piecewise layers; since torch does not fix the order of `prod` and
  `einsum`, results there are relations that allow every order, and every fusing of a product with an
  addition.  The stored nodes are arbitrary (the library's cosine is not modelled).
* **Randomness** is an argument (the drawn values), so theorems range over all draws.
* **Classes** are records holding the attributes `__init__` assigns, and one function per method.
  Constructors return `res` as they can raise.
* **Networks** are a heap of objects (`Layers.v`, `Networks.v`): the position in the list is the identity of the
  object, fields refer to other objects by position.  Registration (what `parameters()` and
  `modules()` can see) is a property of each class: a plain python list of modules is reachable by
  `forward` but not by `modules()`, exactly as in torch.  In-place functions on networks (`interpolate_high_order_mlp`,
  `smooth_discontinuous_network`, ...) return the new heap.

Model files contain definitions only; each definition cites file and lines in `/repo` and states
its simplifications.  Proofs are in `*Facts.v`/`*Proofs.v`; the property theorems are in
`Prop_*.v`, each with its `Print Assumptions` and an `Example` showing that its hypotheses are
satisfiable in a non-trivial case.  The vocabulary used by the statements (polynomial of degree < n, sums,
continuity, ...) is in `Spec.v`, which does not refer to the model; `Observe*.v` define what a user can
observe of a layer or network (one scalar link function, the value of one output, "the weights of this segment", ...).

Claims that are false of the code are proved false (`..._refuted`) with a concrete witness or, where
the failure is universal, for all inputs.

## 2. Properties, model files, method

| id | what is modelled | files | how it is proved |
|----|------------------|-------|------------------|
| C01, C02 | `chebyshevLobatto`, `LagrangeBasis`, `LagrangeBasis1`, `get_lagrange_basis` | LagrangePolynomial / Prop_Basis | monotonicity of cos; product algebra; root bound by induction on degree |
| C03, C04, C06-C12, C14, C55 | `Function`, `Piecewise`, `PiecewiseDiscontinuous` and all subclasses, initialisers, `BasisFlat`, `Basis`, `x_local`/`x_global` | Basis, PolynomialLayers / Prop_Layers | index arithmetic on ravel/unravel, refinement to a scalar function, telescoping sums of ramps |
| C05, C13 | `which_segment` (also with an arbitrary integer cast), `make_periodic` | PolynomialLayers, Utils / Prop_Layers, Prop_Norm | floor characterisation |
| C15-C19, C22, C23, C56-C58 | `interpolate_polynomial_layer`, `refine_polynomial_layer`, `refine_discontinuous_polynomial_layer`, `smooth_discontinuous_layer`, `initialize_polynomial_layer` with their loops over a mutable tensor | Refine / Prop_Refine | loop invariants, uniqueness of interpolation |
| C20, C21, C43-C45, C59 | `HighOrderMLP`, `HighOrderMLPList`, `HighOrderMultiMLP`, `LowOrderMLP`, `SumLayer`, `SwitchLayer`, `transform_mlp`, `transform_low_mlp`, network-wide interpolation, refinement, initialisation, smoothing | Layers, Networks / Prop_Net, Prop_MLP, Prop_Switch | heap invariants (disjoint copies), induction on depth |
| C24-C26 | `utils.py` normalisations and their modules | Normalization / Prop_Norm | order reasoning on finite maxima |
| C27, C53 | `FourierBasis`, `FourierSeries`, `length` | / Prop_Layers, Prop_Basis | trigonometric periodicity, witnesses |
| C28 | `Product`, `BasisProd`, `BasisFlatProd` | ProductLayer / Prop_Product | algebra by induction on the inputs |
| C29, C30 | `fixed_rotation_layer`, `positions_from_mesh` | Rotation / Prop_Rotation | induction over the loops, trigonometry |
| C31, C32 | `SparseLion` | SparseLion / Prop_Lion | induction on the step history; gradient of an arbitrary loss by the chain rule |
| C33-C38 | `Basis.py` expansions, `FunctionalConvolution*.py` | Expand, Convolution / Prop_Conv | index arithmetic, C02 |
| C40, C41 | `LagrangeBasisND`, `PiecewiseND`, `PolynomialND` | LagrangeND / Prop_ND | mixed-radix enumeration, sign counting |
| C42 | the three factories of `layers.py` | Layers, ConvNetworks / Prop_Factory | case analysis |
| C46-C50, C60, C61 | `attentions.py` | Attention / Prop_Attention, Prop_MultiHead, Prop_MHLocation, Prop_Relative | softmax facts, index maps of view/repeat/permute |
| C50, C52 | `positional_embeddings.py` | Embedding / Prop_Embedding | trigonometry |
| C51, C62 | `VanillaVAE` | Vae / Prop_Vae | `exp x >= 1 + x` |
| C54, C63 | max-abs, max-center, `make_periodic` in rounded arithmetic | FloatUtils / Prop_Float | Flocq, monotonicity of rounding |
| C101, C102 | `groups`, `padding_mode` of `FunctionalConvolution.py` | ConvOptions / Prop_ConvOptions | index arithmetic, C35 |
| C103 | `FunctionalConvolution.py` as C35 | Convolution / Prop_ConvAnalysis | C10, C79, C87 on the link functions, sums over the window |
| C104 | `sparse_optimizers/sparse_lion.py` in floating point | FloatLion / Prop_FloatLion | Flocq: midpoints, succ/pred, induction over the history |
| C105 | `PolynomialLayers.py`, `utils.py` derivatives with respect to inputs | Prop_InputGrad | limits, gluing of one-sided derivatives, Markov-type bound |
| C106 | `PolynomialLayers.py`, `LagrangePolynomial.py` in floating point | FloatLayers / Prop_FloatSegments | backward error of the local coordinate, exactness of interpolation through any nodes, Markov-type bound slightly outside [-1,1] |
| C107 | `HighOrderMLP` of continuous layers in floating point | FloatNetworks / Prop_FloatNet | induction over the layers: C106 for the new error, C87 for the inherited one, C79 keeps every layer's values in range |
| C108 | `HighOrderMLP` with dropout, training mode | Dropout / Prop_Dropout | induction over the sequence of modules; expectation over all decisions by recursion over the entries |
| C109 | transposed convolutions: which pixels reach an output | Convolution / Prop_DeconvAnalysis | exchange of sums; at most one pixel per kernel position; counting residues modulo the stride |
| C110 | gradient descent on one layer reaches the best loss at rate 1/T | Modules (regression loss), layers / Prop_Descent | linear least squares; sum of squares of cardinal polynomials at most 2 via the Chebyshev kernel; Cauchy-Schwarz |
| C111 | `RelativeMultiHeadAttention` with dropout, training mode | Dropout, Attention / Prop_AttnDropout | softmax weights of C67 multiplied by the decisions; expectation by recursion over the decisions |
| C112 | `HighOrderMLP` with `resnet=True`, evaluation and training | Networks, Dropout / Prop_Resnet | induction over the construction (a chain of blocks, layers and SumLayers) and then over the chain |
| C113 | transposed convolutions with groups | DeconvOptions / Prop_DeconvOptions | as C101 and C109: position of an expanded channel in its group, exchange of sums |
| C114 | networks along lines: pieces, degrees, behaviour far away | NetFacts / Prop_Lines | induction over the layers: composition of polynomials, crossings of knots counted by roots on each piece; growth of polynomials |
| C115 | gradients of networks, weights no sample reaches | NetFacts, SparseLion / Prop_Backprop | locality layer by layer; chain rule over the layers, duality of tangents and errors; induction over training steps |
| C116 | normalized networks: bounded outputs, levelling off along rays | NetFacts, Normalization / Prop_Saturation | bounds through the layers; leading terms of the first layer's polynomials, continuity of the remaining layers |
| C117 | features of rotation layers, transform networks, quadratic functions, polynomials of two inputs | Rotation, Networks / Prop_Transform | rows of the weight against a recursive list of features; sums of polynomials of one feature closed under addition, products by polarisation; monomials of two inputs by solving the Vandermonde system of the slopes of the features; sharpness by iterated differences along the directions that leave one feature unchanged |
| C118 | function of LowOrderMLP networks; collapse without activation | Layers, Networks / Prop_LowOrder | invariant on the list of modules during construction; induction over the layers |
| C39, C64-C67 | `HighOrderFullyConvolutionalNetwork`, `HighOrderFullyDeconvolutionalNetwork`, `HighOrderTailFocusNetwork` | ConvNetworks / Prop_ConvNet, Prop_Tail, Prop_Deconv | induction on the layer list, refinement of sizes |
| C68-C75 | `modules.py`: `select_network`, evaluation steps, `configure_optimizers`, batch normalisation and `LazyLinear` as used there | Modules / Prop_Select, Prop_Selected, Prop_Lazy, Prop_Step | case analysis on the configuration, convexity of the logarithm, composition with C39, C43, C65 |
| C76-C78 | `networks.py`: `initialize_network_polynomial_layers`, `smooth_discontinuous_network`, continuity of a whole `HighOrderMLP`; normalisations and activations as continuous modules | Networks, Refine, Normalization / Prop_Init, Prop_Continuity | loop invariant over the visited modules, composition along the layer list, C08, C22, C23 |
| C85 | construction of HighOrderMLP with its draws | Networks, Layers / Prop_Fresh | invariant of all allocating functions (every new piecewise layer carries its draws), then constancy of the last layer |
| C86 | weights as arguments of the layers, regression loss | Prop_Convex | linearity of sums; convexity of squares; second-order expansion |
| C87, C88 | sensitivity to inputs and weights; networks of continuous layers as universal approximators | PolynomialLayers, Networks / Prop_Lipschitz, Prop_Dense | Chebyshev expansion of the cardinal polynomials with slope at most k^2; drift through the layers by induction; positive partition of unity written as exp of a sum of logarithms, sampled by two layers |
| C84 | `LazyLayerNormLastDim`, `normalization_layers` | LayerNorm / Prop_LayerNorm | algebra of finite sums, induction on the calls |
| C89 | samples in HighOrderMLP, LowOrderMLP | Networks, Layers, LayerNorm, Modules / NetTypes, Prop_Rows | typing invariant of all allocating functions, composition along the layer list |
| C90 | `examples/block_mnist.py` | Examples / Prop_Block | every layer type is a function of one pixel; sums, permutations |
| C91 | `examples/invariant_mnist.py`: the p-refinement loop | Examples / Prop_Refining, Prop_Stages | loop invariant over the orders, C15, framing of the heap |
| C92 | `examples/mnist.py` | Examples / Prop_Images, Prop_Stages | each stage is a function of one sample; sizes stage by stage |
| C94 | `examples/cifar10.py` | Examples / Prop_Images, Prop_Stages | the same; flattening by number of elements |
| C93 | `examples/xor.py` | Examples / Prop_Xor, Prop_Stages | explicit weights; continuity of a composition on both sides of an axis |
| C95 | `PolynomialLayers.py` Piecewise, PiecewiseDiscontinuous | PolynomialLayers / Prop_Identify | weights are the values at nodes; a polynomial is determined by its values |
| C96 | Polynomial, FourierSeries with many terms | PolynomialLayers / WeierstrassFacts, Prop_Series | Bernstein polynomials as expectations (induction on n); even functions through acos, odd ones through a soft threshold and division by sin |
| C97 | `examples/function_example.py` | Examples / Prop_Function | C80, C96 for its target; one-node weights; product formula |
| C99 | `Polynomial` layers in rounded arithmetic, any order of reductions | FloatLayers / Prop_FloatLayers | induction over the reduction tree; Flocq error bounds; exactness of differences at nodes |
| C100 | `PiecewisePolynomial`, `PiecewiseDiscontinuousPolynomial` in rounded arithmetic, 2^k segments | FloatLayers / Prop_FloatPiecewise | exactness of dyadic numbers, monotonicity of rounding, C99 |
| C98 | `examples/variational_autoencoder.py` | ExampleVae / Prop_VaeExample, Prop_Stages | C62, C65, C67 composed; shapes through both networks in either mode; broadcasting of the loss |
| C79-C83 | output bounds, approximation order, linear special cases, xor and universal approximation for the layers and networks already modelled | PolynomialLayers, Networks / Prop_Bounds, Prop_Approx, Prop_Represent, Prop_Universal | discrete Chebyshev orthogonality for the cardinal polynomials, Taylor's theorem, compactness of the cube |

## 3. Trusted base

* Coq 8.16.1's kernel (and coqchk).
* Axioms: only those of Coq's standard library of classical reals (and, through Flocq and Coquelicot lemmas,
  `Classical_Prop.classic`); section 6 lists them per theorem.
* That the Gallina definitions describe the python code: torch operations are modelled from their
  documentation, not verified; autograd is assumed to compute the mathematical derivative.

## 4. What is modelled, file by file

| file | modelled | not modelled |
|------|----------|--------------|
| `LagrangePolynomial.py` | everything except the right column | commented-out code |
| `Basis.py` | all classes | commented-out code; memory layout (the 1d expansions call `view`) |
| `PolynomialLayers.py` | all classes and functions | `weight_magnitude` is a bound on the draws |
| `FunctionalConvolution.py`, `FunctionalConvolutionTranspose.py` | all classes; torch's convolution and transposed convolution by their formulas (all padding modes and groups, stride, dilation) | `rescale_output` neither True nor False |
| `layers.py` | normalisation modules, `SumLayer`, `SwitchLayer`, adapters, tables, factories, rotation layer, `LazyLayerNormLastDim` | |
| `networks.py` | all classes and functions | devices; normalisation modules passed as arguments are arbitrary functions (evaluation mode); theorems state what they need of them |
| `attentions.py` | all classes | `CustomizingAttention` beyond the point where it raises |
| `positional_embeddings.py`, `ProductLayer.py`, `utils.py`, `sparse_optimizers/sparse_lion.py` | everything | the triton option of the optimizer |
| `examples/mnist.py`, `block_mnist.py`, `invariant_mnist.py`, `xor.py`, `cifar10.py`, `function_example.py` | the networks, the collation of blocks and the refinement loop (Examples.v) | the Lightning trainer: training is an arbitrary change of the weights that leaves shapes alone; data loading |
| `examples/variational_autoencoder.py` | `Net` (encoder, decoder, forward, `eval_step`), the images of `ImageSampler` (ExampleVae.v) | the trainer (`vae` reads `cfg.gpus`, which the shipped configuration lacks), optimizers, data, running statistics (an arbitrary state) |
| `modules.py` | `select_network`, both evaluation steps, the three Lightning step methods, `configure_optimizers`; `LazyBatchNorm1d` in training and eval mode, `LazyLinear` with its first call | Lightning glue, the update of running statistics (any state is allowed instead) |

Nowhere modelled: floating point (except the Flocq files), devices, dtypes, performance, printing, data loading, tests, the examples not named above.
Einsum is modelled with size-1 broadcasting; labels repeated within one operand do not occur in the code.

## 5. Findings (proved of the model)

* C53, C33: `length` different from 2 breaks continuity, the documented domain and the agreement with the expansions.
* C44: `scale`, `rescale_output`, `initialization` are swallowed by `HighOrderMLP`.
* C40: `LagrangeBasisND` carries a sign `(-1)^...` for some orders/dimensions; `PolynomialND` cannot be built with an integer `n`.
  Points without batch dimension are taken for the inputs of one sample.
* C41: `PiecewiseND` uses the weights of the first link only, all outputs are identical, and one dimension fails.
* C101: 2d polynomial and piecewise convolutions cannot be built with groups; the others accept groups that tear the basis functions of one channel apart.
* C102: zero padding acts on the expansion: the border of an image is not treated as zero pixels.
* C104: in floating point SparseLion stops moving weights above about 2^(prec+1) learning rates for good (bfloat16, default learning rate: above 0.06), and ignores gradients that underflow.
* C105: every inner knot where the slopes differ, and every turning point of a periodic layer whose polynomial is not flat there, is a kink: the layer is not differentiable in the input there.
* C108: the mean of a layer's output over dropout decisions is not its output in evaluation; kept values larger than 1-p leave [-1,1]; dropout=1 is accepted.
* C109: `rescale_output` of transposed convolutions is no average (every output divided by in_channels*kernel^2 though only about (kernel/stride)^2*in_channels pixels reach it); checkerboards when the stride does not divide the kernel; exact zeros when the stride exceeds the kernel's extent.
* C110: learning rates above 1 diverge for a layer with one input and one weight; the safe rate shrinks with in_features but not with the number of nodes or segments (no finding against the code, a limit on its use).
* C111: attention weights are dropped after the softmax and not renormalised: those of one training step do not sum to 1; a query whose weights are all dropped gets the bias of the output projection.
* C112: `resnet=True` is not a residual connection unless there is dropout (evaluation) or an idempotent activation: the module before is applied to its own output again; with dropout the skipped value is dropped twice in training.
* C113: transposed convolutions accept numbers of groups that divide only the number of expanded channels; an output channel then gets a part of the basis functions of an input channel.
* C114: outside the region of its training data a network without normalization or periodicity is, along every ray, eventually constant or unbounded, with degree up to (n-1)^(number of layers).
* C116: with a normalization the outputs are bounded by the last layer's weights alone and (max_abs, continuous layers) converge along every ray: such a network extrapolates by constants only.
* C117: the docstring of `fixed_rotation_layer` gives the features in another order than the code.
* C42, C43, C50: announced layer names and classes that can never be built (`HighOrderMultiMLP`, `FourierConvolution1d`, `CustomizingAttention`, product layers in
  tables, `FourierSeriesEmbedding`, sinusoidal embedding of odd size or size 2).
* C43: `HighOrderMLPList` applies its first layer only.
* C45: the parameters of `SwitchLayer` and `SumLayer` are not registered; a `resnet` MLP trains three layers whatever its depth; C20: interpolation skips the unregistered layers.
* C28, C50: `Product(bias=False)` raises in `forward`; the sign of `alpha` differs between `Product` and `BasisProd`.
* C31: the weight decay of `SparseLion` has no effect.
* C47: the mask of `MultiHeadAttention` is applied to the wrong sample unless batch or heads is 1; a fully masked row is NaN (in the relative variant: uniform, C61).
* C48: `MultiHeadLocationAwareAttention` pairs weights and values of different heads and times.
* C18, C19, C56, C57, C58: refinement to a segment count that is no multiple loses the function; refining a discontinuous layer always fails; a continuous
  layer interpolated into a discontinuous one is silently wrong; product layers cannot be interpolated; smoothing piecewise constant layers fails.
* C39, C64, C65: list lengths are never validated (dead comparison); default pooling of 1d networks averages over channels; the sizes the tail focus network announces
  are wrong for a focus outside 1..width, and `compute_sizes` raises without a stride.
* C68: the batch normalisations of configured convolutional networks get the channel count as epsilon and so damp every layer.
* C69: configured 2d convolutional networks (the cifar100 configuration) raise on every input.
* C70: `high_order_input` cannot be built from `net.output.width`; `n_hidden`, `periodicity` and `normalize` (convolutional models) are ignored; the error message for unknown
  model types raises itself.
* C72: ignored labels count as wrong predictions in the logged accuracy.
* C54: in rounded arithmetic max-center normalisation leaves [-1,1].
* C79: between the nodes the output can exceed every weight (5/4 for weights at most 1). C82: the claim of the README that the xor example also works without a hidden layer is false.
* C85: a freshly built HighOrderMLP is constant, and its first training step can only change the output layer.
* C86: the regression loss of product layers is not convex in the weights.
* C84: `LazyLayerNormLastDim` has no parameters before its first call (an optimizer made before never trains it) and never any if that input is on another device.
* C90: with `continuous_nd` the classifier of `block_mnist.py` cannot learn (all logits equal for any weights); with `polynomial_3d` it is additive over pixels, so it can use no interaction between them. `continuous_3d`, named in the configuration's comment, does not exist.
* C91: the refinement loop of `invariant_mnist.py` tests a model whose last order was never trained; with its default layer type "polynomial" all training is lost; `target_n = n` divides by zero. With `layer_norm` the theorem does not apply: the trained scale and shift would not be copied either.
* C92: `mnist.py` works for kernel sizes 3, 4, 5 only (3, 4 with `double`); `layer_type: standard` ignores the kernel size for its convolutions but not for its last layer, so `kernel_size: 3` fails, and `double` fails with AttributeError.
* C94: `cifar10.py` flattens with `reshape(-1, 400)`: batches of images of another size are mixed or rejected depending on the batch size; a misspelt layer type is only noticed at the first call.
* C97: the first entry of the example's `modelSetC` (continuous, n = 1) is a constant for all weights; `fourier` layers ignore the periodicity they are given, and C96: they cannot approximate functions with different values at the two ends.
* C98: images of a size other than the decoder's give RuntimeError, except that single rows, columns or channels are silently broadcast; the logged `KLD` is minus the divergence. (`examples/autoencoder.py`, not modelled, passes a list to `nn.Sequential`, which raises TypeError.)
* C93: `xor.py` offers `polynomial_2d`, which always raises TypeError; `continuous_nd` is not continuous (its segments share no weights).

## 6. Axioms per theorem (`Print Assumptions`)
* no axioms (closed under the global context):
  C30_degenerate_mesh_rejected, C40_integer_n_rejected, C41_integer_n_rejected, C45_switch_parameters, C45_sum_parameters, C91_epochs, C89_elementwise, C93_polynomial_2d_fails, C109_reach.
* `ClassicalDedekindReals.sig_forall_dec`:
  C17_different_segments_rejected, C17_same_segments_not_rejected, C39_announced_piece, C49_relative_shift, C49_distance, C67_mirror.
* `ClassicalDedekindReals.sig_forall_dec`, `FunctionalExtensionality.functional_extensionality_dep`:
  C12_samples_independent_function, C12_samples_independent_max_abs, C12_samples_independent_nd, C12_max_abs_dim0_mixes_samples, C12_samples_independent_product, C13_make_periodic_triangle_wave, C23_other_types_untouched, C24_max_abs, C24_max_abs_last, C24_max_abs_nd, C24_bad_dim_rejected, C25_max_center, C25_max_center_last, C25_max_center_nd, C25_shift_invariant, C25_shift_invariant_nd, C28_product_layer, C28_new_product, C28_product_without_bias_fails, C28_basis_prod, C28_alpha_sign_differs, C31_step, C31_travel_bound, C31_momentum_bounded, C31_weight_decay_ignored, C31_bad_settings_rejected, C34_expansion2d_layout, C34_expansion1d_layout, C37_other_weights, C39_announced, C39_no_stride, C39_no_focus_sizes, C41_one_dimension_fails, C41_no_batch_fails, C42_conv, C42_never_built_conv, C42_built_conv, C42_conv_class, C42_transpose, C43_low_order_widths, C45_switch_is_product, C50_product_without_bias, C50_customizing, C59_sum_layer, C64_lengths_never_checked, C64_extra_entries_ignored, C64_short_lists, C67_built, C67_only_continuous2d, C73_regression_loss, C73_one_output, C73_sizes, C75_optimizer, C78_elementwise_continuous, C78_relu_continuous, C82_continuous_never_matches_xor, C86_function_linear, C86_regression_no_spurious_minimum, C89_low_order_samples, C89_selection, C90_collate, C90_coordinates, C94_construction, C94_standard_conv, C94_layers, C93_target, C99_growth, C101_default_constructor, C101_groups_rejected_2d, C101_constructible, C101_constructible_1d, C106_amplification, C108_range, C110_step, C110_converges, C110_exists, C111_mean, C112_added_in_training, C113_constructible, C113_default_constructor, C115_mean_squares, C118_low_order, C118_affine.
* `ClassicalDedekindReals.sig_forall_dec`, `ClassicalDedekindReals.sig_not_dec`, `FunctionalExtensionality.functional_extensionality_dep`:
  C01_nodes_ordered_symmetric, C01_nodes_are_lobatto, C02_cardinal_and_partition_of_unity, C02_nodes_scaled, C03_polynomial_layer_exact, C04_constant_init_piecewise, C04_constant_init_polynomial, C04_constant_init_range, C04_constant_init_polynomial_range, C04_number_of_weights, C05_segment_in_range, C05_any_cast_in_range, C05_segment_contains_input, C05_outside_uses_end_segments, C06_piecewise_layer_function, C06_pieces_exist, C06_segment_exists, C06_product_layer_function, C07_weights_are_node_values, C08_continuous_everywhere, C09_continuous_off_boundaries, C09_jump_is_weight_difference, C09_right_value_at_boundary, C10_only_active_segment_matters, C11_gradient_zero_outside_active_segment, C11_gradient_in_active_segment, C12_samples_independent_conv2d, C12_samples_independent_piecewise, C12_forward_total, C14_layers_mirror_periodic, C14_polynomial_mirror_periodic, C15_p_refinement_preserves, C16_interpolation_samples_source, C18_weights_are_samples, C18_h_refinement_preserves, C18_not_multiple_refuted, C19_refine_discontinuous_fails, C19_refine_method_fails, C20_interpolated_mlp_same_output, C20_resnet_refuted, C21_hp_refined_mlp_same_output, C21_discontinuous_rejected, C22_smoothing_shrinks_jumps, C22_full_smoothing_is_continuous, C23_linear_initialisation, C26_l2_norm, C27_fourier_periodic, C27_fourier_bounded, C27_fourier_series, C27_arguments_without_effect, C28_piecewise_links, C28_single_input, C29_width, C29_bad_rotations_rejected, C29_rows, C29_row_norms, C29_stays_in_range, C30_mesh_fills_range, C30_first_two_meshes_are_x, C32_gradient_exists, C32_gradient_zero, C32_unvisited_weights_unchanged, C32_unvisited_segment_unchanged, C33_expansion_is_layer, C33_partition_of_unity, C33_single_segment, C33_other_length_refuted, C33_wrong_rank_rejected, C35_conv2d, C35_conv1d, C35_conv2d_no_padding, C36_translation, C37_fresh_conv_is_constant, C37_fresh_conv_range, C38_conv_size, C38_transpose, C39_forward, C39_sizes, C39_no_focus, C40_enumeration, C40_basis_at_nodes, C40_polynomial_nd_exact, C40_weight_at_node, C40_periodic, C40_points_without_batch, C40_single_point, C41_outputs_identical, C41_only_first_link_used, C41_piecewise_function, C41_fresh_layer_constant, C41_uniform_initialisation_fails, C42_fc_unknown, C42_fc_known, C42_continuous_nd_integer, C42_never_built_fc, C42_built_fc, C42_piecewise_class, C42_function_class, C42_continuous_nd, C43_mlp_widths, C43_mlp_list_first_layer_only, C43_mlp_list_refuted, C43_multi_mlp_never_built, C43_transform_widths, C43_transform_low_widths, C44_ignored_arguments, C44_orders_not_given, C45_layer_parameters, C45_switch_mlp_has_no_parameters, C45_resnet_trains_three_layers, C46_scaled_dot_product, C46_context_between, C46_masked_keys_irrelevant, C46_dot_product, C46_scaled_dot_product_shapes, C46_dot_product_shapes, C46_additive, C46_location_aware, C47_multi_head, C47_own_mask, C47_own_mask_refuted, C48_multi_head_location, C48_aligned, C48_aligned_refuted, C50_fourier_embedding, C50_piecewise_embeddings, C51_missing_arguments, C53_other_length_not_continuous_refuted, C53_other_length_does_not_interpolate_refuted, C55_local_global_inverse, C56_product_layers_not_interpolated, C57_mixed_kinds_silently_wrong, C58_smoothing_constant_layers_fails, C60_order_of_keys_irrelevant, C61_relative_attention, C61_masked_weights, C62_forward, C65_global_average, C65_pooling_too_wide, C65_pooling_wrong, C65_no_pooling, C65_default_pooling_refuted, C66_samples_independent, C66_fresh_network_is_constant, C67_shape, C67_samples_independent, C68_eval, C68_fresh, C68_training, C68_training_single, C69_two_dimensional_fails, C70_unknown_model_type, C70_high_order_input_needs_top_level_output, C70_layer_type_list, C70_high_order_keys, C70_conv_normalize_ignored, C71_high_order, C71_high_order_input, C74_conv_first_width, C74_tail_first_width, C76_network_initialisation, C76_mlp_layers, C76_initialised_mlp_affine, C77_network_smoothing, C77_smoothed_mlp_continuous, C77_switch_layers_not_smoothed, C78_normalizations_continuous, C78_mlp_continuous, C79_linear_pieces_stay_between_weights, C79_weights_are_no_bound_refuted, C80_sampling_layers_exist, C81_two_nodes_linear, C81_every_linear_layer, C81_one_segment_is_polynomial, C81_shifting_links, C82_no_interaction, C82_product_no_interaction, C82_xor_without_hidden_layer_refuted, C82_xor_exact_with_hidden_layer, C82_mlp_xor_exact, C84_first_call, C84_later_calls, C84_shift, C84_parameters, C84_continuous, C84_table, C85_fresh_output_constant, C85_first_gradient_zero, C86_piecewise_linear, C86_conv2d_linear, C86_conv1d_linear, C86_product_layers_not_convex_refuted, C87_slope_attained, C87_discontinuous_not_lipschitz_refuted, C91_refinement_keeps_training, C91_without_refinement, C91_no_orders_no_training, C91_fixed_types_lose_training, C91_layers, C89_normalisations, C89_mlp_samples, C89_batch_norm_training_refuted, C90_logits, C90_construction, C90_pixel_order, C90_samples_independent, C90_no_interaction, C90_images, C90_rejected, C92_construction, C92_shape, C92_samples_independent, C92_features, C92_fresh, C92_standard, C92_rejections, C92_single, C92_double, C92_standard_stages, C94_shape, C94_samples_independent, C94_fresh, C94_other_sizes, C94_stages, C93_network, C93_discontinuous_exact, C93_continuous_nd_exact, C93_continuous_error, C95_weights_determined, C95_one_input, C95_agreement_extends, C96_fourier_needs_equal_ends, C97_network, C97_product, C98_batch_norm, C98_batch_norm_accepts, C98_built, C98_only_continuous2d, C98_forward, C98_step, C98_sampled, C98_fresh_ignores_images, C98_shipped, C101_conv2d, C101_conv1d, C101_whole_channels_2d, C101_whole_channels_1d, C101_default, C101_split_channel_refuted, C102_padded_image, C102_too_much_padding, C102_circular_translation, C102_fresh_is_constant, C102_zero_padding_refuted, C103_unvisited_weight, C103_unvisited_weight_1d, C105_inside, C105_differentiable_off_knots, C105_kink, C105_two_nodes, C105_periodic, C105_turning_point, C105_polynomial_smooth, C108_training, C108_no_dropout, C108_all_dropped, C108_dropout_one, C108_mean, C108_unbiased_output_refuted, C109_value, C109_gaps, C109_locality, C109_unvisited_weight, C109_translation, C109_constant, C109_even, C109_checkerboard, C109_rescaled, C109_rescaled_average_refuted, C110_gain_fourier, C110_fourier, C110_large_rate_diverges_refuted, C111_training, C111_weights, C111_all_dropped, C111_average_of_values_refuted, C111_no_dropout, C112_plain, C112_activation, C112_normalization, C112_dropout_evaluation, C112_idempotent_activation, C112_training, C112_zero_layers, C112_adds_previous_result_refuted, C113_value, C113_whole_channels, C113_default, C113_groups_independent, C113_split_channel_refuted, C114_degree_attained, C115_unreached, C115_unreached_gradient, C115_training, C115_training_first_layer, C115_backprop, C115_backprop_input, C115_errors_exist, C115_shares_exist, C116_normalisations, C117_features, C117_transform_mlp, C117_transform_low_mlp, C117_one_rotation, C117_degree_bound.
* `ClassicalDedekindReals.sig_forall_dec`, `ClassicalDedekindReals.sig_not_dec`, `Classical_Prop.classic`, `FunctionalExtensionality.functional_extensionality_dep`:
  C50_sinusoidal_dimensions, C51_loss, C52_sinusoidal, C52_products_depend_on_difference, C54_max_abs, C54_max_center_refuted, C54_max_center_upper, C63_periodic_range, C72_accuracy_and_loss, C72_small_loss_all_right, C72_ignored_label_refuted, C75_monitored, C75_logged, C79_bounded_weights_bound_output, C79_bounded_weights_bound_product, C79_polynomial_layer, C80_near_best_approximation, C80_order_of_convergence, C80_lipschitz, C80_converges, C83_two_layers_approximate, C83_mlp_universal, C87_layer_lipschitz, C87_weight_perturbation, C87_mlp_stable, C88_mlp_universal, C90_continuous_nd_blind, C96_polynomial_converges, C96_fourier_converges, C96_fourier_iff, C97_one_node_constant, C97_segments, C97_terms, C98_loss, C99_error, C99_nodes_exact, C99_two_nodes, C99_exists, C100_segment, C100_error, C100_knots_exact, C100_linear, C100_exists, C103_bounded, C103_rescaled_bounded, C103_bounded_1d, C103_lipschitz, C103_lipschitz_1d, C104_step, C104_untouched, C104_travel_bound, C104_frozen, C104_moves, C104_exact_on_grid, C104_tiny_gradient_refuted, C105_bounded, C106_error, C106_continuous, C106_polynomial, C107_mlp_error, C107_exists, C109_bounded, C109_lipschitz, C110_sum_of_squares, C110_root_bound, C110_gain_piecewise, C110_gain_polynomial, C110_gain_conv2d, C110_piecewise, C110_polynomial, C110_conv2d, C114_pieces, C114_linear, C114_constant, C114_far_away, C114_no_sine, C116_bounded, C116_levels_off, C116_no_wave, C117_quadratic, C117_bivariate.
