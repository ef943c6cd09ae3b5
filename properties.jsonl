{"id": "C01", "title": "Chebyshev-Lobatto nodes are an ordered symmetric grid on [-1,1]", "statement": "chebyshevLobatto(n) returns n points; for n>=2 they are strictly increasing, the first is -1, the last is 1 and the i-th is minus the (n-1-i)-th; for n=1 the single point is 0.", "quantifier": "every number of points n", "why_tests_cant": "n is unbounded; a test samples a few n", "anchors": ["high_order_layers_torch/LagrangePolynomial.py:chebyshevLobatto"]}
{"id": "C02", "title": "Lagrange basis is cardinal and a partition of unity", "statement": "For every n and every length>0 the j-th basis function evaluated at the i-th node is 1 if i=j and 0 otherwise, and at every real x (also outside the nodes' range) the n basis functions add up to 1.", "quantifier": "every n, length, j, node and every real input x", "why_tests_cant": "the input is a continuum and n is unbounded", "anchors": ["high_order_layers_torch/LagrangePolynomial.py:LagrangeBasis.__call__", "high_order_layers_torch/LagrangePolynomial.py:LagrangeBasis1.__call__", "high_order_layers_torch/LagrangePolynomial.py:get_lagrange_basis"]}
{"id": "C03", "title": "A Polynomial layer whose weights sample a polynomial reproduces it exactly", "statement": "If the weights of each link of a Polynomial layer are the values at the nodes of a polynomial of degree < n, the layer's output is the sum over inputs of these polynomials, at every input; in particular the output at a node vector is the sum of the corresponding weights.", "quantifier": "every n, length, feature count, batch, polynomial and real input", "why_tests_cant": "continuum of inputs and of polynomials", "anchors": ["high_order_layers_torch/PolynomialLayers.py:Polynomial", "high_order_layers_torch/PolynomialLayers.py:Function.forward", "high_order_layers_torch/Basis.py:BasisFlat.interpolate"]}
{"id": "C04", "title": "Constant-random initialisation gives a constant layer", "statement": "When all weights of each link are one constant (what the default initialize='constant_random' produces), the output of Polynomial, PiecewisePolynomial and PiecewiseDiscontinuousPolynomial is the sum over inputs of the links' constants whatever the input is; with constants drawn from [0,1)*weight_magnitude/in_features every output lies in [0, weight_magnitude].", "quantifier": "every n, segments, feature counts, random draws, batch and real input", "why_tests_cant": "continuum of inputs and of random draws", "anchors": ["high_order_layers_torch/PolynomialLayers.py:constant_random_initialization", "high_order_layers_torch/PolynomialLayers.py:Function.forward", "high_order_layers_torch/PolynomialLayers.py:Piecewise.forward", "high_order_layers_torch/PolynomialLayers.py:PiecewiseDiscontinuous.forward"]}
{"id": "C05", "title": "Segment selection is total, in range and picks the segment holding x", "statement": "which_segment returns for every input an index between 0 and segments-1; with the default length it is the segment whose interval contains x, the first segment for x below -1 and the last one for x at or above 1; whatever integer the float-to-long conversion yields, the index stays in range.", "quantifier": "every segment count, every real input, every result of the float-to-integer cast", "why_tests_cant": "continuum of inputs, plus cast results outside the representable range", "anchors": ["high_order_layers_torch/PolynomialLayers.py:Piecewise.which_segment", "high_order_layers_torch/PolynomialLayers.py:PiecewiseDiscontinuous.which_segment"]}
{"id": "C06", "title": "Piecewise layers compute, per output, the sum over inputs of one univariate piecewise polynomial per link", "statement": "For an input of shape [batch, in_features] forward succeeds, has shape [batch, out_features], and entry (b,o) is the sum over i of the Lagrange interpolant, through the active segment's weights of link (o,i), at the local coordinate of x[b,i]; the gather/view/permute index arithmetic never mixes batches, inputs, outputs or segments.", "quantifier": "every batch size, feature count, n, segments, weights and input tensor", "why_tests_cant": "index arithmetic over unbounded shapes; tests only check output shapes", "anchors": ["high_order_layers_torch/PolynomialLayers.py:Piecewise.forward", "high_order_layers_torch/PolynomialLayers.py:PiecewiseDiscontinuous.forward", "high_order_layers_torch/Basis.py:Basis.interpolate"]}
{"id": "C07", "title": "Weights are function values at the nodes", "statement": "A continuous or discontinuous piecewise layer evaluated with every input at a global node position (the image of node k of segment s; for the discontinuous layer k not the right end of an interior segment) returns the sum over inputs of the corresponding weights.", "quantifier": "every n>=2, segments, weights, segment index and node index", "why_tests_cant": "unbounded sizes and arbitrary weights", "anchors": ["high_order_layers_torch/PolynomialLayers.py:Piecewise.forward", "high_order_layers_torch/PolynomialLayers.py:Piecewise.x_global"]}
{"id": "C08", "title": "Continuous layers are continuous on the whole real line", "statement": "With the default length, the output of a PiecewisePolynomial layer is a continuous function of the input at every point, including segment boundaries and points outside [-1,1], for all weights; also with mirror periodicity.", "quantifier": "every n, segments, weights, periodicity and input point, every epsilon", "why_tests_cant": "continuity is a for-all-epsilon statement at every point", "anchors": ["high_order_layers_torch/PolynomialLayers.py:Piecewise.forward", "high_order_layers_torch/PolynomialLayers.py:PiecewisePolynomial"]}
{"id": "C09", "title": "Discontinuous layers jump only at interior boundaries, by exactly the difference of the two boundary weights", "statement": "A PiecewiseDiscontinuousPolynomial link (n>=2) is continuous at every point that is not an interior segment boundary; at the boundary between segments s and s+1 its value is the first weight of segment s+1, and its left limit is the last weight of segment s.", "quantifier": "every n>=2, segments, weights, input point", "why_tests_cant": "limits and continuity range over a continuum", "anchors": ["high_order_layers_torch/PolynomialLayers.py:PiecewiseDiscontinuous.forward"]}
{"id": "C10", "title": "Locality: only the active segment's weights matter", "statement": "For each sample and link the output depends on exactly the n weights of the segment selected by that input: two layers that agree on those weights give the same output, whatever their other weights are.", "quantifier": "every pair of weight tensors, every input", "why_tests_cant": "quantifies over all other weight values", "anchors": ["high_order_layers_torch/PolynomialLayers.py:Piecewise.forward", "high_order_layers_torch/PolynomialLayers.py:PiecewiseDiscontinuous.forward"]}
{"id": "C11", "title": "Weight gradients vanish outside the active segments", "statement": "The partial derivative of any output entry with respect to a weight of link (o',i) position p is zero unless o' is that output and p lies in the segment active for input i, where it is the basis function value; so only n weights per link and sample can get a non-zero gradient (sum layers).", "quantifier": "every layer, weight position, batch and input", "why_tests_cant": "derivatives at every point in weight space", "anchors": ["high_order_layers_torch/PolynomialLayers.py:Piecewise.forward", "tests/test_layers.py:test_activation_grad"]}
{"id": "C12", "title": "Samples of a batch do not influence each other", "statement": "Row b of the output of Polynomial, FourierSeries, Piecewise*, Product layers and of the per-sample normalisations depends only on row b of the input.", "quantifier": "every batch size, every pair of batches that agree on one row", "why_tests_cant": "all other rows are arbitrary", "anchors": ["high_order_layers_torch/PolynomialLayers.py:Piecewise.forward", "high_order_layers_torch/PolynomialLayers.py:Function.forward", "high_order_layers_torch/ProductLayer.py:Product.forward", "high_order_layers_torch/utils.py:max_abs_normalization", "high_order_layers_torch/utils.py:max_center_normalization", "high_order_layers_torch/utils.py:max_abs_normalization_nd"]}
{"id": "C13", "title": "make_periodic folds the line onto [-p/2,p/2] as a mirror-periodic triangle wave", "statement": "For p>0 make_periodic(x,p) lies in [-p/2,p/2], equals x on that interval, has period 2p, satisfies f(p-x)=f(x), and is 1-Lipschitz, for every real x.", "quantifier": "every periodicity p>0 and every pair of reals", "why_tests_cant": "continuum of inputs", "anchors": ["high_order_layers_torch/utils.py:make_periodic"]}
{"id": "C14", "title": "Layers built with a periodicity are mirror periodic in every input", "statement": "A piecewise or polynomial layer with periodicity p>0 gives the same output when any input x_i is replaced by x_i+2p or by p-x_i.", "quantifier": "every layer, p>0, input tensor and input coordinate", "why_tests_cant": "continuum of inputs, unbounded sizes", "anchors": ["high_order_layers_torch/PolynomialLayers.py:Piecewise.forward", "high_order_layers_torch/PolynomialLayers.py:Function.forward"]}
{"id": "C15", "title": "p-refinement preserves the layer function", "statement": "After interpolate_polynomial_layer from a layer with n_in nodes to one with n_out>=n_in nodes (same kind, same segments and features) the two layers return the same output for every input, inside and outside [-1,1].", "quantifier": "every n_in<=n_out, segments, features, weights, previous output weights, input", "why_tests_cant": "continuum of inputs; tests use random points in [0,1]", "anchors": ["high_order_layers_torch/PolynomialLayers.py:interpolate_polynomial_layer", "high_order_layers_torch/PolynomialLayers.py:Piecewise.interpolate", "high_order_layers_torch/PolynomialLayers.py:PiecewiseDiscontinuous.interpolate"]}
{"id": "C16", "title": "Interpolating to any order samples the source function at the new nodes", "statement": "For every n_out>=2, also smaller than n_in, after interpolate_polynomial_layer each weight of the target equals the value of the source link's segment polynomial at the target's node; all target weights are overwritten.", "quantifier": "every n_in, n_out>=2, segments, weights", "why_tests_cant": "tests assert nothing when n_out<n_in", "anchors": ["high_order_layers_torch/PolynomialLayers.py:interpolate_polynomial_layer"]}
{"id": "C17", "title": "Interpolation between different segment counts is rejected without side effects", "statement": "interpolate_polynomial_layer raises ValueError exactly when the segment counts differ, before touching the target's weights.", "quantifier": "every pair of layers", "why_tests_cant": "all pairs of sizes and weights", "anchors": ["high_order_layers_torch/PolynomialLayers.py:interpolate_polynomial_layer"]}
{"id": "C18", "title": "h-refinement preserves the layer function when the segment count is a multiple", "statement": "After refine_polynomial_layer from S to k*S segments with n_out>=max(n_in,2) both layers return the same output for every input; for any segment counts the target's weights are the source function's values at the target's nodes; and when the counts are not multiples the function can change (answering the TODO in the code: it is the mathematics, not a bug).", "quantifier": "every S, k>=1, n_in, n_out, features, weights, input", "why_tests_cant": "continuum of inputs and unbounded sizes", "anchors": ["high_order_layers_torch/PolynomialLayers.py:refine_polynomial_layer", "high_order_layers_torch/PolynomialLayers.py:Piecewise.refine"]}
{"id": "C19", "title": "Refining a discontinuous layer always fails and changes nothing", "statement": "refine_discontinuous_polynomial_layer raises ValueError for every pair of layers that have at least one link and one target segment, and leaves the target's weights unchanged.", "quantifier": "every pair of layers", "why_tests_cant": "all sizes and weights", "anchors": ["high_order_layers_torch/PolynomialLayers.py:refine_discontinuous_polynomial_layer", "high_order_layers_torch/PolynomialLayers.py:PiecewiseDiscontinuous.refine"]}
{"id": "C20", "title": "p-refinement preserves the output of a whole HighOrderMLP", "statement": "After interpolate_high_order_mlp between two HighOrderMLPs that differ only in their polynomial order (target order >= source order; layer_type continuous, discontinuous or their switch variants, any normalization and non-linearity modules, no dropout sampling) both networks return the same output for every input; with resnet=True and two or more hidden layers this fails because the summed layers are not visited.", "quantifier": "every network depth, widths, segments, orders, weights, input", "why_tests_cant": "unbounded depth and continuum of inputs; tests use two fixed architectures and random points", "anchors": ["high_order_layers_torch/networks.py:interpolate_high_order_mlp", "high_order_layers_torch/networks.py:HighOrderMLP"]}
{"id": "C21", "title": "hp-refinement preserves the output of a whole continuous HighOrderMLP", "statement": "After hp_refine_high_order_mlp between two continuous (or switch_continuous) HighOrderMLPs where every target layer has a multiple of the source's segments and at least its order (and >=2), both return the same output for every input; for discontinuous networks it raises.", "quantifier": "every depth, widths, segment multiples, orders, weights, input", "why_tests_cant": "unbounded depth and continuum of inputs", "anchors": ["high_order_layers_torch/networks.py:hp_refine_high_order_mlp"]}
{"id": "C22", "title": "Smoothing shrinks every interior jump by exactly 1-factor", "statement": "smooth_discontinuous_layer(factor) with n>=2 multiplies each interior boundary jump by 1-factor, keeps the midpoint of the two boundary weights and every other weight, and k applications multiply the jump by (1-factor)^k; factor 1 makes the layer continuous.", "quantifier": "every n>=2, segments, weights, factor, number of applications", "why_tests_cant": "arbitrary weights, any number of applications", "anchors": ["high_order_layers_torch/PolynomialLayers.py:smooth_discontinuous_layer"]}
{"id": "C23", "title": "Linear initialisation turns every link into one straight line", "statement": "After initialize_polynomial_layer on a PiecewisePolynomial or PiecewiseDiscontinuous layer with n>=2, output o at every input x is sum_i (a_oi*x_i + b_oi) with |a_oi|<=max_slope and |b_oi|<=max_offset, the a and b being the values drawn for that link; other layer types are left untouched.", "quantifier": "every n>=2, segments, features, random draws, input", "why_tests_cant": "continuum of inputs and draws", "anchors": ["high_order_layers_torch/PolynomialLayers.py:initialize_polynomial_layer"]}
{"id": "C24", "title": "Max-abs normalisation keeps every value in [-1,1]", "statement": "For eps>0 every entry of max_abs_normalization (any dim of the tensor), max_abs_normalization_last and max_abs_normalization_nd lies strictly inside (-1,1), signs are preserved, the largest magnitude in each normalised slice m becomes m/(m+eps); with eps=0 and a non-zero slice the largest magnitude becomes 1.", "quantifier": "every tensor shape, contents, eps", "why_tests_cant": "continuum of tensors of unbounded size", "anchors": ["high_order_layers_torch/utils.py:max_abs_normalization", "high_order_layers_torch/utils.py:max_abs_normalization_last", "high_order_layers_torch/utils.py:max_abs_normalization_nd", "high_order_layers_torch/layers.py:MaxAbsNormalization", "high_order_layers_torch/layers.py:MaxAbsNormalizationND", "high_order_layers_torch/layers.py:MaxAbsNormalizationLast"]}
{"id": "C25", "title": "Max-center normalisation is centred and bounded", "statement": "For eps>0 every entry of max_center_normalization (and _last, _nd) is strictly inside (-1,1), and in each normalised slice the largest output is minus the smallest; the result does not change when a constant is added to the slice.", "quantifier": "every tensor, eps, shift", "why_tests_cant": "continuum of tensors of unbounded size", "anchors": ["high_order_layers_torch/utils.py:max_center_normalization", "high_order_layers_torch/utils.py:max_center_normalization_last", "high_order_layers_torch/utils.py:max_center_normalization_nd"]}
{"id": "C26", "title": "L2 normalisation yields vectors of norm below 1", "statement": "For eps>0 the rows of l2_normalization (dim 1) have Euclidean norm < 1 and keep their direction.", "quantifier": "every matrix and eps>0", "why_tests_cant": "continuum of tensors", "anchors": ["high_order_layers_torch/utils.py:l2_normalization"]}
{"id": "C27", "title": "Fourier layers are periodic with period length and bounded by their weights", "statement": "FourierSeries output is unchanged when any input is shifted by an integer multiple of length, and |output_o| <= sum of |w|; neither the periodicity nor the weight_magnitude argument has any effect on it: the layer is the same whatever they are, and its initial weights are the draws divided by in_features, so they lie in [0, 1/in_features).", "quantifier": "every n, length, weights, input, integer shift, weight_magnitude, periodicity", "why_tests_cant": "continuum of inputs", "anchors": ["high_order_layers_torch/LagrangePolynomial.py:FourierBasis.__call__", "high_order_layers_torch/PolynomialLayers.py:FourierSeries"]}
{"id": "C28", "title": "Product units expand to the sum of all sub-products and alpha scales the linear part", "statement": "With alpha=1 both the Product layer (with a zero bias) and the *_prod interpolation return prod(1+f_i)-1; with a single input the *_prod unit equals (2-alpha) times the sum unit, hence the sum unit for the alpha=1 used by the layers; for Product alpha=0 removes the linear part while the Lagrange product units add (1-alpha)*sum, i.e. alpha=0 doubles the linear part, contrary to the README's prose.", "quantifier": "every number of inputs, alpha, weights, input", "why_tests_cant": "unbounded number of factors, continuum of values", "anchors": ["high_order_layers_torch/ProductLayer.py:Product.forward", "high_order_layers_torch/Basis.py:BasisProd.interpolate", "high_order_layers_torch/Basis.py:BasisFlatProd.interpolate"]}
{"id": "C29", "title": "Fixed rotation layer has the announced width and keeps [-1,1]", "statement": "fixed_rotation_layer(n,rotations) returns exactly n+n(n-1)(rotations-1) rows, matching the announced width; the rows come as unit axes plus orthogonal pairs; with normalize each row's absolute weights add up to 1 so inputs in [-1,1] give outputs in [-1,1]; without it every row has Euclidean norm 1; rotations<1 raises ValueError.", "quantifier": "every n>=1 and rotations", "why_tests_cant": "unbounded n and rotations", "anchors": ["high_order_layers_torch/layers.py:fixed_rotation_layer"]}
{"id": "C30", "title": "Mesh positions fill the announced range", "statement": "For width>=2 and height>=1 every entry of each mesh returned by positions_from_mesh lies in [-1,1] (normalize) or [-max/2,max/2], both ends are attained; there are 2*rotations meshes; but for every rotations>=1 the first two meshes are both the x coordinate, so the documented y axis is not where it is announced; a 1x1 mesh raises ZeroDivisionError.", "quantifier": "every width>=2, height>=1, rotations>=1", "why_tests_cant": "unbounded sizes and rotations", "anchors": ["high_order_layers_torch/utils.py:positions_from_mesh"]}
{"id": "C31", "title": "SparseLion freezes zero-gradient coordinates and bounds each step by lr", "statement": "A SparseLion step leaves parameter and momentum unchanged wherever the gradient is 0 and moves every other coordinate by 0 or exactly lr; after k steps a coordinate has moved at most k*lr; momentum stays bounded by the largest gradient magnitude seen; weight_decay never changes any parameter.", "quantifier": "every gradient history, lr>0, betas in [0,1], weight decay", "why_tests_cant": "arbitrary optimisation histories", "anchors": ["high_order_layers_torch/sparse_optimizers/sparse_lion.py:update_fn", "high_order_layers_torch/sparse_optimizers/sparse_lion.py:SparseLion.step"]}
{"id": "C32", "title": "Sparse training never touches segments the data has not visited", "statement": "Training a piecewise layer with SparseLion over any sequence of batches and any loss leaves every weight unchanged whose segment was never active for its input in any batch.", "quantifier": "every history of batches and loss gradients", "why_tests_cant": "arbitrary training histories", "anchors": ["high_order_layers_torch/sparse_optimizers/sparse_lion.py:SparseLion.step", "high_order_layers_torch/PolynomialLayers.py:Piecewise.forward"]}
{"id": "C33", "title": "Basis expansion and fully connected piecewise layer agree", "statement": "For every scalar input, the expansion used by the convolutions (default length 2) has zeros outside the n positions of the active segment, and its dot product with a weight vector is the output of the fully connected piecewise layer with those weights; with one segment it equals the plain Lagrange expansion; for every non-zero length its values add up to one. Tensors of the wrong rank are rejected. For every other non-zero length expansion and layer disagree for some weights and input (they scale the local coordinate differently).", "quantifier": "every n, segments, tensor shape, input, weights", "why_tests_cant": "continuum of inputs; test_compare uses one random tensor", "anchors": ["high_order_layers_torch/Basis.py:PiecewiseExpand.__call__", "high_order_layers_torch/Basis.py:PiecewiseExpand1d.__call__", "high_order_layers_torch/Basis.py:PiecewiseDiscontinuousExpand.__call__", "high_order_layers_torch/Basis.py:PiecewiseDiscontinuousExpand1d.__call__", "high_order_layers_torch/Basis.py:BasisExpand.__call__"]}
{"id": "C34", "title": "Expansion lays out channels as channel-major blocks of basis values", "statement": "Expansion2d/1d turn [B,C,H,W] into [B,C*nb,H,W] where channel c*nb+j holds basis value j of input channel c at the same pixel.", "quantifier": "every shape", "why_tests_cant": "unbounded shapes", "anchors": ["high_order_layers_torch/FunctionalConvolution.py:Expansion2d.__call__", "high_order_layers_torch/FunctionalConvolution.py:Expansion1d.__call__"]}
{"id": "C35", "title": "High-order convolutions sum one link function per receptive-field pixel", "statement": "The output of the Fourier, polynomial and piecewise convolution layers at (b,o,p,q) is rescale times the sum over input channels and kernel offsets of the one-input fully connected layer of the same family, holding the weights of (o,c,offset), applied to the pixel read there; padding pixels contribute 0 (not the function's value at 0). 1d layers likewise, with the same rescale 1/(in*k*k).", "quantifier": "every shape, stride, kernel, weights, input", "why_tests_cant": "unbounded shapes and continuum of inputs", "anchors": ["high_order_layers_torch/FunctionalConvolution.py:PiecewisePolynomialConvolution", "high_order_layers_torch/FunctionalConvolution.py:PolynomialConvolution", "high_order_layers_torch/FunctionalConvolution.py:PiecewiseDiscontinuousPolynomialConvolution"]}
{"id": "C36", "title": "High-order convolutions commute with translations", "statement": "Shifting the input image by a multiple of the stride shifts the output accordingly wherever both receptive fields are inside the image.", "quantifier": "every image, shift, stride, kernel, weights", "why_tests_cant": "unbounded shapes and continuum of inputs", "anchors": ["high_order_layers_torch/FunctionalConvolution.py:PiecewisePolynomialConvolution.forward"]}
{"id": "C37", "title": "Freshly initialised 2d convolutions are constant", "statement": "Right after construction PolynomialConvolution2d, PiecewisePolynomialConvolution2d and PiecewiseDiscontinuousPolynomialConvolution2d (padding 0) return, for each output channel, one value independent of the image and position: the sum of that channel's random constants, which lies between 0 and weight_magnitude. One-dimensional and transposed convolutions and the 2d Fourier ones start with weights drawn uniformly between -m and m instead, where m is weight_magnitude over channels times basis functions times the square of the kernel size (in one dimension too).", "quantifier": "every shape, random draw, image", "why_tests_cant": "continuum of images and draws", "anchors": ["high_order_layers_torch/FunctionalConvolution.py:constant_random_initialization_conv2d"]}
{"id": "C38", "title": "Output-size bookkeeping of convolution and transposed convolution", "statement": "The convolution returns floor((H+2*padding-dilation*(k-1)-1)/stride)+1 positions per direction when the kernel fits and raises otherwise; the transposed convolution returns (H-1)*stride+dilation*(k-1)+output_padding+1-2*padding positions, each the sum of the link functions of all (pixel, offset) pairs landing on it.", "quantifier": "every size for which torch accepts the call", "why_tests_cant": "unbounded sizes", "anchors": ["high_order_layers_torch/FunctionalConvolutionTranspose.py:PiecewisePolynomialConvolutionTranspose", "high_order_layers_torch/FunctionalConvolution.py:conv_wrapper"]}
{"id": "C39", "title": "Tail-focus networks: what they output and what they announce", "statement": "HighOrderTailFocusNetwork.forward returns, for every sample, the last columns of the input and of each normalised activation (as many as the python slice -focus: keeps), then the whole last activation, in this order; without a normalization only the tail of the input and the last activation. With padding 0 and a stride compute_sizes announces the real layer widths, and with a normalization and every focus between 1 and the corresponding width its output_sizes add up to the width of the output; for any other focus the announced size of that tail is wrong. Without stride compute_sizes raises TypeError; without focus forward does.", "quantifier": "every list of kernel sizes, strides, channels, foci, weights and input size", "why_tests_cant": "unbounded lists, all weights", "anchors": ["high_order_layers_torch/networks.py:HighOrderTailFocusNetwork.compute_sizes", "high_order_layers_torch/networks.py:HighOrderTailFocusNetwork.forward"]}
{"id": "C40", "title": "N-dimensional Lagrange basis: enumeration, nodal values, exactness, sign and periodicity", "statement": "The index table of LagrangeBasisND(n) lists every multi-index exactly once; each basis function is 0 at every other grid point and (-1)^(sum(n_d-1)) at its own. Hence a PolynomialND layer whose weights are samples of polynomials of degree < n_d in variable d returns the sum over inputs of these polynomials times that sign, and at a grid point it returns the weight when sum(n_d-1) is even and MINUS the weight when it is odd (e.g. n=[3,2], or [2,2,2]). With a periodicity p the output does not change when coordinates move by 2p or are mirrored at p/2, and between -p/2 and p/2 it is the output without periodicity. An input [B, D] without batch dimension is not rejected: its B points are taken for the inputs of one sample, so a layer with one input returns a single row holding the sum over the points, one with B inputs treats x as x[None], and any other number of points (except one) raises. An integer n is rejected with TypeError.", "quantifier": "every non-empty list of node counts, every nonzero length, every number of inputs/outputs, every weight tensor, every input batch, every positive periodicity", "why_tests_cant": "unbounded dimension count and a continuum of inputs and polynomials; the sign only shows for some node-count lists", "anchors": ["high_order_layers_torch/LagrangePolynomial.py:LagrangeBasisND._compute_basis", "high_order_layers_torch/LagrangePolynomial.py:LagrangeBasisND._compute_indexes", "high_order_layers_torch/LagrangePolynomial.py:LagrangeBasisND.interpolate", "high_order_layers_torch/PolynomialLayers.py:PolynomialND"]}
{"id": "C41", "title": "PiecewiseND: which weights it uses, what it computes and when it fails", "statement": "A PiecewiseND built with the default constant_random initialisation (>=2 dimensions) accepts every batch [B, J, D] (any J), its weight indices are always in range, all its output features are equal and only the weights of the first link (input 0, output 0) are used. In every cell of the grid of segments the output is, up to the sign of C40, the sum over inputs of the polynomial interpolating that cell's weights at the local coordinates. A fresh layer is constant. With one dimension, or an input without batch dimension, every call raises IndexError; with constant_random=False (>=2 outputs) every call raises; an integer n without dimensions raises ValueError.", "quantifier": "every n, segments (lists of equal length >=2, entries >=1), features, weights, batch and inputs", "why_tests_cant": "continuum of inputs and weights, unbounded dimensions", "anchors": ["high_order_layers_torch/PolynomialLayers.py:PiecewiseND.forward", "high_order_layers_torch/PolynomialLayers.py:PiecewiseND._get_weight_indices", "high_order_layers_torch/PolynomialLayers.py:PiecewiseND._reshape_weights"]}
{"id": "C42", "title": "Layer factories: unknown names are rejected, and some announced names can never be built", "statement": "high_order_fc_layers, high_order_convolution_layers and high_order_convolution_transpose_layers raise ValueError for names not in their tables; for names in the tables ValueError only arises for continuous_{2..5}d with an integer n. Of the announced names, polynomial_prod, polynomial_{2..5}d with an integer n, fourier1d and the four None entries can never be constructed whatever the other arguments; every other name builds the class the table announces.", "quantifier": "every name and argument choice", "why_tests_cant": "all strings and all arguments", "anchors": ["high_order_layers_torch/layers.py:high_order_fc_layers", "high_order_layers_torch/layers.py:high_order_convolution_layers", "high_order_layers_torch/layers.py:high_order_convolution_transpose_layers"]}
{"id": "C43", "title": "HighOrderMLP wires widths consistently; HighOrderMLPList and HighOrderMultiMLP do not", "statement": "HighOrderMLP with any numbers of hidden layers maps [B,in_width] to [B,out_width] and contains hidden_layers+2 high-order layers; HighOrderMLPList always contains only its first layer, so its output width is width[1]; HighOrderMultiMLP can never be constructed.", "quantifier": "every depth, width, batch", "why_tests_cant": "unbounded depth", "anchors": ["high_order_layers_torch/networks.py:HighOrderMLP", "high_order_layers_torch/networks.py:HighOrderMLPList", "high_order_layers_torch/networks.py:HighOrderMultiMLP", "high_order_layers_torch/networks.py:LowOrderMLP"]}
{"id": "C44", "title": "scale, rescale_output and initialization have no effect in HighOrderMLP", "statement": "Two HighOrderMLP constructions that differ only in scale, rescale_output or initialization and see the same random draws have the same outcome (the same network, or the same exception), for every layer type of the factory; other arguments such as the number of segments do matter.", "quantifier": "every argument choice, layer type and random draw", "why_tests_cant": "all values of the ignored arguments and all layer types", "anchors": ["high_order_layers_torch/networks.py:HighOrderMLP", "high_order_layers_torch/PolynomialLayers.py:PiecewisePolynomial"]}
{"id": "C45", "title": "SwitchLayer multiplies its branches, but exposes no trainable parameters", "statement": "SwitchLayer.forward is the elementwise product of its branch outputs (then normalised); parameters() of a SwitchLayer without normalisation and of a SumLayer yields nothing, so parameters() of a switch_* HighOrderMLP of any depth is empty (normalisation and activation having no parameters), and a residual HighOrderMLP of any depth exposes parameters of at most three of its modules.", "quantifier": "every branch count, depth, weights, input", "why_tests_cant": "all sizes, depths and inputs", "anchors": ["high_order_layers_torch/layers.py:SwitchLayer", "high_order_layers_torch/layers.py:SumLayer", "high_order_layers_torch/networks.py:HighOrderMLP"]}
{"id": "C46", "title": "Attention weights are a probability distribution and the context a convex combination", "statement": "For ScaledDotProduct, DotProduct, Additive and LocationAware attention every row of attn is non-negative and sums to 1, ranks positions by the documented score (softmax, or normalised sigmoid when smoothing), and each context component is the weighted average of the values, hence between their min and max; masked positions get weight 0 and cannot influence the result. A row whose positions are all masked is NaN.", "quantifier": "every shape, query, key, value, mask, previous attention", "why_tests_cant": "continuum of inputs and unbounded shapes", "anchors": ["high_order_layers_torch/attentions.py:ScaledDotProductAttention.forward", "high_order_layers_torch/attentions.py:DotProductAttention.forward", "high_order_layers_torch/attentions.py:LocationAwareAttention.forward", "high_order_layers_torch/attentions.py:AdditiveAttention.forward"]}
{"id": "C47", "title": "Multi-head attention applies each sample's mask to that sample", "statement": "MultiHeadAttention applies mask b to all heads of sample b when the batch size or the number of heads is 1 or all samples share the mask; with at least two samples and two heads the code applies sample (h*B+b) div heads' mask instead, so some mask is applied to the wrong sample.", "quantifier": "every batch size, head count, mask", "why_tests_cant": "unbounded sizes", "anchors": ["high_order_layers_torch/attentions.py:MultiHeadAttention.forward"]}
{"id": "C48", "title": "Multi-head location-aware attention pairs weights and values of the same head and time only in degenerate cases", "statement": "The second view/permute of value reads row t*heads+h of the head-major buffer where h*seq_len+t is needed; attn and values match exactly when heads=1 or seq_len=1 and otherwise some pair is mismatched.", "quantifier": "every batch, heads, seq_len", "why_tests_cant": "unbounded sizes", "anchors": ["high_order_layers_torch/attentions.py:MultiHeadLocationAwareAttention.forward"]}
{"id": "C49", "title": "Relative shift aligns position scores", "statement": "_compute_relative_positional_encoding of a TxT score returns at (i,j), j<=i, the score at (i, T-1-(i-j)); 0 at j=i+1; and always keeps the shape.", "quantifier": "every batch, head count, T1, T2", "why_tests_cant": "unbounded sizes", "anchors": ["high_order_layers_torch/attentions.py:RelativeMultiHeadAttention._compute_relative_positional_encoding"]}
{"id": "C50", "title": "Broken entry points fail for every input", "statement": "CustomizingAttention.forward raises for every input, and raises TypeError whenever the shapes fit; Product built with bias=False raises on every forward, TypeError when the input has the right width; FourierSeriesEmbedding returns None for all arguments; ClassicSinusoidalEmbedding rejects every odd dim, accepts dim=2 and then divides by zero on every call. The other two embeddings are the continuous and the discontinuous piecewise layer with the arguments given.", "quantifier": "every argument and input", "why_tests_cant": "all inputs", "anchors": ["high_order_layers_torch/attentions.py:CustomizingAttention.forward", "high_order_layers_torch/ProductLayer.py:Product.forward", "high_order_layers_torch/positional_embeddings.py:FourierSeriesEmbedding", "high_order_layers_torch/positional_embeddings.py:ClassicSinusoidalEmbedding"]}
{"id": "C51", "title": "VAE loss terms are non-negative", "statement": "loss_function returns mean squared error plus M_N times the mean over the batch of the summed divergences (mu^2+exp(log_var)-1-log_var)/2; both terms are >=0, the first is 0 exactly for a perfect reconstruction, the second exactly when mu and log_var vanish; so the loss is >=0 for a non-negative weight; the reported KLD is the negated divergence. Without M_N it raises KeyError, with fewer than four arguments IndexError.", "quantifier": "every batch, mu, log_var, recon, input, weight", "why_tests_cant": "continuum of inputs", "anchors": ["high_order_layers_torch/networks.py:VanillaVAE.loss_function"]}
{"id": "C52", "title": "Sinusoidal embedding lies on circles and encodes differences", "statement": "For even dim>=4 the embedding of a tensor of any shape appends a dimension of size dim holding sin(x w_k) and cos(x w_k) for dim/2 frequencies from 1 to 1/10000; every entry is in [-1,1], paired squares sum to 1, x=0 maps to (0..0,1..1); the scalar product of two embedded positions depends on their difference only.", "quantifier": "every dim, shape, x", "why_tests_cant": "continuum of inputs", "anchors": ["high_order_layers_torch/positional_embeddings.py:ClassicSinusoidalEmbedding.forward"]}
{"id": "C53", "title": "Length other than 2 breaks continuity and the documented domain", "statement": "Contrary to the docstring (length 4 means defined on [-2,2]) a PiecewisePolynomial with length different from 2 need not be continuous nor interpolate its weights on [-length/2,length/2]: segment boundaries are computed from length but node positions and the polynomial always use [-1,1].", "quantifier": "exists a layer and weights; positive part: every layer with length 2", "why_tests_cant": "needs an argument about all points of the domain", "anchors": ["high_order_layers_torch/PolynomialLayers.py:Piecewise._eta", "high_order_layers_torch/PolynomialLayers.py:Piecewise.forward", "high_order_layers_torch/Basis.py:PiecewiseExpand._eta"]}
{"id": "C54", "title": "Max-abs normalisation stays in [-1,1] in floating point; centred normalisation does not", "statement": "With every operation rounded to nearest in a binary format, max_abs_normalization of finite numbers lies in [-1,1] and differs from the real-number result by at most 2^(1-prec)+2^(emin-1). max_center_normalization never exceeds 1 but has no lower bound of -1: in binary32 the pair 16777215, 16777216 is mapped below -500000 with the default eps.", "quantifier": "every finite tensor, dim, eps, binary format", "why_tests_cant": "2^32 values per entry, unbounded shapes", "anchors": ["high_order_layers_torch/utils.py:max_abs_normalization", "high_order_layers_torch/utils.py:max_center_normalization"]}
{"id": "C55", "title": "Local and global coordinates are inverse to each other", "statement": "x_local(x_global(t,s),s)=t and x_global(x_local(x,s),s)=x for all reals, every segment and every non-zero length; segment ends map to the ends of the local interval.", "quantifier": "every segments>=1, segment index, length, real", "why_tests_cant": "continuum of inputs", "anchors": ["high_order_layers_torch/PolynomialLayers.py:Piecewise.x_local", "high_order_layers_torch/PolynomialLayers.py:Piecewise.x_global"]}
{"id": "C56", "title": "Product layers cannot be p-refined", "statement": "interpolate_polynomial_layer from a piecewise product layer (equal segment counts) always raises UnboundLocalError and leaves the target's weights unchanged, because the offsets are only bound for the two sum classes.", "quantifier": "every product layer, target and weights", "why_tests_cant": "a test checks one pair of layers; the claim is about all of them and about the absence of partial writes", "anchors": ["high_order_layers_torch/PolynomialLayers.py:757-812"]}
{"id": "C57", "title": "p-refinement from a continuous into a discontinuous layer is accepted but wrong", "statement": "interpolate_polynomial_layer from a PiecewisePolynomial to a PiecewiseDiscontinuousPolynomial with the same two or more segments raises nothing, yet for every source there is a target whose function afterwards differs from the source: the weights are written with the source's layout and the last ones stay stale.", "quantifier": "every source layer with >=2 segments, every target order >=2", "why_tests_cant": "shows the failure for every source, not one example", "anchors": ["high_order_layers_torch/PolynomialLayers.py:757-812"]}
{"id": "C58", "title": "Smoothing piecewise constant layers fails", "statement": "smooth_discontinuous_layer with n=1 and two or more segments always raises RuntimeError; except for three segments the weights are untouched (with three segments the left nodes have already been overwritten).", "quantifier": "every layer with n=1, every factor", "why_tests_cant": "quantifies over all segment counts, weights and factors", "anchors": ["high_order_layers_torch/PolynomialLayers.py:951-969"]}
{"id": "C59", "title": "SumLayer adds exactly two layers", "statement": "SumLayer.forward returns the elementwise sum of the outputs of its two layers when they have the same shape; given any other number of layers it raises on every input.", "quantifier": "every list of layers and input", "why_tests_cant": "all layers, shapes and inputs", "anchors": ["high_order_layers_torch/layers.py:SumLayer"]}
{"id": "C60", "title": "Attention does not depend on the order of the keys", "statement": "Reordering keys and values (and the mask columns) by the same permutation leaves the context of ScaledDotProductAttention unchanged and permutes the weights.", "quantifier": "every permutation, shape, query, key, value", "why_tests_cant": "all permutations of unbounded length and real data", "anchors": ["high_order_layers_torch/attentions.py:ScaledDotProductAttention.forward"]}
{"id": "C61", "title": "Relative multi-head attention never produces NaN", "statement": "RelativeMultiHeadAttention.forward returns real numbers for every mask: each row of weights is the softmax of (content + shifted position score)/sqrt(d_model), masked entries replaced by -1e9, so masked keys keep a positive weight and a fully masked row is uniform; the output is the affine out_proj of the concatenated head averages.", "quantifier": "every batch, heads, lengths with at most one more query than keys, mask, weights", "why_tests_cant": "continuum of inputs and unbounded shapes", "anchors": ["high_order_layers_torch/attentions.py:RelativeMultiHeadAttention.forward"]}
{"id": "C62", "title": "VAE forward samples mean plus scaled noise", "statement": "VanillaVAE.forward returns the decoded sample, the input itself, mu and log_var; mu and log_var are affine in the flattened encoder output of the same sample, and the decoder receives a [B, in_channels, 1, 1] tensor that is an affine image of mu + noise*exp(log_var/2); generate returns the first component.", "quantifier": "every encoder, decoder, weights, noise, input", "why_tests_cant": "continuum of inputs, arbitrary modules", "anchors": ["high_order_layers_torch/networks.py:VanillaVAE.forward", "high_order_layers_torch/networks.py:VanillaVAE.reparameterize", "high_order_layers_torch/networks.py:VanillaVAE.encode", "high_order_layers_torch/networks.py:VanillaVAE.decode"]}
{"id": "C63", "title": "Periodic folding stays in range in floating point", "statement": "make_periodic with every operation rounded to nearest returns a value in [-p/2,p/2] for every x, when p/2 is representable.", "quantifier": "every x, p, binary format", "why_tests_cant": "2^32 values", "anchors": ["high_order_layers_torch/utils.py:make_periodic"]}
{"id": "C64", "title": "Constructing a fully convolutional network never validates list lengths", "statement": "HighOrderFullyConvolutionalNetwork raises ValueError only for fewer than two channels or an unknown layer type; its length checks never fire. Entries beyond the last layer are ignored, a scalar means the list repeating it, and a list that is too short raises IndexError when the missing entry is read.", "quantifier": "every list of layer types, orders, channels, segments, kernel sizes, strides and every depth", "why_tests_cant": "unbounded lists and depths", "anchors": ["high_order_layers_torch/networks.py:HighOrderFullyConvolutionalNetwork.__init__", "high_order_layers_torch/networks.py:scalar_to_list"]}
{"id": "C65", "title": "The output of a fully convolutional network is the global average of its last layer, one number per output channel", "statement": "With pooling matching the dimension of the layers, the output has shape [batch, output_size] and entry (b,c) is the mean of channel c of the last activation. With the default pooling '2d' on 1d layers (or '3d' on 2d) the network averages over channels as well and returns one column whatever output_size says; any other pooling name leaves the last activation flattened.", "quantifier": "every depth, weights, input size and batch", "why_tests_cant": "unbounded depths and sizes, all weights", "anchors": ["high_order_layers_torch/networks.py:HighOrderFullyConvolutionalNetwork.forward", "high_order_layers_torch/networks.py:HighOrderFullyConvolutionalNetwork.output_size"]}
{"id": "C66", "title": "Fully convolutional networks treat samples separately, and start as constant functions", "statement": "The output of HighOrderFullyConvolutionalNetwork for one sample depends on that sample only (normalisations being samplewise). A freshly built network of non-Fourier 2d layers gives the same output for all inputs of the same shape, for every depth, padding and draw of random numbers.", "quantifier": "every depth, weights, padding, batch and pair of inputs", "why_tests_cant": "all pairs of inputs and all random draws", "anchors": ["high_order_layers_torch/networks.py:HighOrderFullyConvolutionalNetwork.forward", "high_order_layers_torch/networks.py:HighOrderFullyConvolutionalNetwork.__init__"]}
{"id": "C67", "title": "Deconvolutional networks: sizes, samples, and mirroring a convolutional network", "statement": "HighOrderFullyDeconvolutionalNetwork can only be built of continuous2d layers; every layer turns a width w into (w-1)*stride+kernel-2*padding; samples are treated separately; and a network with the kernels, strides and padding of a convolutional network in reverse order restores the width that network started from whenever (w+2*padding-kernel) is divisible by the stride at each of its layers.", "quantifier": "every depth, arguments, weights and input size", "why_tests_cant": "unbounded depths and sizes, all weights", "anchors": ["high_order_layers_torch/networks.py:HighOrderFullyDeconvolutionalNetwork.__init__", "high_order_layers_torch/networks.py:HighOrderFullyDeconvolutionalNetwork.forward", "high_order_layers_torch/layers.py:high_order_convolution_transpose_layers"]}
{"id": "C68", "title": "Batch normalisation of configured convolutional networks", "statement": "The convolutional networks built by select_network always normalise after every layer, but with the channel count used as epsilon: LazyBatchNorm1d(channels) passes the count as first positional argument. In eval mode a value v of channel c becomes (v-mean)/sqrt(var+k)*weight+bias with k the number of channels; a fresh network divides by sqrt(1+k) instead of leaving its input (nearly) unchanged; in training mode the normalised batch has variance weight^2*var/(var+k), not weight^2.", "quantifier": "every configuration, layer, state of the normalisations and input", "why_tests_cant": "all states and inputs; the deviation depends on the channel count", "anchors": ["high_order_layers_torch/modules.py:select_network", "high_order_layers_torch/networks.py:HighOrderFullyConvolutionalNetwork.__init__", "high_order_layers_torch/networks.py:HighOrderTailFocusNetwork.__init__"]}
{"id": "C69", "title": "Configured two-dimensional convolutional networks fail on every input", "statement": "If the first layer type of a configuration for high_order_conv or high_order_tail_focus is a 2d type, select_network may succeed, but the model raises on every input whatsoever, in training and in eval mode.", "quantifier": "every configuration with a 2d first layer, every draw, state and input of any shape", "why_tests_cant": "failure for all inputs is a universal statement", "anchors": ["high_order_layers_torch/modules.py:select_network", "config/cifar100_config.yaml"]}
{"id": "C70", "title": "Which configuration keys matter to select_network", "statement": "An unknown model type raises ValueError only if the configuration has a top level key model_type, AttributeError otherwise; high_order_input can never be built from net.output.width alone; for high_order the keys n_hidden, periodicity and rescale_output have no effect (n_in is used for hidden layers), and neither has n when n_in and n_out are given; for the convolutional models the value of normalize has no effect.", "quantifier": "every pair of configurations agreeing on the listed keys", "why_tests_cant": "independence of a key quantifies over all its values and all other keys", "anchors": ["high_order_layers_torch/modules.py:select_network", "config/net"]}
{"id": "C72", "title": "Logged loss and accuracy of the classification modules", "statement": "For labels in range the step logs name_loss and name_acc: the loss is the mean negative log of the softmax probability of the label, the accuracy the fraction of samples whose first largest logit is at the label; (1-accuracy)*ln 2 <= loss, so a loss below ln 2/batch means all predictions are right. The bound fails with ignored labels (-100): they count as wrong predictions but not for the loss.", "quantifier": "every batch, number of classes, logits and labels", "why_tests_cant": "real-analytic inequality over all logits", "anchors": ["high_order_layers_torch/modules.py:ClassificationMixin.eval_step"]}
{"id": "C73", "title": "Loss of the regression modules", "statement": "The loss is the mean square of the differences of the flattened tensors, non-negative and zero exactly if they agree; outputs of shape [B,1] are compared with targets of shape [B] sample by sample (no B by B broadcast); different numbers of elements raise RuntimeError, unless one of them is 1, which is silently broadcast.", "quantifier": "every pair of shapes and contents", "why_tests_cant": "all shapes and values", "anchors": ["high_order_layers_torch/modules.py:RegressionMixin.eval_step"]}
{"id": "C75", "title": "Configured optimizer, logged names and monitored quantity", "statement": "configure_optimizers returns the optimizer named in the configuration with its learning rate and all parameters; training, validation and test steps log their quantities under names starting with train_, val_ and test_; a scheduler monitors train_loss, which every training step logs exactly once with the value of the loss and which no validation or test step logs.", "quantifier": "every optimizer configuration, outputs and targets", "why_tests_cant": "all configurations and steps", "anchors": ["high_order_layers_torch/modules.py:PredictionNetMixin.configure_optimizers", "high_order_layers_torch/modules.py:ClassificationMixin", "high_order_layers_torch/modules.py:RegressionMixin"]}
{"id": "C71", "title": "Depth and widths of configured fully connected networks", "statement": "From a configuration with constructible flat layers select_network builds, for high_order, an input layer, hidden.layers hidden layers (with the order of the input layer) and an output layer; for high_order_input one high order layer, a normalisation if normalize is set, and a LowOrderMLP with max(hidden.layers-1,0) hidden layers. In eval mode the model maps [batch,input.width] to [batch,output.width] for all weights and states of the normalisations.", "quantifier": "every configuration, weights, normalisation state and batch", "why_tests_cant": "unbounded depth and widths, all weights", "anchors": ["high_order_layers_torch/modules.py:select_network", "high_order_layers_torch/networks.py:HighOrderMLP", "high_order_layers_torch/networks.py:LowOrderMLP"]}
{"id": "C74", "title": "The first batch fixes the widths a configured convolutional network accepts", "statement": "The LazyLinear layer behind high_order_conv and high_order_tail_focus models takes its size from the first input. Any width the kernels fit is accepted as the first one and gives [batch,out_features]; afterwards, whatever training does, exactly those widths that lead to the same number of columns are accepted, all others raise RuntimeError.", "quantifier": "every 1d architecture, weights, normalisation state, pair of widths and batch sizes", "why_tests_cant": "pairs of widths and all architectures and weights", "anchors": ["high_order_layers_torch/modules.py:select_network"]}
{"id": "C76", "title": "Network initialisation makes every layer linear", "statement": "initialize_network_polynomial_layers on a network whose layers have n>=2 turns every link of every piecewise layer, including the branches of switch layers, into one straight line with |slope| <= max_slope*scale_slope(fan-in) and |offset| <= max_offset, the fan-in of a branch being that of its switch layer; PiecewisePolynomialProd layers, other modules and everything outside the network are unchanged. A HighOrderMLP of continuous and discontinuous layers without periodicity, normalization and activation is then an affine function of each sample.", "quantifier": "every heap of modules, network, HighOrderMLP configuration, trained weights, random draws, slope, offset and scale function, input", "why_tests_cant": "continuum of inputs, weights and draws, every network depth", "anchors": ["high_order_layers_torch/networks.py:initialize_network_polynomial_layers", "high_order_layers_torch/PolynomialLayers.py:initialize_polynomial_layer"]}
{"id": "C77", "title": "Network smoothing reaches exactly the registered discontinuous layers", "statement": "smooth_discontinuous_network(factor) smooths each discontinuous layer registered below network.model exactly once by smooth_discontinuous_layer and changes nothing else; factor 1 turns any HighOrderMLP of continuous and discontinuous layers (n>=2, continuous activation and normalization) into a continuous function of each sample; the branches of switch layers are not registered, so a network of switch layers is left as it was, with all its jumps.", "quantifier": "every heap of modules, network, trained weights, factor, depth, number of points and segments", "why_tests_cant": "continuity over all inputs and weights, every network shape", "anchors": ["high_order_layers_torch/networks.py:smooth_discontinuous_network", "high_order_layers_torch/PolynomialLayers.py:smooth_discontinuous_layer", "high_order_layers_torch/networks.py:HighOrderMLP"]}
{"id": "C78", "title": "Networks of continuous layers are continuous", "statement": "A HighOrderMLP of type continuous or switch_continuous, with a continuous activation and normalization and positive periodicity if any, is a continuous function of each sample on all of space for any trained weights; ReLU, elementwise continuous functions and the max-abs, max-center and l2 normalizations with eps>0 are such activations and normalizations.", "quantifier": "every configuration, weights, depth, batch, input", "why_tests_cant": "epsilon-delta statement over a continuum of inputs", "anchors": ["high_order_layers_torch/networks.py:HighOrderMLP", "high_order_layers_torch/PolynomialLayers.py:PiecewisePolynomial", "high_order_layers_torch/utils.py"]}
{"id": "C79", "title": "Bounded weights bound the layer", "statement": "On inputs in [-1,1] (anywhere with a positive periodicity fold into it) a polynomial or piecewise layer of n>=2 nodes whose weights are at most W in absolute value has outputs at most in_features*2(n-1)*W (product layers: |1+y| <= (1+2(n-1)W)^in_features); with n<=2 every output stays between in_features times the smallest and largest weight. With n>=3 the output can exceed every weight between the nodes.", "quantifier": "every class, order, number of segments, weights, inputs in range", "why_tests_cant": "supremum over a continuum of inputs and all weights", "anchors": ["high_order_layers_torch/PolynomialLayers.py:Polynomial", "high_order_layers_torch/PolynomialLayers.py:PiecewisePolynomial", "high_order_layers_torch/PolynomialLayers.py:PiecewiseDiscontinuousPolynomial", "README.md"]}
{"id": "C80", "title": "Adding segments or nodes improves approximation at the stated order", "statement": "A layer whose weights are samples of functions f_i at its nodes is within in_features*2n*E of sum f_i(x_i) when each f_i is within E of some polynomial of degree below n on each segment; hence the error is at most in_features*2n*M/n!*(2/segments)^n when the n-th derivatives are bounded by M, at most in_features*4nL/segments for Lipschitz functions, and tends to 0 with the number of segments for all continuous functions. Such sampling layers exist for every number of nodes, segments and features.", "quantifier": "every sum layer class, order, segment count, target functions, inputs in [-1,1]", "why_tests_cant": "asymptotic error bound over a continuum of inputs and all target functions", "anchors": ["high_order_layers_torch/PolynomialLayers.py:PiecewisePolynomial", "high_order_layers_torch/PolynomialLayers.py:PiecewiseDiscontinuousPolynomial", "README.md"]}
{"id": "C81", "title": "Two nodes are linear, one segment is the plain polynomial layer", "statement": "Polynomial with n=2 computes an affine map with matrix (w1-w0)/2 and bias sum (w1+w0)/2 on all of space and every affine map is reached by some weights; a piecewise layer with one segment returns the same tensor as Polynomial with the same weights; adding a constant to all weights of each link shifts the output by the sum of the constants, so different weights represent the same function.", "quantifier": "every weights, inputs, batch, features, order", "why_tests_cant": "equality of functions on all inputs", "anchors": ["high_order_layers_torch/PolynomialLayers.py:Polynomial", "high_order_layers_torch/PolynomialLayers.py:PiecewisePolynomial", "README.md"]}
{"id": "C82", "title": "One layer has no interaction between inputs; xor needs a hidden layer", "statement": "For a single sum layer the effect of changing one input does not depend on another input, for a product layer the same holds multiplicatively; hence no single layer of any type, order and weights comes closer than 1/2 to the xor function of the example, while two discontinuous layers with two hidden units and two segments match it exactly off the axes and no continuous network comes closer than 1/2. The 2-2-1 HighOrderMLP of discontinuous layers with two segments can be given weights that do so.", "quantifier": "every layer, order, segments, weights; every continuous function", "why_tests_cant": "impossibility over all weights", "anchors": ["examples/xor.py", "high_order_layers_torch/PolynomialLayers.py:PiecewiseDiscontinuousPolynomial", "high_order_layers_torch/PolynomialLayers.py:PiecewisePolynomialProd", "README.md"]}
{"id": "C83", "title": "Two discontinuous layers approximate every continuous function", "statement": "For every number n>=1 of nodes, every continuous function from the cube [-1,1]^d to R^m and every eps>0 there are two PiecewiseDiscontinuousPolynomial layers with one hidden unit between them whose composition is within eps of it on the whole cube. The same holds for HighOrderMLP of type discontinuous of every depth and hidden width, given enough segments.", "quantifier": "every dimension, continuous function, eps, n, depth, hidden width", "why_tests_cant": "existence for every continuous function", "anchors": ["high_order_layers_torch/PolynomialLayers.py:PiecewiseDiscontinuousPolynomial", "high_order_layers_torch/networks.py:HighOrderMLP", "README.md"]}
{"id": "C84", "title": "Lazy layer normalisation and the table of normalisations", "statement": "LazyLayerNormLastDim takes its size from the last dimension of its first input; the output of that call has mean 0, mean square var/(var+1e-5) and the order of the entries along the last dimension and is bounded by sqrt(size); later inputs with another last dimension raise RuntimeError and no later call changes the module; adding a constant along the last dimension does not change the output; with trained weights each row is mapped continuously. parameters() is empty before the first call, and for good if the first input is on another device than new parameters. normalization_layers knows exactly max_abs, max_center, l2 and layer_norm and each maps batches of rows to the same shape.", "quantifier": "every input shape, sequence of calls, weights, device", "why_tests_cant": "all inputs and call histories", "anchors": ["high_order_layers_torch/layers.py:LazyLayerNormLastDim", "high_order_layers_torch/layers.py:normalization_layers"]}
{"id": "C85", "title": "A freshly built HighOrderMLP is constant and its first step trains only the output layer", "statement": "The output of a newly constructed HighOrderMLP is one constant per output, between 0 and 1, for every input and batch; it does not depend on the weights of any layer but output_layer, so whatever the loss, its gradient in the weights of all other layers is zero in the first step.", "quantifier": "every depth, width, order, number of segments, continuous, discontinuous and switch types, normalisation, activation, input, draw, loss", "why_tests_cant": "all draws, inputs, losses and weights", "anchors": ["high_order_layers_torch/networks.py:HighOrderMLP", "high_order_layers_torch/PolynomialLayers.py:Piecewise", "high_order_layers_torch/layers.py:high_order_fc_layers"]}
{"id": "C86", "title": "Layers are linear in their weights; regression with one layer has no spurious minima", "statement": "The outputs of continuous and discontinuous piecewise, Polynomial and FourierSeries layers and of all 1d and 2d high-order convolutions are linear functions of the weights, for fixed inputs. The regression loss of such a layer is therefore convex in the weights, and weights that cannot be improved to first order or by small changes are a global minimum. Product layers are not: half-way between two settings without error there can be an error.", "quantifier": "every layer size, weights, inputs, targets", "why_tests_cant": "convexity and global optimality quantify over all weights", "anchors": ["high_order_layers_torch/PolynomialLayers.py:Piecewise", "high_order_layers_torch/PolynomialLayers.py:Function", "high_order_layers_torch/FunctionalConvolution.py", "high_order_layers_torch/modules.py:RegressionMixin"]}
{"id": "C87", "title": "Inputs and weights move the output of continuous layers and networks by a bounded amount", "statement": "For a continuous piecewise layer (length 2, n nodes, S segments) whose weights are at most W in size and inputs in range (after periodic folding), |out(v) - out(v')| <= W * (n-1)(2(n-1)^2+1)/3 * S * sum_i |v_i - v'_i|; the constant is attained for n = 2. Discontinuous layers have no such constant. Replacing the weights of any sum layer by weights at most delta away moves every output by at most in_features * 2(n-1) * delta. For a HighOrderMLP of continuous layers in two states whose weights are small enough to keep every layer in range (in_features * 2(n-1) * |w| <= 1), changing inputs by at most e and weights by at most delta moves the outputs by at most G^(K+2) e + 2 M (n-1) delta sum_{j<K+2} G^j, with K hidden layers, widths at most M, segments at most S and G = S(2(n-1)^2+1)/6.", "quantifier": "all numbers of nodes, segments, widths and depths, all weights within the bounds, all inputs in range", "why_tests_cant": "A test samples finitely many pairs of inputs or weights; the bound is a supremum over all of them and over all layer sizes.", "anchors": ["high_order_layers_torch/PolynomialLayers.py:Piecewise.forward", "high_order_layers_torch/LagrangePolynomial.py:LagrangePoly.interpolate", "high_order_layers_torch/networks.py:HighOrderMLP.forward"]}
{"id": "C88", "title": "HighOrderMLP with continuous layers approximates every continuous function", "statement": "Let f be a continuous function from [-1,1]^d to R^m and eps > 0. For every number of nodes n >= 2 there is a width H0 such that for every hidden width H >= H0 there is a number of segments s0 such that a HighOrderMLP of layer_type 'continuous' with any number of hidden layers, at least s0 input and output segments and any number of hidden segments can be given weights with which its output is within eps of f on every batch with inputs in [-1,1].", "quantifier": "all continuous f, all eps, all n >= 2, all depths, all sufficiently large widths and segment counts, all batches", "why_tests_cant": "A statement about the existence of weights for every continuous target and tolerance; training runs on examples can neither establish nor refute it.", "anchors": ["high_order_layers_torch/networks.py:HighOrderMLP", "high_order_layers_torch/PolynomialLayers.py:PiecewisePolynomial", "high_order_layers_torch/layers.py:high_order_fc_layers"]}
{"id": "C91", "title": "The p-refinement loop of invariant_mnist carries training from order to order", "statement": "With refinement and n < target_n, invariant_mnist trains a network of order n, then for each order builds the network of the next order and interpolates the trained one into it; for the layer types continuous, discontinuous, switch_continuous and switch_discontinuous the new network returns exactly what the trained one returned, on every batch, and the run succeeds. The model that is tested has order target_n and is itself never trained. With target_n = n the run raises ZeroDivisionError, with target_n < n the untrained network is tested. For layer types without interpolate, the configured default 'polynomial' included, the tested network does not depend on the training at all. The network of every order has one input layer, hidden_layers hidden ones and one output layer.", "quantifier": "every training procedure that only changes weights, every pair of orders, every configuration of widths, depth, segments, normalisation (none, max_abs, max_center, l2) and dropout, every batch", "why_tests_cant": "Quantifies over all training results and all orders; the loss of training shows only as a slightly bad score.", "anchors": ["examples/invariant_mnist.py:invariant_mnist", "high_order_layers_torch/networks.py:interpolate_high_order_mlp", "high_order_layers_torch/networks.py:HighOrderMLP"]}
{"id": "C89", "title": "Networks treat the samples of a batch independently", "statement": "A HighOrderMLP or LowOrderMLP whose normalisation and activation treat samples independently (any entry-by-entry activation; max_abs, max_center, l2 and layer normalisation; batch normalisation in evaluation mode) does so too: with any weights, the outputs for a sample do not depend on the batch it is in, nor on its position. Evaluating any selection of the samples of a batch gives the same selection of the outputs. With batch normalisation in training mode (what select_network configures with normalize) this is false.", "quantifier": "all flat layer types, depths, widths, segment counts, residual connections, dropout probabilities (evaluation mode), all weights reached by training, all batches of any size", "why_tests_cant": "Independence is a statement about all pairs of batches and all weights.", "anchors": ["high_order_layers_torch/networks.py:HighOrderMLP", "high_order_layers_torch/networks.py:LowOrderMLP", "high_order_layers_torch/layers.py:SumLayer", "high_order_layers_torch/layers.py:SwitchLayer", "high_order_layers_torch/modules.py:select_network"]}
{"id": "C90", "title": "The block classifier is a bag of pixels", "statement": "The classifier of examples/block_mnist.py computes, for every image, the sum over its pixels of one function of (grey value, row, column) with values in (-1,1): logits lie strictly between minus and plus the number of pixels, shuffling the pixels changes nothing, other images of the batch have no influence, and replacing a pixel changes the logits by an amount that no other pixel influences. collate_fn pairs every pixel of 28x28 images with its coordinates, which lie in [-1,1] and are distinct. Before training every image gets the same logits. With layer type continuous_nd the ten logits are equal whatever the weights are, so the loss is ln 10 and the predicted class is 0 for ever. Images of other sizes, layer type continuous_3d and unknown normalisations are rejected.", "quantifier": "every weight assignment, every n >= 1 and segments >= 1, layer types polynomial_2d..5d and continuous_nd, both normalisations, every batch of images and every permutation of pixels", "why_tests_cant": "Quantifies over all weights that training can produce and all images; a blind classifier looks like one that has not been trained long enough.", "anchors": ["examples/block_mnist.py:Net", "examples/block_mnist.py:collate_fn", "high_order_layers_torch/PolynomialLayers.py:PolynomialND", "high_order_layers_torch/PolynomialLayers.py:PiecewisePolynomialND"]}
{"id": "C92", "title": "The MNIST example classifies 28x28 images only with the right kernel sizes", "statement": "The classifier of examples/mnist.py is built for every configuration with a 2d high order layer type, and gives ten logits per 28x28 image exactly if the kernel size is 3, 4 or 5 (3 or 4 with double); with a linear output layer every other kernel size makes every batch fail. Other images of the batch have no influence. The last layer always sees features strictly between -1 and 1. Before its convolutions are trained, and whatever the output layer is, every image gets the same logits unless the layer type is fourier2d. The standard configuration ignores the kernel size, and therefore fails exactly for a configured kernel size of 3; it cannot be combined with double (AttributeError on every batch) or with an automatic output layer (ValueError). Unknown layer types and normalisations are rejected. The features are convolution, mean over 2x2 windows and normalisation, twice, then flattened (with double: convolution, normalisation, convolution, mean, normalisation, twice; standard: convolution, ReLU, mean, twice).", "quantifier": "every weight assignment, n >= 1, segments >= 1, channel numbers, kernel size, normalisation, output layer type, batch size and image", "why_tests_cant": "All weights, images and kernel sizes at once; that a fresh network is blind does not show up as a failure.", "anchors": ["examples/mnist.py:Net", "high_order_layers_torch/Convolution.py", "high_order_layers_torch/layers.py:high_order_convolution_layers"]}
{"id": "C94", "title": "The CIFAR-10 example classifies 32x32 images one by one, other sizes not", "statement": "The classifier of examples/cifar10.py gives ten logits per 3x32x32 image for the layer types continuous, piecewise, discontinuous and standard; every other layer type is accepted by the constructor and fails at every call. Other images of the batch have no influence, and before training all high order types give every image the same logits. For images of other sizes the flattening does not respect samples: with p x q points after the last pooling a batch of B images yields B*p*q/25 rows of logits if that is a whole number, and fails otherwise; sizes below 16 always fail. The layers are those of the class named, 3 to 6 to 16 channels with kernel 5, each followed by the maximum over 2x2 windows (after ReLU for standard), and the logits are the linear map of the 16x5x5 values.", "quantifier": "every weight assignment, n >= 1, segments >= 1, batch size, image size and image", "why_tests_cant": "All weights and sizes; a batch that happens to be divisible silently mixes samples.", "anchors": ["examples/cifar10.py:Net", "high_order_layers_torch/Convolution.py"]}
{"id": "C93", "title": "The xor example can learn its target with discontinuous layers only", "statement": "The network of examples/xor.py is built for every flat layer type and maps [B, 2] to [B, 1], each row by itself, when fresh and after training; polynomial_2d, which the example offers, raises TypeError. With discontinuous layers of any order and any even number of segments, and with continuous_nd and two segments, some weights give the xor target exactly at every point off the axes. With continuous, continuous_prod, polynomial or fourier layers, whatever the weights, order and segments, the network is wrong by nearly 1/2 (which answering 0 everywhere achieves) at some training point. The target is -1/2 where both coordinates have the same sign and 1/2 elsewhere, axes included.", "quantifier": "every weight assignment, n >= 1, segments >= 1, batch size and input", "why_tests_cant": "A bound on the best reachable error is about all weights; training runs only show the error of one run.", "anchors": ["examples/xor.py:NDFunctionApproximation", "high_order_layers_torch/layers.py:high_order_fc_layers", "high_order_layers_torch/PolynomialLayers.py"]}
{"id": "C95", "title": "The function of a piecewise layer determines its weights up to constants", "statement": "Two weight tensors of a piecewise (continuous or discontinuous) layer of sum units give the same outputs on the box [-1,1]^in if and only if they differ, for each output and input, by one constant added to all weights of that connection, these constants summing to zero over the inputs. With one input the weights are determined exactly. Agreement inside the box implies agreement everywhere.", "quantifier": "every pair of weight tensors, every n >= 1, segments >= 1, widths, default length, no periodicity", "why_tests_cant": "Identifiability compares all functions of all weights; sampled inputs cannot show that two weights give the same function.", "anchors": ["high_order_layers_torch/PolynomialLayers.py:Piecewise", "high_order_layers_torch/PolynomialLayers.py:PiecewiseDiscontinuous"]}
{"id": "C96", "title": "Polynomial and Fourier layers converge to continuous functions as terms are added", "statement": "For continuous functions f_oi on [-r, r] and every accuracy there is a number of nodes from which on, whatever length is, some weights make the Polynomial layer compute sum_i f_oi(x_i) to that accuracy for every batch in [-r, r]. For a FourierSeries layer on its interval [-length/2, length/2] the same holds for continuous functions exactly when each f_oi takes the same value at both ends; otherwise no number of terms and no weights bring the error below half the difference of the end values.", "quantifier": "all continuous functions, accuracies, sizes, lengths, batches", "why_tests_cant": "quantifies over all continuous functions and all weights; a test fits one function", "anchors": ["high_order_layers_torch/PolynomialLayers.py:Polynomial", "high_order_layers_torch/PolynomialLayers.py:FourierSeries", "high_order_layers_torch/LagrangePolynomial.py:FourierBasis"]}
{"id": "C97", "title": "What the networks of the function example can compute", "statement": "Every network the example can build maps a batch [B, 1] to [B, 1] through one function of the single number, before and after training. With enough segments (discontinuous, or continuous with n >= 2) or enough terms (polynomial, fourier) some weights bring it within any accuracy of the example's target on [-1, 1]. The first entry of modelSetC (continuous, n = 1) is a constant for all weights, hence off by at least the amplitude 1/2 somewhere. The product network computes exactly the functions prod_k (a_k x + b_k) + c with n factors.", "quantifier": "all sizes, segments, weights, batches, accuracies", "why_tests_cant": "all weights and all accuracies", "anchors": ["examples/function_example.py:PolynomialFunctionApproximation", "examples/function_example.py:simple_func"]}
{"id": "C98", "title": "The variational autoencoder example", "statement": "Net of the example can be built for sensible sizes, and only for layer_type continuous2d. For a batch of images its forward pass returns pictures, images, mean and log-variance: mean and log-variance are affine in the encoder's pooled features, the decoder gets an affine image of mean + noise * exp(log_var / 2), and the pictures are squares whose size depends on the decoder's arguments only. eval_step returns three finite losses exactly when channels, rows and columns of pictures and images agree up to sizes 1 (which are broadcast) and raises RuntimeError otherwise; when they agree the loss is the mean squared error plus M_N times the divergence. With the shipped configuration the pictures are 3 x 32 x 32. A model just built returns, in evaluation mode and for the same noise, the same result for all images. The batch normalisation gives every channel, over batch, rows and columns, its bias as mean in training mode, and uses the running statistics in evaluation mode.", "quantifier": "all configurations with sensible sizes, all weights and normalisation states, all batches (at least two images in training mode), all noise", "why_tests_cant": "all configurations, weights, image sizes and noise", "anchors": ["examples/variational_autoencoder.py:Net", "high_order_layers_torch/networks.py:VanillaVAE", "config/variational_autoencoder.yaml"]}
{"id": "C99", "title": "Polynomial layers in floating point", "statement": "Compute a Polynomial layer with every operation rounded to nearest in any binary format, with the products and sums of torch.prod and torch.einsum taken in any order and fused or not. The result differs from what real arithmetic gives for the same stored nodes, weights and (folded) inputs by at most sum_ij A_ij |w_oij| * ((1+u+eta)^(4n+nI)-1) plus an underflow term, u=2^-prec, eta=2^(emin-1), A_ij the product of the sizes of the factors of the j-th basis function at input i, each counted as at least 1; while k(u+eta)<=1/2 the growth is at most 2k(u+eta). Nodes must be different and representable. With one input at a stored node the result is the stored weight without any error. With two nodes at -1 and 1 and inputs in [-1,1] every A_ij is 1, so the result is the affine map of the inputs up to that bound.", "quantifier": "every binary format, reduction order, n, nodes, weights, inputs, sizes", "why_tests_cant": "all inputs, weights and orders of summation", "anchors": ["high_order_layers_torch/LagrangePolynomial.py:LagrangeBasis", "high_order_layers_torch/Basis.py:BasisFlat", "high_order_layers_torch/PolynomialLayers.py:Polynomial"]}
{"id": "C100", "title": "Piecewise layers in floating point", "statement": "For a piecewise layer of length 2 with 2^k segments (k<prec) computed with every operation rounded to nearest, in any order of reductions: for a representable input in [-1,1] the computed segment is the one containing it or, when the input is within 2^(1-prec) of the right end, the next one - never one to the left. The computed local coordinate lies in [-1-2^(k+1-prec),1] and is at most 2^(3-prec) off, so each output is, up to the error of C99, the polynomial of that segment at that coordinate. At a knot a layer with one input returns the stored weight without any error (the last weight at 1). For two nodes per segment (piecewise linear, continuous) and weights at most W the output differs from the exact layer's by at most in_features*W*(2^(3-prec)+2^(k+2-prec)+3((1+u+eta)^(8+2 in_features)-1)) plus an underflow term.", "quantifier": "every binary format with emin<=-prec-k, reduction order, k, n, nodes, weights, inputs, sizes", "why_tests_cant": "all inputs, weights and orders of summation", "anchors": ["high_order_layers_torch/PolynomialLayers.py:Piecewise", "high_order_layers_torch/PolynomialLayers.py:PiecewiseDiscontinuous", "high_order_layers_torch/Basis.py:Basis"]}
{"id": "C101", "title": "Convolutions with groups", "statement": "A two-dimensional convolution layer can be built with groups>1 only in the Fourier family (the others raise ValueError or, from the initialisation, RuntimeError); the 1d polynomial and piecewise classes can be built exactly when groups divides basis_size*in_channels and out_channels. If groups divides in_channels, output channel o is output_scale times the sum of link functions (C35) over the in/groups channels of its group only; output_scale stays 1/(in*k*k), so rescale_output is no average over the group. With the default one group and zero padding nothing changes, for all weights, inputs and errors. If groups divides only basis_size*in_channels, the layer is accepted and the basis functions of one channel are distributed over different outputs: with one channel and groups=out=n every output vanishes at all nodes but one whatever the weights.", "quantifier": "every family, sizes, number of groups, padding mode, weights, input", "why_tests_cant": "unbounded shapes, numbers of groups and inputs; the torn channels raise no error", "anchors": ["high_order_layers_torch/FunctionalConvolution.py:conv_wrapper", "high_order_layers_torch/FunctionalConvolution.py:constant_random_initialization_conv2d", "high_order_layers_torch/FunctionalConvolution.py:PolynomialConvolution1d", "high_order_layers_torch/FunctionalConvolution.py:FourierConvolution2d"]}
{"id": "C102", "title": "Convolutions with reflected, replicated and circular padding", "statement": "With padding_mode reflect, replicate or circular a 2d high-order convolution computes the layer without padding on the padded image; an image too small for the padding raises RuntimeError. With circular padding, stride 1 and 2*padding=dilation*(kernel-1), the output has the size of the image and turning the image around cyclically turns the output around by the same amount. A fresh non-Fourier layer is then constant over the whole output including the border. Zero padding (the default) is different: it pads the expansion, not the image, so no image put through the unpadded layer gives the same border.", "quantifier": "every family, sizes, dilation, amount of padding, cyclic shift, weights, images", "why_tests_cant": "unbounded shapes, shifts and a continuum of inputs", "anchors": ["high_order_layers_torch/FunctionalConvolution.py:conv_wrapper", "high_order_layers_torch/FunctionalConvolution.py:PolynomialConvolution2d", "high_order_layers_torch/FunctionalConvolution.py:Expansion2d"]}
{"id": "C103", "title": "Convolutions inherit locality, bounds and Lipschitz constants", "statement": "In a piecewise convolution a weight that is not among the weights of the segments its pixels (those the kernel offset reads, of that channel, over all samples and positions) fall into can be set to anything without changing the output image. If all weights are at most M in absolute value, every output is at most output_scale * in*k*k * 2(n-1)M for pixels in the range of the nodes (2<=n), and at most output_scale * in*k*k * nM for the Fourier family with any pixels; with rescale_output the factor output_scale*in*k*k is 1 in two dimensions. For the polynomial and the continuous piecewise family, outputs for two images differ by at most output_scale * M * n-dependent slope (times segments) * the sum of the differences of the pixels in the window read. The same holds in one dimension with in*k.", "quantifier": "every family named, sizes, stride, padding, dilation, weights, images, positions", "why_tests_cant": "bounds over a continuum of images and weights, all sizes", "anchors": ["high_order_layers_torch/FunctionalConvolution.py:PiecewisePolynomialConvolution2d", "high_order_layers_torch/FunctionalConvolution.py:PolynomialConvolution1d", "high_order_layers_torch/FunctionalConvolution.py:FourierConvolution2d"]}
{"id": "C104", "title": "SparseLion in floating point", "statement": "Run SparseLion with every tensor operation rounded to nearest in any binary format (prec bits), products with alpha fused or not. A coordinate whose gradients are all 0 keeps its weight and momentum bit for bit over any history, whatever the rounding. Otherwise a step either leaves a representable weight p or replaces it by round(p -+ lr), lr as rounded to the format; over k steps it moves by at most 2*k*lr. A weight with |p| >= 2(2^prec+1)*lr never moves again, whatever the gradients; one with |p| < 2^prec*lr moves strictly against the gradient if the momentum does not oppose it and (1-beta1)*gradient does not underflow. Steps are exact while p and lr are multiples of a common power of two with |p|+lr below 2^prec of it.", "quantifier": "every binary format, history of gradients, setting, weight, order of rounding of fused operations", "why_tests_cant": "all histories and all floating point numbers", "anchors": ["high_order_layers_torch/sparse_optimizers/sparse_lion.py:update_fn", "high_order_layers_torch/sparse_optimizers/sparse_lion.py:SparseLion.step"]}
{"id": "C105", "title": "Derivatives with respect to the inputs", "statement": "For continuous and discontinuous piecewise layers of length 2 without periodicity, every output is differentiable in every input off the knots, and the derivative is the number of segments times the derivative of that segment's interpolating polynomial at the local coordinate; with two nodes it is segments/2 times the difference of the two weights. With all weights of the output at most W in size the derivative is at most segments*W*steepness(n). At an inner knot a continuous layer is differentiable in the input exactly when the slopes of the two neighbouring polynomials agree. A periodic layer has the derivative of the folded input on the rising parts of the triangle wave and its negative on the falling parts; at a turning point the derivative is 0 if it exists. Polynomial layers are differentiable everywhere.", "quantifier": "every layer, weights, input vector, output and input index, number of nodes and segments, period", "why_tests_cant": "a derivative is a limit over infinitely many inputs; all layers and weights", "anchors": ["high_order_layers_torch/PolynomialLayers.py:Piecewise.forward", "high_order_layers_torch/PolynomialLayers.py:PiecewiseDiscontinuous.forward", "high_order_layers_torch/utils.py:make_periodic"]}
{"id": "C106", "title": "Piecewise layers in floating point with any number of segments and nodes", "statement": "Let a piecewise sum layer of length 2 run with every operation rounded to nearest in a binary format of prec bits (any order of reductions, fused or not), any number N of segments with 128*N*(1+steepness(n)) <= 2^prec, its nodes stored within eps of the Chebyshev-Lobatto points, weights at most W, inputs representable in [-1,1]. Then for every input the polynomial of one segment s is used, and the result is the sum over the inputs of these polynomials at points z of the segments with |z-x| <= 36*2^-prec, up to I*W*(steepness*(72*N*2^-prec + eps*A) + A*growth) plus underflow, A bounding the basis functions' factors (a constant of the nodes alone). For continuous layers the distance from the layer in real arithmetic at the same inputs is bounded in the same way (108 for 72). Polynomial layers: the same without N.", "quantifier": "every binary format, number of segments, nodes, inputs and outputs, weights, batch, order of rounding", "why_tests_cant": "all floating point inputs, formats and orders of reduction", "anchors": ["high_order_layers_torch/PolynomialLayers.py:Piecewise.forward", "high_order_layers_torch/PolynomialLayers.py:PiecewiseDiscontinuous.forward", "high_order_layers_torch/PolynomialLayers.py:Function.forward", "high_order_layers_torch/LagrangePolynomial.py:LagrangeBasis"]}
{"id": "C107", "title": "HighOrderMLP of continuous layers in floating point", "statement": "Let a HighOrderMLP made of continuous layers (n >= 2 nodes, at most S segments per layer, widths at most M, no normalization or non-linearity), with whatever weights of size at most W it has after training, run with every operation rounded to nearest in a binary format of prec bits, in any order of reductions, its nodes stored within eps of the Chebyshev-Lobatto points. Let E be the error of one layer (C106) and G = M*W*steepness(n)*S. If 2*M*(n-1)*W + E <= 1 and the inputs are representable numbers in [-1,1], then every output the network may return is representable, lies in [-1,1] and differs from the output in real arithmetic by at most E*(1+G+...+G^(K+1)), K the number of hidden layers. Such a result always exists.", "quantifier": "every binary format, number of nodes, segments, layers, widths, weights after any training, batch, order of rounding", "why_tests_cant": "all floating point inputs, formats, weights and orders of reduction", "anchors": ["high_order_layers_torch/networks.py:HighOrderMLP.forward", "high_order_layers_torch/PolynomialLayers.py:Piecewise.forward"]}
{"id": "C108", "title": "HighOrderMLP with dropout in training", "statement": "In evaluation mode a HighOrderMLP built with dropout p computes the composition of its layers. In training mode (0 < p < 1) every layer except the input layer sees its inputs with some entries set to zero and the others divided by 1-p, with fresh decisions at each use and for each sample; inputs and outputs of the network are never dropped. With p = 0 both modes agree. A sample of which one use drops all entries gives an output that does not depend on its input; with p = 1 (accepted) this holds for all samples. Kept values stay in [-1,1] for all decisions exactly if they were at most 1-p in size. Each entry is unbiased, the output of a following layer with two nodes and one segment too, but not the output of a general layer: its mean is the sum over the inputs of p*f(0) + (1-p)*f(v/(1-p)).", "quantifier": "every type, size and depth of continuous or discontinuous networks, weights after any training, batch, decisions of the dropout, probability", "why_tests_cant": "all weights, inputs and random decisions; expectations over all decisions", "anchors": ["high_order_layers_torch/networks.py:HighOrderMLP"]}
{"id": "C109", "title": "What reaches an output of a transposed convolution", "statement": "Every output of PiecewisePolynomialConvolutionTranspose2d is the (rescaled) sum, over the kernel positions aligned with a pixel, of the link function applied to this pixel; each kernel position contributes at most once. Hence outputs in the gaps between kernels (stride larger than the kernel's extent) are 0 for all weights and images; a pixel influences only the outputs its kernel is spread over; moving the image by pixels moves the inner part of the output by stride times as many; weights a pixel's segment does not use do not matter; outputs are bounded and Lipschitz by the number of contributions. Inner rows receive kernel/stride contributions, plus one for the residues below kernel mod stride: constant weights give a constant inner image if the stride divides the kernel size, else a checkerboard. rescale_output divides by in_channels*kernel^2 and not by the number of contributions, so it is no average unless every kernel position contributes.", "quantifier": "every size, stride, padding, dilation, output padding, weights, images", "why_tests_cant": "all geometries, weights and images; the count of contributions depends on arithmetic modulo the stride", "anchors": ["high_order_layers_torch/FunctionalConvolutionTranspose.py:PiecewisePolynomialConvolutionTranspose", "high_order_layers_torch/FunctionalConvolutionTranspose.py:PiecewisePolynomialConvolutionTranspose2d"]}
{"id": "C110", "title": "Gradient descent on one layer finds the best weights", "statement": "For a layer whose outputs are linear in its weights (sum piecewise layers, Polynomial, FourierSeries, 2d convolutions), on any data set with inputs in the range of the nodes (any inputs for Fourier), plain gradient descent on the regression loss over all weights never increases the loss, and after T steps the loss exceeds that of any other weights w, in particular the best ones, by at most |w0-w|^2/(2*eta*T). This holds for every learning rate eta up to 1/(4*in_features) for piecewise and polynomial layers, whatever the number of nodes and segments (the squares of the n cardinal polynomials add up to at most 2 on [-1,1]), 1/(2*n*in_features) for Fourier layers, and the corresponding rate for convolutions; too large a rate makes the loss grow geometrically. The same fact bounds outputs by in_features*sqrt(2n) times the largest weight.", "quantifier": "every layer, data set, initial weights, learning rate in the interval, number of steps", "why_tests_cant": "quantifies over all data sets, all initial weights and all numbers of steps; a training run shows one trajectory", "anchors": ["high_order_layers_torch/PolynomialLayers.py:Piecewise", "high_order_layers_torch/PolynomialLayers.py:Polynomial", "high_order_layers_torch/PolynomialLayers.py:FourierSeries", "high_order_layers_torch/LagrangePolynomial.py:LagrangeBasis", "high_order_layers_torch/FunctionalConvolution.py:conv_wrapper", "high_order_layers_torch/modules.py:RegressionMixin"]}
{"id": "C111", "title": "Relative attention with dropout in training", "statement": "In training mode RelativeMultiHeadAttention multiplies each attention weight by 0 or 1/(1-p) after the softmax, with separate decisions for each sample, head, query and key, and then weighs the values with the result; everything else is as in evaluation mode. The mean over all decisions of the output is the output in evaluation mode. The dropped weights stay nonnegative, their sum is at most 1/(1-p) and is 1 on average, and the context is bounded by the largest value divided by 1-p; but they need not sum to 1, so the context of one training step need not be an average of values. A query all of whose weights are dropped (always for p = 1) gives the bias of the output projection. With dropout 0 both modes agree.", "quantifier": "every size, number of heads, weights, mask, inputs, decisions of the dropout, probability", "why_tests_cant": "all weights, inputs, masks and random decisions; expectations over all decisions", "anchors": ["high_order_layers_torch/attentions.py:RelativeMultiHeadAttention.forward"]}
{"id": "C112", "title": "What resnet=True computes", "statement": "In a HighOrderMLP with resnet=True every hidden layer from the second on is put in a SumLayer with the module before it, and both are applied to the same input u of the layer. Without modules in between the layers the sum is h_i(u) + h_{i-1}(u) + ... + h_0(u): all earlier hidden layers are applied again; the result of the previous layer is not added (if all hidden layers after the first return zero, the first one is applied once per hidden layer). With an activation F (and no dropout) F(u) is added, where u is already a value of F, so u is added exactly if F is idempotent on it (ReLU); with only a normalisation N, N(u) is added. With dropout > 0, in evaluation mode, u itself is added: a residual connection. In training mode u is dropped a second time before it is added: it survives with probability (1-p)^2, divided by (1-p)^2, unbiased, in [-1,1] for all decisions exactly if it was at most (1-p)^2 in size. The first hidden layer and the output layer have no such connection.", "quantifier": "continuous and discontinuous networks of every size and depth, weights after any training, normalisation and activation modules that act on each sample, dropout probabilities, decisions and batches", "why_tests_cant": "all depths, weights, modules, inputs and random decisions", "anchors": ["high_order_layers_torch/networks.py:HighOrderMLP", "high_order_layers_torch/layers.py:SumLayer"]}
{"id": "C113", "title": "Transposed convolutions with groups", "statement": "PiecewisePolynomialConvolutionTranspose2d(..., groups=g, padding_mode=m) is accepted exactly when m is 'zeros', g is not 0 and g divides both ((n-1)*segments+1)*in_channels and out_channels; otherwise a ValueError is raised. When g divides in_channels, output channel o is the sum over the channels of its group (of size in_channels/g, number o / (out_channels/g)) and over the kernel positions that are aligned with a pixel of the function the weights of that position describe, so pixels of other groups have no influence on it. groups=1 is the layer without the option, in outputs and errors. When g divides only the number of expanded channels, input channels are torn apart: an output gets some basis functions of a channel only.", "quantifier": "for all arguments, numbers of groups, weights, images, batch sizes, strides, paddings, output paddings, dilations", "why_tests_cant": "the channel arithmetic (group of an expanded channel, position of its weights) has to agree for every combination of nodes, segments, channels and groups; a test fixes one combination, and with groups=1, the default, mistakes do not show", "anchors": ["high_order_layers_torch/FunctionalConvolutionTranspose.py:18-72", "high_order_layers_torch/FunctionalConvolutionTranspose.py:75-160"]}
{"id": "C114", "title": "Networks along lines: number of pieces, degree, and behaviour far away", "statement": "Along every straight line p + t q through the inputs, every output of a HighOrderMLP of continuous or of discontinuous layers (n nodes, K+2 layers, no normalization, nonlinearity or periodicity), with any weights it can hold, is piecewise polynomial in t of degree at most (n-1)^(K+2), with at most (1 + d(si-1)) * prod_k (1 + H(sh-1)(n-1)^k) * (1 + H(so-1)(n-1)^(K+1)) pieces whose ends are common to all outputs; two nodes give piecewise linear, one node piecewise constant outputs with breaks of the first layer only. The degree is attained for all widths and depths. Consequently along every ray each output is constant from some point on or exceeds every bound in absolute value; in particular no such network is within e < 1 of the sine on the whole line.", "quantifier": "all layer types continuous/discontinuous, numbers of nodes, widths, depths, segments, all heaps of retrained weights, all lines p + t q and all outputs", "why_tests_cant": "a test samples finitely many points of finitely many networks: it can neither count the pieces on the whole line nor exclude that some weights approximate a bounded oscillating function everywhere", "anchors": ["high_order_layers_torch/networks.py:20-160", "high_order_layers_torch/PolynomialLayers.py:17-390"]}
{"id": "C115", "title": "Gradients of networks: backpropagation, and weights no sample reaches", "statement": "For a HighOrderMLP of continuous or of discontinuous layers in any state of training: (1) two states that differ only in weights of segments which no sample of a batch reaches in that layer give the same outputs for the batch; the derivative of any loss in such a weight is 0, and training with SparseLion with any losses never changes a weight of any layer that no batch reached when it was used - in the first layer: where no data fell. (2) Off the knots every differentiable loss is differentiable in every weight and every input; the derivative in a weight is the sum over the batch of the error at the output of its layer times the cardinal polynomial of its node at the input of the layer (0 outside the weight's segment), and in an input it is the error at the first layer, where the errors are propagated backwards by e_j(i) = sum_o slope_j(o,i) e_{j+1}(o) from the derivatives of the loss in the outputs.", "quantifier": "all numbers of nodes, widths, depths and segments, all states of training, batches, losses, layers, weights and inputs", "why_tests_cant": "a test compares some gradients of some networks numerically; that unreached weights never matter, in any layer and through any training, and that the backward recursion gives the derivative at every point off the knots are statements about all states and batches", "anchors": ["high_order_layers_torch/networks.py:20-160", "high_order_layers_torch/PolynomialLayers.py:17-390", "high_order_layers_torch/sparse_optimizers/sparse_lion.py:1-120"]}
{"id": "C116", "title": "Normalized networks saturate: bounded outputs, levelling off along every ray", "statement": "For a HighOrderMLP built with a normalization and in any state of training: (1) the three normalizations of the package (max_abs, max_center, l2) yield values of absolute value at most 1 for all inputs; (2) if the normalization is such, and the optional non-linearity maps [-1,1] to itself, every output is at most hidden_width * 2 (n_out-1) W in absolute value for every input however large and whatever the weights of all layers but the last, where W bounds the weights of the last layer only; (3) with max_abs_normalization and continuous or switch_continuous layers, every output converges to a limit along every ray, so that (4) no state of training stays within e of a function that keeps alternating between values <= u and values >= v with v - u > 2e.", "quantifier": "all widths, depths, numbers of nodes and segments, states of training, inputs, rays and eps > 0", "why_tests_cant": "boundedness over all inputs and all weights and the existence of limits at infinity cannot be observed on finitely many inputs and states", "anchors": ["high_order_layers_torch/networks.py:160-288", "high_order_layers_torch/utils.py:16-75", "high_order_layers_torch/layers.py:43-68", "high_order_layers_torch/layers.py:127-146"]}
{"id": "C117", "title": "Networks behind fixed rotations: their features, and what one layer behind them represents", "statement": "fixed_rotation_layer(n, rotations) with its default normalization returns for every sample the features, in this order: each input x followed, for each later input y and r = 1 .. rotations-1, by (cos t x + sin t y)/(|cos t|+|sin t|) and (sin t x - cos t y)/(|cos t|+|sin t|), t = r/rotations of a right angle; transform_mlp is a HighOrderMLP of width n + n(n-1)(rotations-1) with the options given (no rescaling, activation or dropout) applied to these features, and transform_low_mlp a LowOrderMLP applied to them, in every state of training. With two or more rotations a single layer of three or more nodes behind the rotation computes every quadratic function of the inputs exactly on [-1,1]^n, for suitable weights; with two inputs a single layer of more than D nodes behind more than D/2 rotations computes every polynomial of total degree up to D exactly on [-1,1]^2, and the number of rotations is sharp: whatever its nodes, segments and weights, no layer of sums behind r rotations computes the power 2r of the feature halfway between two neighbouring ones on [-1,1]^2; with one rotation the inputs are passed on unchanged and no layer behind it computes a product of two inputs.", "quantifier": "all numbers of inputs, outputs, rotations, nodes and segments, all batches, all quadratic functions, all polynomials of two inputs, all states of training", "why_tests_cant": "exact representation of all quadratic functions on the whole cube, and its impossibility for all weights without rotations, are not decided by finitely many trainings or inputs", "anchors": ["high_order_layers_torch/layers.py:298-354", "high_order_layers_torch/networks.py:928-999"]}
{"id": "C118", "title": "What a LowOrderMLP computes", "statement": "A LowOrderMLP of any depth is, in every state of training, one linear layer followed hidden_layers+1 times by normalization, activation and another linear layer (each left out when the option is None; also before the output layer), with hidden_layers+2 different linear layers of weights [hidden_width, in_width], [hidden_width, hidden_width], ..., [out_width, hidden_width], whose weights can take any values independently. Without activation and normalization every such network, whatever its depth and training, is an affine function of its inputs.", "quantifier": "all widths, depths, normalizations, activations, states of training and inputs", "why_tests_cant": "tests look at shapes or values of single networks; that the composition holds for every depth and state and collapses to one affine map are statements by induction over the layers", "anchors": ["high_order_layers_torch/networks.py:34-82"]}
