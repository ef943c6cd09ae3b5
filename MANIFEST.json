{
 "claims": [
  {
   "property": "C01",
   "status": "proved",
   "theorems": [
    "C01_nodes_ordered_symmetric",
    "C01_nodes_are_lobatto"
   ],
   "note": "rocq/theories/Prop_Basis.v."
  },
  {
   "property": "C02",
   "status": "proved",
   "theorems": [
    "C02_cardinal_and_partition_of_unity",
    "C02_nodes_scaled"
   ],
   "note": "rocq/theories/Prop_Basis.v."
  },
  {
   "property": "C03",
   "status": "proved",
   "theorems": [
    "C03_polynomial_layer_exact"
   ],
   "note": "rocq/theories/Prop_Basis.v."
  },
  {
   "property": "C04",
   "status": "proved",
   "theorems": [
    "C04_constant_init_piecewise",
    "C04_constant_init_polynomial",
    "C04_constant_init_range",
    "C04_constant_init_polynomial_range",
    "C04_number_of_weights"
   ],
   "note": "rocq/theories/Prop_Layers.v."
  },
  {
   "property": "C05",
   "status": "proved",
   "theorems": [
    "C05_segment_in_range",
    "C05_any_cast_in_range",
    "C05_segment_contains_input",
    "C05_outside_uses_end_segments"
   ],
   "note": "rocq/theories/Prop_Layers.v."
  },
  {
   "property": "C06",
   "status": "proved",
   "theorems": [
    "C06_piecewise_layer_function",
    "C06_pieces_exist",
    "C06_segment_exists",
    "C06_product_layer_function"
   ],
   "note": "rocq/theories/Prop_Layers.v."
  },
  {
   "property": "C07",
   "status": "proved",
   "theorems": [
    "C07_weights_are_node_values"
   ],
   "note": "rocq/theories/Prop_Layers.v."
  },
  {
   "property": "C08",
   "status": "proved",
   "theorems": [
    "C08_continuous_everywhere"
   ],
   "note": "rocq/theories/Prop_Layers.v."
  },
  {
   "property": "C09",
   "status": "proved",
   "theorems": [
    "C09_continuous_off_boundaries",
    "C09_jump_is_weight_difference",
    "C09_right_value_at_boundary"
   ],
   "note": "rocq/theories/Prop_Layers.v."
  },
  {
   "property": "C10",
   "status": "proved",
   "theorems": [
    "C10_only_active_segment_matters"
   ],
   "note": "rocq/theories/Prop_Layers.v."
  },
  {
   "property": "C11",
   "status": "proved",
   "theorems": [
    "C11_gradient_zero_outside_active_segment",
    "C11_gradient_in_active_segment"
   ],
   "note": "rocq/theories/Prop_Layers.v."
  },
  {
   "property": "C12",
   "status": "proved",
   "theorems": [
    "C12_samples_independent_conv2d",
    "C12_samples_independent_piecewise",
    "C12_samples_independent_function",
    "C12_forward_total",
    "C12_samples_independent_max_abs",
    "C12_samples_independent_nd",
    "C12_max_abs_dim0_mixes_samples",
    "C12_samples_independent_product"
   ],
   "note": "rocq/theories/Prop_Conv.v, Prop_Layers.v, Prop_Norm.v, Prop_Product.v."
  },
  {
   "property": "C13",
   "status": "proved",
   "theorems": [
    "C13_make_periodic_triangle_wave"
   ],
   "note": "rocq/theories/Prop_Basis.v."
  },
  {
   "property": "C14",
   "status": "proved",
   "theorems": [
    "C14_layers_mirror_periodic",
    "C14_polynomial_mirror_periodic"
   ],
   "note": "rocq/theories/Prop_Layers.v."
  },
  {
   "property": "C15",
   "status": "proved",
   "theorems": [
    "C15_p_refinement_preserves"
   ],
   "note": "rocq/theories/Prop_Refine.v."
  },
  {
   "property": "C16",
   "status": "proved",
   "theorems": [
    "C16_interpolation_samples_source"
   ],
   "note": "rocq/theories/Prop_Refine.v."
  },
  {
   "property": "C17",
   "status": "proved",
   "theorems": [
    "C17_different_segments_rejected",
    "C17_same_segments_not_rejected"
   ],
   "note": "rocq/theories/Prop_Refine.v."
  },
  {
   "property": "C18",
   "status": "proved",
   "theorems": [
    "C18_weights_are_samples",
    "C18_h_refinement_preserves",
    "C18_not_multiple_refuted"
   ],
   "note": "rocq/theories/Prop_Refine.v. C18_not_multiple_refuted: for segment counts that are not multiples the function can change."
  },
  {
   "property": "C19",
   "status": "proved",
   "theorems": [
    "C19_refine_discontinuous_fails",
    "C19_refine_method_fails"
   ],
   "note": "rocq/theories/Prop_Refine.v."
  },
  {
   "property": "C20",
   "status": "proved",
   "theorems": [
    "C20_interpolated_mlp_same_output",
    "C20_resnet_refuted"
   ],
   "note": "rocq/theories/Prop_Net.v. C20_resnet_refuted: with resnet=True and two or more hidden layers outputs change, since summed layers are not visited."
  },
  {
   "property": "C21",
   "status": "proved",
   "theorems": [
    "C21_hp_refined_mlp_same_output",
    "C21_discontinuous_rejected"
   ],
   "note": "rocq/theories/Prop_Net.v."
  },
  {
   "property": "C22",
   "status": "proved",
   "theorems": [
    "C22_smoothing_shrinks_jumps",
    "C22_full_smoothing_is_continuous"
   ],
   "note": "rocq/theories/Prop_Refine.v."
  },
  {
   "property": "C23",
   "status": "proved",
   "theorems": [
    "C23_linear_initialisation",
    "C23_other_types_untouched"
   ],
   "note": "rocq/theories/Prop_Refine.v."
  },
  {
   "property": "C24",
   "status": "proved",
   "theorems": [
    "C24_max_abs",
    "C24_max_abs_last",
    "C24_max_abs_nd",
    "C24_bad_dim_rejected"
   ],
   "note": "rocq/theories/Prop_Norm.v."
  },
  {
   "property": "C25",
   "status": "proved",
   "theorems": [
    "C25_max_center",
    "C25_max_center_last",
    "C25_max_center_nd",
    "C25_shift_invariant",
    "C25_shift_invariant_nd"
   ],
   "note": "rocq/theories/Prop_Norm.v."
  },
  {
   "property": "C26",
   "status": "proved",
   "theorems": [
    "C26_l2_norm"
   ],
   "note": "rocq/theories/Prop_Norm.v."
  },
  {
   "property": "C27",
   "status": "proved",
   "theorems": [
    "C27_fourier_periodic",
    "C27_fourier_bounded",
    "C27_fourier_series",
    "C27_arguments_without_effect"
   ],
   "note": "rocq/theories/Prop_Product.v."
  },
  {
   "property": "C28",
   "status": "proved",
   "theorems": [
    "C28_product_layer",
    "C28_new_product",
    "C28_product_without_bias_fails",
    "C28_basis_prod",
    "C28_alpha_sign_differs",
    "C28_piecewise_links",
    "C28_single_input"
   ],
   "note": "rocq/theories/Prop_Product.v."
  },
  {
   "property": "C29",
   "status": "proved",
   "theorems": [
    "C29_width",
    "C29_bad_rotations_rejected",
    "C29_rows",
    "C29_row_norms",
    "C29_stays_in_range"
   ],
   "note": "rocq/theories/Prop_Rotation.v."
  },
  {
   "property": "C30",
   "status": "proved",
   "theorems": [
    "C30_mesh_fills_range",
    "C30_first_two_meshes_are_x",
    "C30_degenerate_mesh_rejected"
   ],
   "note": "rocq/theories/Prop_Rotation.v."
  },
  {
   "property": "C31",
   "status": "proved",
   "theorems": [
    "C31_step",
    "C31_travel_bound",
    "C31_momentum_bounded",
    "C31_weight_decay_ignored",
    "C31_bad_settings_rejected"
   ],
   "note": "rocq/theories/Prop_Lion.v."
  },
  {
   "property": "C32",
   "status": "proved",
   "theorems": [
    "C32_gradient_exists",
    "C32_gradient_zero",
    "C32_unvisited_weights_unchanged",
    "C32_unvisited_segment_unchanged"
   ],
   "note": "rocq/theories/Prop_Lion.v."
  },
  {
   "property": "C33",
   "status": "proved",
   "theorems": [
    "C33_expansion_is_layer",
    "C33_partition_of_unity",
    "C33_single_segment",
    "C33_other_length_refuted",
    "C33_wrong_rank_rejected"
   ],
   "note": "rocq/theories/Prop_Conv.v. C33_other_length_refuted: for every non-zero length but 2 expansion and fully connected layer disagree somewhere."
  },
  {
   "property": "C34",
   "status": "proved",
   "theorems": [
    "C34_expansion2d_layout",
    "C34_expansion1d_layout"
   ],
   "note": "rocq/theories/Prop_Conv.v."
  },
  {
   "property": "C35",
   "status": "proved",
   "theorems": [
    "C35_conv2d",
    "C35_conv1d",
    "C35_conv2d_no_padding"
   ],
   "note": "rocq/theories/Prop_Conv.v."
  },
  {
   "property": "C36",
   "status": "proved",
   "theorems": [
    "C36_translation"
   ],
   "note": "rocq/theories/Prop_Conv.v."
  },
  {
   "property": "C37",
   "status": "proved",
   "theorems": [
    "C37_fresh_conv_is_constant",
    "C37_fresh_conv_range",
    "C37_other_weights"
   ],
   "note": "rocq/theories/Prop_Conv.v, Prop_Stages.v."
  },
  {
   "property": "C38",
   "status": "proved",
   "theorems": [
    "C38_conv_size",
    "C38_transpose"
   ],
   "note": "rocq/theories/Prop_Conv.v."
  },
  {
   "property": "C39",
   "status": "proved",
   "theorems": [
    "C39_forward",
    "C39_announced",
    "C39_sizes",
    "C39_announced_piece",
    "C39_no_stride",
    "C39_no_focus",
    "C39_no_focus_sizes"
   ],
   "note": "rocq/theories/Prop_Tail.v."
  },
  {
   "property": "C40",
   "status": "proved",
   "theorems": [
    "C40_enumeration",
    "C40_basis_at_nodes",
    "C40_polynomial_nd_exact",
    "C40_weight_at_node",
    "C40_periodic",
    "C40_integer_n_rejected",
    "C40_points_without_batch",
    "C40_single_point"
   ],
   "note": "rocq/theories/Prop_ND.v."
  },
  {
   "property": "C41",
   "status": "proved",
   "theorems": [
    "C41_outputs_identical",
    "C41_only_first_link_used",
    "C41_piecewise_function",
    "C41_fresh_layer_constant",
    "C41_uniform_initialisation_fails",
    "C41_one_dimension_fails",
    "C41_no_batch_fails",
    "C41_integer_n_rejected"
   ],
   "note": "rocq/theories/Prop_ND.v."
  },
  {
   "property": "C42",
   "status": "proved",
   "theorems": [
    "C42_fc_unknown",
    "C42_fc_known",
    "C42_continuous_nd_integer",
    "C42_never_built_fc",
    "C42_built_fc",
    "C42_piecewise_class",
    "C42_function_class",
    "C42_conv",
    "C42_never_built_conv",
    "C42_built_conv",
    "C42_conv_class",
    "C42_transpose",
    "C42_continuous_nd"
   ],
   "note": "rocq/theories/Prop_Factory.v, Prop_Params.v."
  },
  {
   "property": "C43",
   "status": "proved",
   "theorems": [
    "C43_mlp_widths",
    "C43_low_order_widths",
    "C43_mlp_list_first_layer_only",
    "C43_mlp_list_refuted",
    "C43_multi_mlp_never_built",
    "C43_transform_widths",
    "C43_transform_low_widths"
   ],
   "note": "rocq/theories/Prop_MLP.v. C43_mlp_list_refuted: HighOrderMLPList keeps only its first layer."
  },
  {
   "property": "C44",
   "status": "proved",
   "theorems": [
    "C44_ignored_arguments",
    "C44_orders_not_given"
   ],
   "note": "rocq/theories/Prop_Switch.v."
  },
  {
   "property": "C45",
   "status": "proved",
   "theorems": [
    "C45_layer_parameters",
    "C45_switch_is_product",
    "C45_switch_parameters",
    "C45_sum_parameters",
    "C45_switch_mlp_has_no_parameters",
    "C45_resnet_trains_three_layers"
   ],
   "note": "rocq/theories/Prop_Params.v, Prop_Switch.v."
  },
  {
   "property": "C46",
   "status": "proved",
   "theorems": [
    "C46_scaled_dot_product",
    "C46_context_between",
    "C46_masked_keys_irrelevant",
    "C46_dot_product",
    "C46_scaled_dot_product_shapes",
    "C46_dot_product_shapes",
    "C46_additive",
    "C46_location_aware"
   ],
   "note": "rocq/theories/Prop_Attention.v."
  },
  {
   "property": "C47",
   "status": "proved",
   "theorems": [
    "C47_multi_head",
    "C47_own_mask",
    "C47_own_mask_refuted"
   ],
   "note": "rocq/theories/Prop_MultiHead.v. C47_own_mask_refuted: with two samples and two heads or more a sample's own mask is not the one applied."
  },
  {
   "property": "C48",
   "status": "proved",
   "theorems": [
    "C48_multi_head_location",
    "C48_aligned",
    "C48_aligned_refuted"
   ],
   "note": "rocq/theories/Prop_MHLocation.v. C48_aligned_refuted: with two heads and two positions or more attention weights meet values of another position."
  },
  {
   "property": "C49",
   "status": "proved",
   "theorems": [
    "C49_relative_shift",
    "C49_distance"
   ],
   "note": "rocq/theories/Prop_Relative.v."
  },
  {
   "property": "C50",
   "status": "proved",
   "theorems": [
    "C50_sinusoidal_dimensions",
    "C50_fourier_embedding",
    "C50_piecewise_embeddings",
    "C50_product_without_bias",
    "C50_customizing"
   ],
   "note": "rocq/theories/Prop_Embedding.v."
  },
  {
   "property": "C51",
   "status": "proved",
   "theorems": [
    "C51_loss",
    "C51_missing_arguments"
   ],
   "note": "rocq/theories/Prop_Vae.v."
  },
  {
   "property": "C52",
   "status": "proved",
   "theorems": [
    "C52_sinusoidal",
    "C52_products_depend_on_difference"
   ],
   "note": "rocq/theories/Prop_Embedding.v."
  },
  {
   "property": "C53",
   "status": "proved",
   "theorems": [
    "C53_other_length_not_continuous_refuted",
    "C53_other_length_does_not_interpolate_refuted"
   ],
   "note": "rocq/theories/Prop_Layers.v. C53_*_refuted: lengths other than 2 give layers that are neither continuous nor interpolating, contrary to the docstring."
  },
  {
   "property": "C54",
   "status": "proved",
   "theorems": [
    "C54_max_abs",
    "C54_max_center_refuted",
    "C54_max_center_upper"
   ],
   "note": "rocq/theories/Prop_Float.v. C54_max_center_refuted: in binary32 the centred normalisation leaves [-1,1]."
  },
  {
   "property": "C55",
   "status": "proved",
   "theorems": [
    "C55_local_global_inverse"
   ],
   "note": "rocq/theories/Prop_Basis.v."
  },
  {
   "property": "C56",
   "status": "proved",
   "theorems": [
    "C56_product_layers_not_interpolated"
   ],
   "note": "rocq/theories/Prop_Refine.v."
  },
  {
   "property": "C57",
   "status": "proved",
   "theorems": [
    "C57_mixed_kinds_silently_wrong"
   ],
   "note": "rocq/theories/Prop_Refine.v."
  },
  {
   "property": "C58",
   "status": "proved",
   "theorems": [
    "C58_smoothing_constant_layers_fails"
   ],
   "note": "rocq/theories/Prop_Refine.v."
  },
  {
   "property": "C59",
   "status": "proved",
   "theorems": [
    "C59_sum_layer"
   ],
   "note": "rocq/theories/Prop_Switch.v."
  },
  {
   "property": "C60",
   "status": "proved",
   "theorems": [
    "C60_order_of_keys_irrelevant"
   ],
   "note": "rocq/theories/Prop_Attention.v."
  },
  {
   "property": "C61",
   "status": "proved",
   "theorems": [
    "C61_relative_attention",
    "C61_masked_weights"
   ],
   "note": "rocq/theories/Prop_Relative.v."
  },
  {
   "property": "C62",
   "status": "proved",
   "theorems": [
    "C62_forward"
   ],
   "note": "rocq/theories/Prop_Vae.v."
  },
  {
   "property": "C63",
   "status": "proved",
   "theorems": [
    "C63_periodic_range"
   ],
   "note": "rocq/theories/Prop_Float.v."
  },
  {
   "property": "C64",
   "status": "proved",
   "theorems": [
    "C64_lengths_never_checked",
    "C64_extra_entries_ignored",
    "C64_short_lists"
   ],
   "note": "rocq/theories/Prop_ConvNet.v."
  },
  {
   "property": "C65",
   "status": "proved",
   "theorems": [
    "C65_global_average",
    "C65_pooling_too_wide",
    "C65_pooling_wrong",
    "C65_no_pooling",
    "C65_default_pooling_refuted"
   ],
   "note": "rocq/theories/Prop_ConvNet.v. C65_default_pooling_refuted: default pooling on layers of another dimension averages over channels."
  },
  {
   "property": "C66",
   "status": "proved",
   "theorems": [
    "C66_samples_independent",
    "C66_fresh_network_is_constant"
   ],
   "note": "rocq/theories/Prop_ConvNet.v."
  },
  {
   "property": "C67",
   "status": "proved",
   "theorems": [
    "C67_built",
    "C67_only_continuous2d",
    "C67_shape",
    "C67_samples_independent",
    "C67_mirror"
   ],
   "note": "rocq/theories/Prop_Deconv.v."
  },
  {
   "property": "C68",
   "status": "proved",
   "theorems": [
    "C68_eval",
    "C68_fresh",
    "C68_training",
    "C68_training_single"
   ],
   "note": "rocq/theories/Prop_Select.v."
  },
  {
   "property": "C69",
   "status": "proved",
   "theorems": [
    "C69_two_dimensional_fails"
   ],
   "note": "rocq/theories/Prop_Select.v."
  },
  {
   "property": "C70",
   "status": "proved",
   "theorems": [
    "C70_unknown_model_type",
    "C70_high_order_input_needs_top_level_output",
    "C70_layer_type_list",
    "C70_high_order_keys",
    "C70_conv_normalize_ignored"
   ],
   "note": "rocq/theories/Prop_Select.v."
  },
  {
   "property": "C72",
   "status": "proved",
   "theorems": [
    "C72_accuracy_and_loss",
    "C72_small_loss_all_right",
    "C72_ignored_label_refuted"
   ],
   "note": "rocq/theories/Prop_Step.v. C72_ignored_label_refuted: the bound fails with ignored labels."
  },
  {
   "property": "C73",
   "status": "proved",
   "theorems": [
    "C73_regression_loss",
    "C73_one_output",
    "C73_sizes"
   ],
   "note": "rocq/theories/Prop_Step.v."
  },
  {
   "property": "C75",
   "status": "proved",
   "theorems": [
    "C75_optimizer",
    "C75_monitored",
    "C75_logged"
   ],
   "note": "rocq/theories/Prop_Step.v."
  },
  {
   "property": "C71",
   "status": "proved",
   "theorems": [
    "C71_high_order",
    "C71_high_order_input"
   ],
   "note": "rocq/theories/Prop_Selected.v."
  },
  {
   "property": "C74",
   "status": "proved",
   "theorems": [
    "C74_conv_first_width",
    "C74_tail_first_width"
   ],
   "note": "rocq/theories/Prop_Lazy.v."
  },
  {
   "property": "C76",
   "status": "proved",
   "theorems": [
    "C76_network_initialisation",
    "C76_mlp_layers",
    "C76_initialised_mlp_affine"
   ],
   "note": "rocq/theories/Prop_Init.v."
  },
  {
   "property": "C77",
   "status": "proved",
   "theorems": [
    "C77_network_smoothing",
    "C77_smoothed_mlp_continuous",
    "C77_switch_layers_not_smoothed"
   ],
   "note": "rocq/theories/Prop_Init.v."
  },
  {
   "property": "C78",
   "status": "proved",
   "theorems": [
    "C78_elementwise_continuous",
    "C78_normalizations_continuous",
    "C78_relu_continuous",
    "C78_mlp_continuous"
   ],
   "note": "rocq/theories/Prop_Continuity.v, Prop_Init.v."
  },
  {
   "property": "C79",
   "status": "proved",
   "theorems": [
    "C79_bounded_weights_bound_output",
    "C79_linear_pieces_stay_between_weights",
    "C79_bounded_weights_bound_product",
    "C79_polynomial_layer",
    "C79_weights_are_no_bound_refuted"
   ],
   "note": "rocq/theories/Prop_Bounds.v. C79_weights_are_no_bound_refuted: with three nodes or more an output can exceed every weight."
  },
  {
   "property": "C80",
   "status": "proved",
   "theorems": [
    "C80_near_best_approximation",
    "C80_order_of_convergence",
    "C80_lipschitz",
    "C80_converges",
    "C80_sampling_layers_exist"
   ],
   "note": "rocq/theories/Prop_Approx.v."
  },
  {
   "property": "C81",
   "status": "proved",
   "theorems": [
    "C81_two_nodes_linear",
    "C81_every_linear_layer",
    "C81_one_segment_is_polynomial",
    "C81_shifting_links"
   ],
   "note": "rocq/theories/Prop_Approx.v."
  },
  {
   "property": "C82",
   "status": "proved",
   "theorems": [
    "C82_no_interaction",
    "C82_product_no_interaction",
    "C82_xor_without_hidden_layer_refuted",
    "C82_xor_exact_with_hidden_layer",
    "C82_continuous_never_matches_xor",
    "C82_mlp_xor_exact"
   ],
   "note": "rocq/theories/Prop_Represent.v, Prop_Universal.v. C82_xor_without_hidden_layer_refuted: no single layer represents xor."
  },
  {
   "property": "C83",
   "status": "proved",
   "theorems": [
    "C83_two_layers_approximate",
    "C83_mlp_universal"
   ],
   "note": "rocq/theories/Prop_Represent.v, Prop_Universal.v."
  },
  {
   "property": "C84",
   "status": "proved",
   "theorems": [
    "C84_first_call",
    "C84_later_calls",
    "C84_shift",
    "C84_parameters",
    "C84_continuous",
    "C84_table"
   ],
   "note": "rocq/theories/Prop_LayerNorm.v."
  },
  {
   "property": "C85",
   "status": "proved",
   "theorems": [
    "C85_fresh_output_constant",
    "C85_first_gradient_zero"
   ],
   "note": "rocq/theories/Prop_Fresh.v."
  },
  {
   "property": "C86",
   "status": "proved",
   "theorems": [
    "C86_piecewise_linear",
    "C86_function_linear",
    "C86_conv2d_linear",
    "C86_conv1d_linear",
    "C86_regression_no_spurious_minimum",
    "C86_product_layers_not_convex_refuted"
   ],
   "note": "rocq/theories/Prop_Convex.v. C86_product_layers_not_convex_refuted: the loss of product layers is not convex."
  },
  {
   "property": "C87",
   "status": "proved",
   "theorems": [
    "C87_layer_lipschitz",
    "C87_slope_attained",
    "C87_discontinuous_not_lipschitz_refuted",
    "C87_weight_perturbation",
    "C87_mlp_stable"
   ],
   "note": "rocq/theories/Prop_Lipschitz.v. C87_discontinuous_not_lipschitz_refuted: discontinuous layers have no Lipschitz constant."
  },
  {
   "property": "C88",
   "status": "proved",
   "theorems": [
    "C88_mlp_universal"
   ],
   "note": "rocq/theories/Prop_Dense.v."
  },
  {
   "property": "C91",
   "status": "proved",
   "theorems": [
    "C91_refinement_keeps_training",
    "C91_without_refinement",
    "C91_no_orders_no_training",
    "C91_epochs",
    "C91_fixed_types_lose_training",
    "C91_layers"
   ],
   "note": "rocq/theories/Prop_Refining.v, Prop_Stages.v."
  },
  {
   "property": "C89",
   "status": "proved",
   "theorems": [
    "C89_elementwise",
    "C89_normalisations",
    "C89_mlp_samples",
    "C89_low_order_samples",
    "C89_selection",
    "C89_batch_norm_training_refuted"
   ],
   "note": "rocq/theories/Prop_Rows.v. C89_batch_norm_training_refuted: batch normalisation in training mode mixes samples."
  },
  {
   "property": "C90",
   "status": "proved",
   "theorems": [
    "C90_logits",
    "C90_construction",
    "C90_pixel_order",
    "C90_samples_independent",
    "C90_no_interaction",
    "C90_continuous_nd_blind",
    "C90_collate",
    "C90_coordinates",
    "C90_images",
    "C90_rejected"
   ],
   "note": "rocq/theories/Prop_Block.v."
  },
  {
   "property": "C92",
   "status": "proved",
   "theorems": [
    "C92_construction",
    "C92_shape",
    "C92_samples_independent",
    "C92_features",
    "C92_fresh",
    "C92_standard",
    "C92_rejections",
    "C92_single",
    "C92_double",
    "C92_standard_stages"
   ],
   "note": "rocq/theories/Prop_Images.v, Prop_Stages.v."
  },
  {
   "property": "C94",
   "status": "proved",
   "theorems": [
    "C94_shape",
    "C94_construction",
    "C94_samples_independent",
    "C94_fresh",
    "C94_other_sizes",
    "C94_standard_conv",
    "C94_layers",
    "C94_stages"
   ],
   "note": "rocq/theories/Prop_Images.v, Prop_Stages.v."
  },
  {
   "property": "C93",
   "status": "proved",
   "theorems": [
    "C93_target",
    "C93_polynomial_2d_fails",
    "C93_network",
    "C93_discontinuous_exact",
    "C93_continuous_nd_exact",
    "C93_continuous_error"
   ],
   "note": "rocq/theories/Prop_Stages.v, Prop_Xor.v."
  },
  {
   "property": "C95",
   "status": "proved",
   "theorems": [
    "C95_weights_determined",
    "C95_one_input",
    "C95_agreement_extends"
   ],
   "note": "rocq/theories/Prop_Identify.v."
  },
  {
   "property": "C96",
   "status": "proved",
   "theorems": [
    "C96_polynomial_converges",
    "C96_fourier_converges",
    "C96_fourier_needs_equal_ends",
    "C96_fourier_iff"
   ],
   "note": "rocq/theories/Prop_Series.v."
  },
  {
   "property": "C97",
   "status": "proved",
   "theorems": [
    "C97_network",
    "C97_one_node_constant",
    "C97_segments",
    "C97_terms",
    "C97_product"
   ],
   "note": "rocq/theories/Prop_Function.v."
  },
  {
   "property": "C98",
   "status": "proved",
   "theorems": [
    "C98_batch_norm",
    "C98_batch_norm_accepts",
    "C98_built",
    "C98_only_continuous2d",
    "C98_forward",
    "C98_step",
    "C98_loss",
    "C98_sampled",
    "C98_fresh_ignores_images",
    "C98_shipped"
   ],
   "note": "rocq/theories/Prop_Stages.v, Prop_VaeExample.v."
  },
  {
   "property": "C99",
   "status": "proved",
   "theorems": [
    "C99_error",
    "C99_growth",
    "C99_nodes_exact",
    "C99_two_nodes",
    "C99_exists"
   ],
   "note": "rocq/theories/Prop_FloatLayers.v. Overflow and NaN are not modelled; nodes are those stored, whatever the library's cosine returned."
  },
  {
   "property": "C100",
   "status": "proved",
   "theorems": [
    "C100_segment",
    "C100_error",
    "C100_knots_exact",
    "C100_linear",
    "C100_exists"
   ],
   "note": "rocq/theories/Prop_FloatPiecewise.v. Overflow and NaN are not modelled; number of segments a power of two."
  },
  {
   "property": "C101",
   "status": "proved",
   "theorems": [
    "C101_conv2d",
    "C101_conv1d",
    "C101_whole_channels_2d",
    "C101_whole_channels_1d",
    "C101_default",
    "C101_default_constructor",
    "C101_groups_rejected_2d",
    "C101_constructible",
    "C101_constructible_1d",
    "C101_split_channel_refuted"
   ],
   "note": "rocq/theories/Prop_ConvOptions.v. C101_split_channel_refuted: groups that do not divide the channels are accepted and tear the basis functions of a channel apart."
  },
  {
   "property": "C102",
   "status": "proved",
   "theorems": [
    "C102_padded_image",
    "C102_too_much_padding",
    "C102_circular_translation",
    "C102_fresh_is_constant",
    "C102_zero_padding_refuted"
   ],
   "note": "rocq/theories/Prop_ConvOptions.v. C102_zero_padding_refuted: zero padding is no padding of the image by zero (or any) pixels."
  },
  {
   "property": "C103",
   "status": "proved",
   "theorems": [
    "C103_unvisited_weight",
    "C103_unvisited_weight_1d",
    "C103_bounded",
    "C103_rescaled_bounded",
    "C103_bounded_1d",
    "C103_lipschitz",
    "C103_lipschitz_1d"
   ],
   "note": "rocq/theories/Prop_ConvAnalysis.v. Length 2 for the non-Fourier families, as in C35/C79/C87."
  },
  {
   "property": "C104",
   "status": "proved",
   "theorems": [
    "C104_step",
    "C104_untouched",
    "C104_travel_bound",
    "C104_frozen",
    "C104_moves",
    "C104_exact_on_grid",
    "C104_tiny_gradient_refuted"
   ],
   "note": "rocq/theories/Prop_FloatLion.v. C104_tiny_gradient_refuted: a gradient different from zero can be ignored (underflow), so in floating point 'every coordinate with a gradient moves by lr' is false. Overflow, infinities and NaN are not modelled."
  },
  {
   "property": "C105",
   "status": "proved",
   "theorems": [
    "C105_inside",
    "C105_differentiable_off_knots",
    "C105_kink",
    "C105_two_nodes",
    "C105_bounded",
    "C105_periodic",
    "C105_turning_point",
    "C105_polynomial_smooth"
   ],
   "note": "rocq/theories/Prop_InputGrad.v. Derivatives of the function the layer computes over the reals; autograd itself is not modelled. Length 2, as in C35/C79/C87."
  },
  {
   "property": "C106",
   "status": "proved",
   "theorems": [
    "C106_error",
    "C106_continuous",
    "C106_polynomial",
    "C106_amplification"
   ],
   "note": "rocq/theories/Prop_FloatSegments.v. Extends C99/C100 to any number of segments and to nodes that are only near the Chebyshev-Lobatto points. Overflow, infinities and NaN are not modelled; no periodicity (C63 bounds the folding)."
  },
  {
   "property": "C107",
   "status": "proved",
   "theorems": [
    "C107_mlp_error",
    "C107_exists"
   ],
   "note": "rocq/theories/Prop_FloatNet.v. Networks of continuous layers without normalization, non-linearity or dropout; weights small enough that all values stay in [-1,1] with room for the error of one layer. Overflow, infinities and NaN are not modelled."
  },
  {
   "property": "C108",
   "status": "proved",
   "theorems": [
    "C108_training",
    "C108_no_dropout",
    "C108_all_dropped",
    "C108_dropout_one",
    "C108_range",
    "C108_mean",
    "C108_unbiased_output_refuted"
   ],
   "note": "rocq/theories/Prop_Dropout.v. Finding: C108_unbiased_output_refuted. Kept values leave [-1,1] as soon as they exceed 1-p (C108_range), where the polynomials of the next layer extrapolate. dropout=1 is accepted and makes the network constant in training. The decisions drawn are an argument; Networks with resnet: C112."
  },
  {
   "property": "C109",
   "status": "proved",
   "theorems": [
    "C109_value",
    "C109_gaps",
    "C109_locality",
    "C109_bounded",
    "C109_lipschitz",
    "C109_unvisited_weight",
    "C109_translation",
    "C109_reach",
    "C109_constant",
    "C109_even",
    "C109_checkerboard",
    "C109_rescaled",
    "C109_rescaled_average_refuted"
   ],
   "note": "rocq/theories/Prop_DeconvAnalysis.v. Finding: C109_rescaled_average_refuted (docstring: 'divided by the number of inputs for each output, in effect taking the average'). Checkerboards of constant layers whenever the stride does not divide the kernel (C109_checkerboard). Length 2, as in C38."
  },
  {
   "property": "C110",
   "status": "proved",
   "theorems": [
    "C110_step",
    "C110_converges",
    "C110_exists",
    "C110_sum_of_squares",
    "C110_root_bound",
    "C110_gain_piecewise",
    "C110_gain_polynomial",
    "C110_gain_fourier",
    "C110_gain_conv2d",
    "C110_piecewise",
    "C110_polynomial",
    "C110_fourier",
    "C110_conv2d",
    "C110_large_rate_diverges_refuted"
   ],
   "note": "rocq/theories/Prop_Descent.v. Real arithmetic; gradient descent is torch.optim.SGD without momentum on the whole data set (the library's own optimizers are Adam and Lion, C29/C105 for SparseLion). Finding: C110_large_rate_diverges_refuted: rates above 1 diverge on a one-weight layer, so no rate works for all layers. Convolutions: length 2 and images in range (Fourier: none)."
  },
  {
   "property": "C111",
   "status": "proved",
   "theorems": [
    "C111_training",
    "C111_mean",
    "C111_weights",
    "C111_all_dropped",
    "C111_average_of_values_refuted",
    "C111_no_dropout"
   ],
   "note": "rocq/theories/Prop_AttnDropout.v. Finding: C111_average_of_values_refuted: a training step does not use weights that sum to 1 (they are not renormalised after the dropout), only their mean does. The decisions drawn are an argument."
  },
  {
   "property": "C112",
   "status": "proved",
   "theorems": [
    "C112_plain",
    "C112_activation",
    "C112_normalization",
    "C112_dropout_evaluation",
    "C112_idempotent_activation",
    "C112_training",
    "C112_added_in_training",
    "C112_zero_layers",
    "C112_adds_previous_result_refuted"
   ],
   "note": "rocq/theories/Prop_Resnet.v. Finding: C112_adds_previous_result_refuted: networks.py says the result of the previous layer is added; without dropout and without an idempotent activation it is not. With SumLayer's layers unregistered (C45) those layers are also not trained. Layer types: continuous and discontinuous."
  },
  {
   "property": "C113",
   "status": "proved",
   "theorems": [
    "C113_constructible",
    "C113_value",
    "C113_whole_channels",
    "C113_default",
    "C113_default_constructor",
    "C113_groups_independent",
    "C113_split_channel_refuted"
   ],
   "note": "rocq/theories/Prop_DeconvOptions.v. C113_split_channel_refuted: finding - a number of groups dividing only the number of expanded channels is accepted and gives an output channel a part of the basis functions of an input channel."
  },
  {
   "property": "C114",
   "status": "proved",
   "theorems": [
    "C114_pieces",
    "C114_linear",
    "C114_constant",
    "C114_far_away",
    "C114_no_sine",
    "C114_degree_attained"
   ],
   "note": "rocq/theories/Prop_Lines.v. Finding: extrapolation of a trained network always ends in a constant or a blow-up of degree up to (n-1)^(layers); C114_no_sine contrasts with the uniform approximation on bounded sets (C83, C88). The degree is attained (C114_degree_attained); the bound on the number of pieces is an upper bound."
  },
  {
   "property": "C115",
   "status": "proved",
   "theorems": [
    "C115_unreached",
    "C115_unreached_gradient",
    "C115_training",
    "C115_training_first_layer",
    "C115_backprop",
    "C115_backprop_input",
    "C115_mean_squares",
    "C115_errors_exist",
    "C115_shares_exist"
   ],
   "note": "rocq/theories/Prop_Backprop.v. Losses are arbitrary functions of the outputs for the statements on unreached weights and functions for which the chain rule holds along curves for backpropagation (C115_mean_squares: the mean squared error is one). C115_errors_exist shows that the hypotheses on slopes and errors can be met whenever no layer input is at a knot."
  },
  {
   "property": "C116",
   "status": "proved",
   "theorems": [
    "C116_normalisations",
    "C116_bounded",
    "C116_levels_off",
    "C116_no_wave"
   ],
   "note": "rocq/theories/Prop_Saturation.v. Complements C114 (without normalization: eventually constant or unbounded). C116_levels_off covers max_abs_normalization_last with continuous or switch_continuous hidden and output layers (the input layer may be discontinuous); for discontinuous later layers and the other two normalizations only boundedness is claimed. Periodicity is excluded."
  },
  {
   "property": "C117",
   "status": "proved",
   "theorems": [
    "C117_features",
    "C117_transform_mlp",
    "C117_transform_low_mlp",
    "C117_quadratic",
    "C117_bivariate",
    "C117_one_rotation",
    "C117_degree_bound"
   ],
   "note": "rocq/theories/Prop_Transform.v. Added after two seeded faults in transform_mlp and transform_low_mlp (rescaled outputs; rotations without normalization) left all width theorems (C43) intact. Finding: the docstring of fixed_rotation_layer gives the order [x, t, a(x+t), a(x-t)]; the order is x, a(x+t), a(x-t), t (C117_docstring_case)."
  },
  {
   "property": "C118",
   "status": "proved",
   "theorems": [
    "C118_low_order",
    "C118_affine"
   ],
   "note": "rocq/theories/Prop_LowOrder.v. The earlier theorems on LowOrderMLP (C43, rows) fixed widths and depth only; this states the function."
  }
 ]
}