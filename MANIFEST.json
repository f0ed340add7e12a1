{
 "claims": [
  {
   "property": "C01",
   "status": "proved",
   "theorems": [
    "C01_dense_expansion",
    "C01_expansion_unique"
   ],
   "note": ""
  },
  {
   "property": "C02",
   "status": "proved",
   "theorems": [
    "C02_hash_order",
    "C02_same_observations"
   ],
   "note": ""
  },
  {
   "property": "C03",
   "status": "proved",
   "theorems": [
    "C03_reductions_exact",
    "C03_reductions_order_free",
    "C03_f64_order_refuted",
    "C03_f64_sum_bound",
    "C03_f64_dot_bound",
    "C03_f64_sum_error",
    "C03_f64_layouts",
    "C03_f64_dot_error"
   ],
   "note": ""
  },
  {
   "property": "C04",
   "status": "proved",
   "theorems": [
    "C04_stack",
    "C04_stack_assoc",
    "C04_stack_panic",
    "C04_stack_overwrites_refuted"
   ],
   "note": ""
  },
  {
   "property": "C05",
   "status": "proved",
   "theorems": [
    "C05_map_pointwise",
    "C05_map_error",
    "C05_map_sparsity",
    "C05_map_panic",
    "C05_map_drops_small_refuted"
   ],
   "note": ""
  },
  {
   "property": "C06",
   "status": "proved",
   "theorems": [
    "C06_map_flavours"
   ],
   "note": ""
  },
  {
   "property": "C07",
   "status": "proved",
   "theorems": [
    "C07_merge_dense_dense",
    "C07_merge_sparse_dense",
    "C07_merge_dense_sparse",
    "C07_merge_dense_sparse_entries",
    "C07_merge_sparse_sparse",
    "C07_merge_product_refuted"
   ],
   "note": ""
  },
  {
   "property": "C08",
   "status": "proved",
   "theorems": [
    "C08_merge_flavours",
    "C08_merge_layouts"
   ],
   "note": ""
  },
  {
   "property": "C09",
   "status": "proved",
   "theorems": [
    "C09_remove",
    "C09_remove_laws",
    "C09_remove_sparse"
   ],
   "note": ""
  },
  {
   "property": "C10",
   "status": "proved",
   "theorems": [
    "C10_index",
    "C10_index_panic",
    "C10_get",
    "C10_index_ignores_activation_refuted"
   ],
   "note": ""
  },
  {
   "property": "C11",
   "status": "proved",
   "theorems": [
    "C11_dot_features",
    "C11_dot_sparse_counts",
    "C11_dot_sparse_iff",
    "C11_dot_unitary",
    "C11_dot_symmetric",
    "C11_dot_sparse_refuted"
   ],
   "note": ""
  },
  {
   "property": "C12",
   "status": "proved",
   "theorems": [
    "C12_sparse",
    "C12_unitary",
    "C12_from_indices",
    "C12_from_sparse_activations",
    "C12_from_sparse_activations_dim_refuted"
   ],
   "note": ""
  },
  {
   "property": "C13",
   "status": "proved",
   "theorems": [
    "C13_equality",
    "C13_equality_layouts",
    "C13_equality_f64"
   ],
   "note": ""
  },
  {
   "property": "C14",
   "status": "proved",
   "theorems": [
    "C14_n_active_sparse",
    "C14_n_active_dense",
    "C14_n_active_expand",
    "C14_n_active_expand_f64"
   ],
   "note": ""
  },
  {
   "property": "C15",
   "status": "proved",
   "theorems": [
    "C15_scaled_addto",
    "C15_addto",
    "C15_misfit",
    "C15_addto_is_scaled",
    "C15_addto_is_scaled_f64"
   ],
   "note": ""
  },
  {
   "property": "C16",
   "status": "proved",
   "theorems": [
    "C16_dimension",
    "C16_fixed_sparse_refuted"
   ],
   "note": ""
  },
  {
   "property": "C17",
   "status": "proved",
   "theorems": [
    "C17_ith_project",
    "C17_ith_normaliser",
    "C17_fixed_dense_refuted",
    "C17_default"
   ],
   "note": ""
  },
  {
   "property": "C18",
   "status": "proved",
   "theorems": [
    "C18_out_of_range",
    "C18_defined"
   ],
   "note": ""
  },
  {
   "property": "C19",
   "status": "proved",
   "theorems": [
    "C19_enumeration",
    "C19_unique",
    "C19_sizes",
    "C19_sort"
   ],
   "note": ""
  },
  {
   "property": "C20",
   "status": "proved",
   "theorems": [
    "C20_monomials",
    "C20_with_zeroth"
   ],
   "note": ""
  },
  {
   "property": "C21",
   "status": "proved",
   "theorems": [
    "C21_projection",
    "C21_polynomials",
    "C21_recurrence",
    "C21_inside",
    "C21_with_zeroth"
   ],
   "note": ""
  },
  {
   "property": "C22",
   "status": "proved",
   "theorems": [
    "C22_projection",
    "C22_bounded",
    "C22_corner",
    "C22_periodic",
    "C22_even"
   ],
   "note": ""
  },
  {
   "property": "C23",
   "status": "proved",
   "theorems": [
    "C23_symmetric",
    "C23_peak",
    "C23_self",
    "C23_formula",
    "C23_matern52_refuted",
    "C23_short_lengthscales",
    "C23_defaults",
    "C23_constructors",
    "C23_kernel_basis"
   ],
   "note": ""
  },
  {
   "property": "C24",
   "status": "proved",
   "theorems": [
    "C24_features",
    "C24_no_memory",
    "C24_same_cells"
   ],
   "note": ""
  },
  {
   "property": "C25",
   "status": "proved",
   "theorems": [
    "C25_one_hot",
    "C25_panics",
    "C25_cells",
    "C25_onto",
    "C25_surplus"
   ],
   "note": ""
  },
  {
   "property": "C26",
   "status": "proved",
   "theorems": [
    "C26_exact",
    "C26_f64",
    "C26_f64_zero"
   ],
   "note": ""
  },
  {
   "property": "C27",
   "status": "proved",
   "theorems": [
    "C27_exact",
    "C27_f64_refuted",
    "C27_f64"
   ],
   "note": ""
  },
  {
   "property": "C28",
   "status": "proved",
   "theorems": [
    "C28_exact",
    "C28_f64",
    "C28_is_projection"
   ],
   "note": ""
  },
  {
   "property": "C29",
   "status": "proved",
   "theorems": [
    "C29_exact",
    "C29_f64_sparse",
    "C29_f64_empty"
   ],
   "note": ""
  },
  {
   "property": "C30",
   "status": "proved",
   "theorems": [
    "C30_stack",
    "C30_with_bias"
   ],
   "note": ""
  },
  {
   "property": "C31",
   "status": "proved",
   "theorems": [
    "C31_step_one_exact",
    "C31_step_one_f64"
   ],
   "note": ""
  },
  {
   "property": "C32",
   "status": "proved",
   "theorems": [
    "C32_sgd_touches",
    "C32_sgd_effect"
   ],
   "note": ""
  },
  {
   "property": "C33",
   "status": "proved",
   "theorems": [
    "C33_isgd_implicit",
    "C33_isgd_no_overshoot"
   ],
   "note": ""
  },
  {
   "property": "C34",
   "status": "proved",
   "theorems": [
    "C34_momentum_history",
    "C34_momentum_zero"
   ],
   "note": ""
  },
  {
   "property": "C35",
   "status": "proved",
   "theorems": [
    "C35_nag_history",
    "C35_nag_zero_is_sgd",
    "C35_nag_drift",
    "C35_zero_error_refuted"
   ],
   "note": ""
  },
  {
   "property": "C36",
   "status": "proved",
   "theorems": [
    "C36_adagrad_history",
    "C36_adagrad_step_bound"
   ],
   "note": ""
  },
  {
   "property": "C37",
   "status": "proved",
   "theorems": [
    "C37_adam_history",
    "C37_second_moment_nonneg",
    "C37_constant_gradient"
   ],
   "note": ""
  },
  {
   "property": "C38",
   "status": "proved",
   "theorems": [
    "C38_adamax_history",
    "C38_infinity_norm"
   ],
   "note": ""
  },
  {
   "property": "C39",
   "status": "proved",
   "theorems": [
    "C39_reset_is_fresh",
    "C39_reset_any_scalar",
    "C39_reset_adam",
    "C39_reset_adamax",
    "C39_adamax_reset_differs",
    "C39_adam_reset_differs"
   ],
   "note": ""
  },
  {
   "property": "C40",
   "status": "proved",
   "theorems": [
    "C40_same_weights",
    "C40_expansion_content",
    "C40_adam_moments",
    "C40_adamax_moments",
    "C40_adam_frozen",
    "C40_adamax_frozen",
    "C40_adam_weights_refuted",
    "C40_adamax_weights_refuted"
   ],
   "note": ""
  },
  {
   "property": "C41",
   "status": "proved",
   "theorems": [
    "C41_step_scaled_ok",
    "C41_step_ok",
    "C41_training_ok"
   ],
   "note": ""
  },
  {
   "property": "C42",
   "status": "proved",
   "theorems": [
    "C42_scalar",
    "C42_vector",
    "C42_f64",
    "C42_f64_infinite_refuted"
   ],
   "note": ""
  },
  {
   "property": "C43",
   "status": "proved",
   "theorems": [
    "C43_scalar",
    "C43_vector"
   ],
   "note": ""
  },
  {
   "property": "C44",
   "status": "proved",
   "theorems": [
    "C44_scalar",
    "C44_vector_storage",
    "C44_vector",
    "C44_layout_refuted"
   ],
   "note": ""
  },
  {
   "property": "C45",
   "status": "proved",
   "theorems": [
    "C45_scalar",
    "C45_vector",
    "C45_library"
   ],
   "note": ""
  },
  {
   "property": "C46",
   "status": "proved",
   "theorems": [
    "C46_independent",
    "C46_sgd_isgd",
    "C46_stateful_refuted",
    "C46_momentum_leak"
   ],
   "note": ""
  },
  {
   "property": "C47",
   "status": "proved",
   "theorems": [
    "C47_evaluate_index",
    "C47_index_panics",
    "C47_iterator",
    "C47_iter_panics",
    "C47_evaluates"
   ],
   "note": ""
  },
  {
   "property": "C48",
   "status": "proved",
   "theorems": [
    "C48_update_index",
    "C48_update_columns",
    "C48_surplus_ignored"
   ],
   "note": ""
  },
  {
   "property": "C49",
   "status": "proved",
   "theorems": [
    "C49_every_column_stepped",
    "C49_update_with"
   ],
   "note": ""
  },
  {
   "property": "C50",
   "status": "proved",
   "theorems": [
    "C50_sgd",
    "C50_isgd"
   ],
   "note": ""
  },
  {
   "property": "C51",
   "status": "proved",
   "theorems": [
    "C51_sgd",
    "C51_isgd",
    "C51_bound_tight_refuted"
   ],
   "note": ""
  },
  {
   "property": "C52",
   "status": "proved",
   "theorems": [
    "C52_roundtrip",
    "C52_map_accepts",
    "C52_seq_accepts",
    "C52_panics",
    "C52_duplicates",
    "C52_missing",
    "C52_unknown",
    "C52_zeroth_refuted"
   ],
   "note": ""
  },
  {
   "property": "C53",
   "status": "proved",
   "theorems": [
    "C53_index_error",
    "C53_display",
    "C53_kind_refuted"
   ],
   "note": ""
  },
  {
   "property": "C54",
   "status": "proved",
   "theorems": [
    "C54_binning",
    "C54_cell_width",
    "C54_overflow_checked",
    "C54_overflow_wrapping"
   ],
   "note": ""
  },
  {
   "property": "C55",
   "status": "proved",
   "theorems": [
    "C55_projects",
    "C55_first_failure",
    "C55_all_leaves",
    "C55_scalar",
    "C55_vector"
   ],
   "note": ""
  },
  {
   "property": "C56",
   "status": "proved",
   "theorems": [
    "C56_step",
    "C56_training",
    "C56_approximator",
    "C56_reals",
    "C56_isgd_f64_refuted"
   ],
   "note": ""
  },
  {
   "property": "C57",
   "status": "proved",
   "theorems": [
    "C57_dense_strict",
    "C57_dense_broadcast",
    "C57_dense_adam",
    "C57_adam_prefix",
    "C57_adamax_prefix",
    "C57_adagrad_never_panics",
    "C57_adagrad_prefix",
    "C57_adagrad_truncates",
    "C57_adagrad_ignores",
    "C57_sparse",
    "C57_sparse_dim_unused"
   ],
   "note": ""
  },
  {
   "property": "C58",
   "status": "proved",
   "theorems": [
    "C58_slots",
    "C58_shared",
    "C58_common_run",
    "C58_next_bin",
    "C58_same_cell_refuted"
   ],
   "note": ""
  },
  {
   "property": "C59",
   "status": "proved",
   "theorems": [
    "C59_sgd_regret",
    "C59_isgd_regret",
    "C59_sgd_realisable",
    "C59_isgd_realisable",
    "C59_mistakes"
   ],
   "note": ""
  },
  {
   "property": "C60",
   "status": "proved",
   "theorems": [
    "C60_fourier_space",
    "C60_chebyshev_space",
    "C60_kernel_prototypes",
    "C60_kernel_empty",
    "C60_grid_kernel",
    "C60_kernel_centre",
    "C60_fourier_degenerate"
   ],
   "note": ""
  },
  {
   "property": "C61",
   "status": "proved",
   "theorems": [
    "C61_isgd_rate",
    "C61_adagrad_grows",
    "C61_adagrad_saturated",
    "C61_adagrad_history",
    "C61_adam_history",
    "C61_adamax_history",
    "C61_invariants",
    "C61_isgd_rate_refuted",
    "C61_adam_refuted"
   ],
   "note": ""
  },
  {
   "property": "C62",
   "status": "proved",
   "theorems": [
    "C62_bases",
    "C62_dim_overflow",
    "C62_stack",
    "C62_stack_checked",
    "C62_stack_wraps",
    "C62_stack_refuted",
    "C62_grid",
    "C62_grid_refuted",
    "C62_from_indices",
    "C62_from_sparse",
    "C62_dot_count",
    "C62_dot_refuted"
   ],
   "note": ""
  },
  {
   "property": "C63",
   "status": "proved",
   "theorems": [
    "C63_same_machine",
    "C63_addto",
    "C63_scaled_addto",
    "C63_still_usable",
    "C63_dense",
    "C63_sparse",
    "C63_atomic_refuted",
    "C63_velocity_refuted",
    "C63_adagrad",
    "C63_scalar_update",
    "C63_vector_update",
    "C63_map_inplace",
    "C63_merge_inplace",
    "C63_inplace_pure",
    "C63_inplace_refuted",
    "C63_initialised",
    "C63_assume_init",
    "C63_merge_initialised",
    "C63_unchecked_read",
    "C63_unchecked_read_refuted"
   ],
   "note": ""
  },
  {
   "property": "C64",
   "status": "proved",
   "theorems": [
    "C64_standard",
    "C64_standard_closed",
    "C64_elementwise",
    "C64_stack",
    "C64_stack_refuted",
    "C64_to_vec",
    "C64_to_vec_refuted"
   ],
   "note": ""
  },
  {
   "property": "C65",
   "status": "proved",
   "theorems": [
    "C65_runs",
    "C65_noise_free",
    "C65_progress",
    "C65_stuck_refuted",
    "C65_corners",
    "C65_noisy",
    "C65_assertion",
    "C65_assertion_refuted"
   ],
   "note": ""
  },
  {
   "property": "C66",
   "status": "proved",
   "theorems": [
    "C66_features",
    "C66_dense_order_refuted",
    "C66_bases",
    "C66_polynomial",
    "C66_grid",
    "C66_fourier",
    "C66_kernels",
    "C66_constant",
    "C66_bin_state",
    "C66_l1",
    "C66_l2",
    "C66_norms_return",
    "C66_randomised_refuted",
    "C66_compare_floats",
    "C66_compare_floats_refuted",
    "C66_eq_with_nan",
    "C66_checks"
   ],
   "note": ""
  },
  {
   "property": "C67",
   "status": "proved",
   "theorems": [
    "C67_invariant",
    "C67_from_vec",
    "C67_pair_history",
    "C67_discover",
    "C67_discovered_iff",
    "C67_copies",
    "C67_duplicates_refuted",
    "C67_dense_active_refuted",
    "C67_dense_inactive_refuted",
    "C67_representation_refuted",
    "C67_project_sparse",
    "C67_conjunction_refuted",
    "C67_project_dense",
    "C67_nan",
    "C67_stall_refuted",
    "C67_test"
   ],
   "note": "The file is not compiled and calls APIs that no longer exist; Ifdd.v states how it is read. The _refuted theorems are the ways it departs from what feature discovery should do."
  },
  {
   "property": "C68",
   "status": "proved",
   "theorems": [
    "C68_psd",
    "C68_scalar",
    "C68_cosine_1d",
    "C68_cosine_refuted",
    "C68_matern52_refuted",
    "C68_matern52_sqrt5",
    "C68_lengths_refuted"
   ],
   "note": "Over the reals. The hypothesis that lengthscales are nonzero excludes Coq's total division. C68_matern52_sqrt5 is about the formula the code's variable name asks for, not the code."
  },
  {
   "property": "C69",
   "status": "proved",
   "theorems": [
    "C69_subset",
    "C69_resumed",
    "C69_isolated",
    "C69_stack",
    "C69_relabelled",
    "C69_isgd_refuted",
    "C69_stack_mixed_refuted"
   ],
   "note": "picks_opt (Locality.v) relates hyper-parameters by equality and buffers index by index. C69_subset, isolated and stack start from new optimisers, C69_resumed from any related states. blind calls exclude update closures that look at the features."
  },
  {
   "property": "C70",
   "status": "proved",
   "theorems": [
    "C70_grid",
    "C70_table",
    "C70_once_refuted",
    "C70_overflow_refuted",
    "C70_half_refuted"
   ],
   "note": "Values are compared as reals, so the sign of a zero is not claimed. into_range is the contract of spaces::Equipartition."
  },
  {
   "property": "C71",
   "status": "proved",
   "theorems": [
    "C71_limit",
    "C71_iff",
    "C71_same",
    "C71_targets",
    "C71_passes",
    "C71_rate_refuted"
   ],
   "note": "settled: the weights predict the sample's target, or its features are all zero so that no update can change anything. steady: the rates. Exact arithmetic; f64 behaviour of repeated updates is in C61 and C70."
  },
  {
   "property": "C72",
   "status": "proved",
   "theorems": [
    "C72_momentum_rate",
    "C72_momentum_iff",
    "C72_nag_limit",
    "C72_nag_refuted"
   ],
   "note": "tends: evaluations after k fit calls converge. The NAG offset comes from the momentum term the code adds to each component, see C35."
  },
  {
   "property": "C73",
   "status": "proved",
   "theorems": [
    "C73_adagrad"
   ],
   "note": "The rate may be arbitrarily large: the accumulator tames it."
  },
  {
   "property": "C74",
   "status": "proved",
   "theorems": [
    "C74_adam",
    "C74_adamax",
    "C74_cycle_refuted"
   ],
   "note": "Only beta1 = 0 is covered: the other moment makes the recurrence second order and time dependent. EPS = 1e-7 is the constant in both files."
  },
  {
   "property": "C75",
   "status": "proved",
   "theorems": [
    "C75_definite",
    "C75_interpolate",
    "C75_iff",
    "C75_training",
    "C75_partitioned",
    "C75_matern52_refuted",
    "C75_cosine_refuted",
    "C75_power_refuted",
    "C75_lengthscales_refuted"
   ],
   "note": "The SGD rate is sufficient, from the bound of C23; C71 gives the sharper condition on each sample. Matern52 fails because of its exponent, see C23."
  },
  {
   "property": "C76",
   "status": "proved",
   "theorems": [
    "C76_number",
    "C76_optimiser_eq",
    "C76_zeros",
    "C76_optimiser",
    "C76_kernel",
    "C76_kernel_scalar",
    "C76_kernel_refuted",
    "C76_basis",
    "C76_chebyshev",
    "C76_scalar",
    "C76_vector",
    "C76_limits_refuted",
    "C76_walk_refuted"
   ],
   "note": "LFA itself derives no PartialEq; the theorem compares its parts. Hash builders, partitions, function pointers and closures have equalities of their own, taken to be the identity."
  },
  {
   "property": "C77",
   "status": "proved",
   "theorems": [
    "C77_step",
    "C77_drift",
    "C77_regret",
    "C77_repeat",
    "C77_stable",
    "C77_predict",
    "C77_nearer_refuted"
   ],
   "note": "The bounds hold for sums in any order. The reference weights need not fit the samples: what they leave is part of the bound."
  },
  {
   "property": "C78",
   "status": "proved",
   "theorems": [
    "C78_optimiser",
    "C78_kernel",
    "C78_error",
    "C78_features",
    "C78_basis",
    "C78_scalar",
    "C78_vector",
    "C78_resume",
    "C78_zeroth_refuted",
    "C78_hasher_refuted"
   ],
   "note": "Formats are modelled as what they hand to the visitors; implementations outside the crate (hash builders, equipartitions, closures) are assumed to give back what they wrote."
  },
  {
   "property": "C79",
   "status": "proved",
   "theorems": [
    "C79_struct",
    "C79_basis",
    "C79_order",
    "C79_unknown",
    "C79_errors",
    "C79_values",
    "C79_variants",
    "C79_arrays",
    "C79_array_errors",
    "C79_short",
    "C79_total",
    "C79_features_refuted",
    "C79_optimiser_refuted"
   ],
   "note": ""
  },
  {
   "property": "C80",
   "status": "proved",
   "theorems": [
    "C80_one_axis",
    "C80_dense",
    "C80_dense_panics",
    "C80_sparse",
    "C80_agree_refuted"
   ],
   "note": "usize indexes ndarray's Ix1 and IxDyn arrays only (ndarray 0.15), so these are all the arrays the functions accept."
  },
  {
   "property": "C81",
   "status": "proved",
   "theorems": [
    "C81_card",
    "C81_stack",
    "C81_polynomial",
    "C81_fourier",
    "C81_card_refuted",
    "C81_grid"
   ],
   "note": ""
  },
  {
   "property": "C82",
   "status": "proved",
   "theorems": [
    "C82_values",
    "C82_scalar",
    "C82_vector",
    "C82_limit",
    "C82_fixed_refuted",
    "C82_exact_refuted"
   ],
   "note": "All NaNs are one value in the model, so a NaN payload may differ between rounds. The functions passed to update_with are functions of their arguments."
  },
  {
   "property": "C83",
   "status": "proved",
   "theorems": [
    "C83_share",
    "C83_panics",
    "C83_mixed_refuted",
    "C83_fit",
    "C83_passes",
    "C83_grid"
   ],
   "note": "What an output sees of a call is the relation on_output. Stateful optimisers couple outputs: C46."
  },
  {
   "property": "C84",
   "status": "proved",
   "theorems": [
    "C84_energy",
    "C84_rate",
    "C84_drift",
    "C84_regret",
    "C84_repeat",
    "C84_stable",
    "C84_sgd_refuted"
   ],
   "note": "calm/steady are the conditions on a sample: representable by finite features and explained up to tau. The bound 5/4 needs n + 5 <= 2^49."
  },
  {
   "property": "C85",
   "status": "proved",
   "theorems": [
    "C85_regret",
    "C85_squares",
    "C85_realisable",
    "C85_table_stays",
    "C85_table",
    "C85_away_refuted"
   ],
   "note": "stays is the condition that weight i is never found further than D_i from the reference; C85_table_stays removes it for tables."
  },
  {
   "property": "C86",
   "status": "proved",
   "theorems": [
    "C86_sgd",
    "C86_isgd",
    "C86_predict"
   ],
   "note": "tame/steady are the conditions on a sample of C77/C84, asked of every output."
  },
  {
   "property": "C87",
   "status": "proved",
   "theorems": [
    "C87_powi",
    "C87_polynomial_unit",
    "C87_polynomial_relative",
    "C87_literals",
    "C87_chebyshev",
    "C87_pi",
    "C87_fourier",
    "C87_exact_refuted"
   ],
   "note": "powers P: p_powi is reached by multiplications only (any order, as compiler-rt does); the cosine's accuracy is a parameter. RoundedPlatform meets both. The Chebyshev bound uses that T_k is Lipschitz with constant k^2."
  },
  {
   "property": "C88",
   "status": "proved",
   "theorems": [
    "C88_symmetric",
    "C88_self",
    "C88_range",
    "C88_far",
    "C88_matern_refuted",
    "C88_distance",
    "C88_value",
    "C88_scalar",
    "C88_features"
   ],
   "note": "The accuracy of exp, ln_1p and cos is a parameter (exp within eps relative or the smallest subnormal; ln_1p relative; cos absolute up to 2^300). IeeePlatform, with correctly rounded functions, meets all assumptions. The error bound assumes 0 <= variance, variance <= 2^400 for Matern and 0 <= power <= 2^64 for RationalQuadratic."
  },
  {
   "property": "C89",
   "status": "proved",
   "theorems": [
    "C89_polynomial",
    "C89_chebyshev",
    "C89_fourier",
    "C89_same",
    "C89_without_zeroth",
    "C89_training",
    "C89_extra_refuted",
    "C89_fourier_plane_refuted"
   ],
   "note": "The two-dimensional Fourier case fails and is stated as a refutation; in one dimension the claim is proved."
  },
  {
   "property": "C90",
   "status": "proved",
   "theorems": [
    "C90_velocity",
    "C90_below_one",
    "C90_momentum_history",
    "C90_nag_history",
    "C90_invariants",
    "C90_quiet",
    "C90_vanish",
    "C90_lost",
    "C90_reset",
    "C90_counts",
    "C90_beyond_one_refuted",
    "C90_activations_refuted"
   ],
   "note": ""
  },
  {
   "property": "C91",
   "status": "proved",
   "theorems": [
    "C91_same_program",
    "C91_runs",
    "C91_noise_free",
    "C91_assertion",
    "C91_assertion_refuted",
    "C91_stuck_refuted"
   ],
   "note": "The samples and noises are arguments; rand and rand_distr are not modelled."
  },
  {
   "property": "C92",
   "status": "proved",
   "theorems": [
    "C92_update",
    "C92_list",
    "C92_endless",
    "C92_shared",
    "C92_shared_refuted",
    "C92_take",
    "C92_first_none"
   ],
   "note": "Zip is modelled as asking the errors first and the columns second (its behaviour for iterators without a specialisation, which ndarray's column iterators are). What a panicking next leaves in the iterator itself is not modelled."
  },
  {
   "property": "C93",
   "status": "proved",
   "theorems": [
    "C93_l1",
    "C93_l2",
    "C93_sgd_rate",
    "C93_linf",
    "C93_twice_refuted",
    "C93_sum_refuted",
    "C93_l0"
   ],
   "note": ""
  },
  {
   "property": "C94",
   "status": "proved",
   "theorems": [
    "C94_adam",
    "C94_adamax",
    "C94_adam_sharp",
    "C94_adamax_sharp",
    "C94_adam_travel",
    "C94_adamax_travel",
    "C94_adamax_no_momentum",
    "C94_first_step",
    "C94_rate_refuted",
    "C94_adam_unbounded",
    "C94_adamax_unbounded"
   ],
   "note": ""
  },
  {
   "property": "C95",
   "status": "proved",
   "theorems": [
    "C95_inner_products",
    "C95_iff",
    "C95_rotation",
    "C95_combination",
    "C95_orthogonal",
    "C95_adaptive_refuted"
   ],
   "note": ""
  },
  {
   "property": "C96",
   "status": "proved",
   "theorems": [
    "C96_sgd",
    "C96_isgd",
    "C96_mistakes",
    "C96_recurrence",
    "C96_follows",
    "C96_ramp",
    "C96_catches_up_refuted"
   ],
   "note": ""
  },
  {
   "property": "C97",
   "status": "proved",
   "theorems": [
    "C97_stays",
    "C97_predicts",
    "C97_error",
    "C97_spreads",
    "C97_for_ever",
    "C97_contained",
    "C97_contained_refuted",
    "C97_outputs_refuted"
   ],
   "note": ""
  },
  {
   "property": "C98",
   "status": "proved",
   "theorems": [
    "C98_disjoint",
    "C98_given",
    "C98_orthogonal",
    "C98_pair",
    "C98_pair_isgd",
    "C98_momentum",
    "C98_adagrad",
    "C98_adagrad_refuted",
    "C98_given_refuted"
   ],
   "note": ""
  }
 ]
}
