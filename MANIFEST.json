{
 "claims": [
  {
   "property": "C01",
   "status": "proved",
   "theorems": [
    "c01_bounded_by_exact",
    "c01_bounded_by_error",
    "c01_product_set_exact",
    "c01_product_set_power"
   ],
   "note": ""
  },
  {
   "property": "C02",
   "status": "proved",
   "theorems": [
    "c02_sub2ind_total_on_range",
    "c02_ind2sub_total_on_range",
    "c02_ind2sub_inverts_sub2ind",
    "c02_sub2ind_inverts_ind2sub",
    "c02_enumeration_is_bounded_by"
   ],
   "note": ""
  },
  {
   "property": "C03",
   "status": "partial",
   "theorems": [
    "c03_bounded_norm_1_exact",
    "c03_hyperbolic_cross_exact",
    "c03_weighted_norm_exact",
    "c03_bounded_norm_p_refuted",
    "c03_bounded_norm_p_partial",
    "c03_bounded_norm_inf_refuted",
    "c03_low_order_refuted",
    "c03_low_order_partial",
    "c03_weighted_hyperbolic_refuted",
    "c03_weighted_hyperbolic_partial"
   ],
   "note": "Exact for with_bounded_norm(p=1), hyperbolic_cross_set, with_bounded_weighted_norm. The full claim is false of the code (witness theorems *_refuted) for with_bounded_norm(p>=2), low_order_interactions and weighted_hyperbolic_cross_set (early stop of the growth loop); what remains true of them is in the *_partial theorems."
  },
  {
   "property": "C04",
   "status": "proved",
   "theorems": [
    "c04_add_is_union",
    "c04_remove_is_difference",
    "c04_remove_positions",
    "c04_intersect_is_intersection"
   ],
   "note": ""
  },
  {
   "property": "C05",
   "status": "proved",
   "theorems": [
    "c05_margin_exact",
    "c05_reduced_margin_exact",
    "c05_maximal_exact",
    "c05_downward_closed_decided",
    "c05_adaptive_enrichment_stays_closed",
    "c05_envelope"
   ],
   "note": ""
  },
  {
   "property": "C06",
   "status": "partial",
   "theorems": [
    "c06_sort_ascending",
    "c06_sort_ascending_default",
    "c06_sort_descending_is_permutation_partial",
    "c06_sort_descending_refuted",
    "c06_sort_by_norm",
    "c06_sort_by_weighted_norm"
   ],
   "note": "Ascending sort, sort_by_norm and sort_by_weighted_norm proved for every argsort meeting numpy's contract; mode='descend' of sort is refuted (ties reversed), only the permutation half holds."
  },
  {
   "property": "C07",
   "status": "proved",
   "theorems": [
    "c07_keep_dims_is_projection",
    "c07_remove_dims_is_projection"
   ],
   "note": ""
  },
  {
   "property": "C08",
   "status": "proved",
   "theorems": [
    "c08_integer2baseb",
    "c08_baseb2integer",
    "c08_default_digits",
    "c08_fast_setdiff",
    "c08_fast_intersect"
   ],
   "note": ""
  },
  {
   "property": "C09",
   "status": "proved",
   "theorems": [
    "c09_add_sub_mul_entries",
    "c09_scalar_entries",
    "c09_mismatch_error"
   ],
   "note": "numpy broadcasting: equal shapes and scalars proved, incompatible sizes refused; entries in any commutative ring"
  },
  {
   "property": "C10",
   "status": "proved",
   "theorems": [
    "c10_transpose_moves_axes",
    "c10_transpose_error",
    "c10_itranspose_undoes_transpose",
    "c10_transpose_undoes_itranspose",
    "c10_reshape_column_major",
    "c10_matricize_layout",
    "c10_matricize_default"
   ],
   "note": "all permutations and shapes"
  },
  {
   "property": "C11",
   "status": "proved",
   "theorems": [
    "c11_tensordot_is_contraction",
    "c11_tensordot_errors",
    "c11_tensor_matrix_product",
    "c11_tensor_matrix_product_default",
    "c11_tensor_vector_product",
    "c11_tensor_diagonal_matrix_product",
    "c11_dot_inner_product",
    "c11_reduce_sum"
   ],
   "note": "all dimension lists; numpy.tensordot is taken at its documented contract"
  },
  {
   "property": "C12",
   "status": "partial",
   "theorems": [
    "c12_cat_block",
    "c12_kron_entries",
    "c12_sub_tensor",
    "c12_eval_diag_all",
    "c12_eval_diag_some_dims",
    "c12_eval_diag_error",
    "c12_eval_at_indices_all_dims",
    "c12_eval_at_indices_default",
    "c12_eval_at_indices_one_dim",
    "c12_eval_at_indices_some_dims_refuted",
    "c12_eval_at_indices_some_dims_partial",
    "c12_tensor_matrix_product_eval_diag"
   ],
   "note": "eval_at_indices with several but not all dimensions is refuted (row-major index used on a column-major matricisation); proved for all dimensions, for one dimension, and when both positions agree; everything else proved"
  },
  {
   "property": "C13",
   "status": "partial",
   "theorems": [
    "c13_full",
    "c13_of_dense",
    "c13_of_diagonal",
    "c13_add",
    "c13_mul",
    "c13_dot",
    "c13_single_entry_dot_raises_refuted",
    "c13_transpose",
    "c13_reshape",
    "c13_eval_at_indices",
    "c13_tensor_matrix_product_eval_diag",
    "c13_tensor_vector_product",
    "c13_tensor_vector_product_returns",
    "c13_tensor_vector_product_all_dims_refuted",
    "c13_tensor_matrix_product",
    "c13_tensor_matrix_product_returns",
    "c13_dot_with_rank_one_metric"
   ],
   "note": "Proved for all well-formed sparse tensors. Refuted cases: tensor_vector_product over all dimensions returns a stale data array; dot raises when a tensor has a single stored entry (data squeezed to 0-d)."
  },
  {
   "property": "C14",
   "status": "partial",
   "theorems": [
    "c14_full",
    "c14_add_sub_mul_neg",
    "c14_dot",
    "c14_tensor_vector_product",
    "c14_tensor_vector_product_all",
    "c14_tensor_diagonal_matrix_product",
    "c14_cat",
    "c14_kron",
    "c14_transpose",
    "c14_eval_at_indices",
    "c14_eval_diag",
    "c14_eval_diag_some_dims_refuted",
    "c14_dot_with_rank_one_metric_refuted"
   ],
   "note": "Everything proved except eval_diag on non-adjacent dimensions and dot_with_rank_one_metric, which are refuted by counterexamples (wrong order of the result; matrices transposed)."
  },
  {
   "property": "C15",
   "status": "partial",
   "theorems": [
    "c15_full",
    "c15_add_sub",
    "c15_neg",
    "c15_tensor_matrix_product",
    "c15_tensor_vector_product",
    "c15_tensor_vector_product_all",
    "c15_reduce_sum",
    "c15_squeeze",
    "c15_eval_diag",
    "c15_eval_diag_twice_refuted",
    "c15_tensor_matrix_product_eval_diag",
    "c15_storage"
   ],
   "note": "All operations proved; the claim that evaluating leaves the tensor unchanged is refuted (eval_diag multiplies self.space[0] in place)."
  },
  {
   "property": "C16",
   "status": "partial",
   "theorems": [
    "c16_dot_equal_weights_partial",
    "c16_dot_rank_one_partial",
    "c16_dot_constant_weights_partial",
    "c16_dot_refuted"
   ],
   "note": "Refuted in general (unequal weights); proved when the weights are equal, constant on each side, or one rank is one."
  },
  {
   "property": "C17",
   "status": "partial",
   "theorems": [
    "c17_trivial",
    "c17_linear",
    "c17_balanced",
    "c17_permute",
    "c17_attributes",
    "c17_internal_leaves",
    "c17_level_loop",
    "c17_ascendants",
    "c17_descendants",
    "c17_add_child",
    "c17_change_root",
    "c17_change_root_modified",
    "c17_change_root_one_child_refuted",
    "c17_linear_one_refuted",
    "c17_random",
    "c17_sub_tree"
   ],
   "note": "Proved: trivial, linear (d>=2), balanced, random (any draws, arity >= 2), (i)permute, add_child, change_root (old root with >=2 children) with its list of modified nodes, sub_dimension_tree, and all attributes for every valid tree. Refuted: linear(1); change_root when the old root has one child."
  },
  {
   "property": "C18",
   "status": "proved",
   "theorems": [
    "c18_dims",
    "c18_node_with_dims"
   ],
   "note": "all valid trees"
  },
  {
   "property": "C19",
   "status": "partial",
   "theorems": [
    "c19_complete",
    "c19_sound_partial",
    "c19_sound_refuted"
   ],
   "note": "Completeness proved; soundness refuted by two trees with different numbers of nodes on a level (the comparison returns True), proved when the level counts agree."
  },
  {
   "property": "C20",
   "status": "partial",
   "theorems": [
    "c20_full",
    "c20_network",
    "c20_order1_refuted"
   ],
   "note": "Proved for every tree, active pattern and cores of order >= 2 (any root rank axis). Order 1 with an active leaf is refuted: full() ignores the core of the leaf."
  },
  {
   "property": "C21",
   "status": "proved",
   "theorems": [
    "c21_add",
    "c21_sub",
    "c21_neg",
    "c21_renumbered_refuted"
   ],
   "note": "Proved for tensors on the same tree (any ranks, any active leaves). c21_renumbered_refuted: for trees that == accepts but number the nodes differently, the code returns a wrong sum."
  },
  {
   "property": "C22",
   "status": "partial",
   "theorems": [
    "c22_scale",
    "c22_mul_partial",
    "c22_kron_partial",
    "c22_mul_unequal_refuted"
   ],
   "note": "Scaling proved; kron and * proved for equal active nodes and refuted otherwise (the core of the second tensor's extra active leaf is dropped)."
  },
  {
   "property": "C23",
   "status": "partial",
   "theorems": [
    "c23_tensor_matrix_product",
    "c23_diagonal_matrix_product",
    "c23_sub_tensor",
    "c23_tensor_matrix_product_eval_diag",
    "c23_squeeze",
    "c23_squeeze_all",
    "c23_squeeze_default",
    "c23_remove_unique_children",
    "c23_tensor_vector_product",
    "c23_tensor_vector_product_all",
    "c23_eval_diag",
    "c23_eval_diag_dims_partial",
    "c23_eval_diag_dims_unsupported",
    "c23_eval_diag_dims_refuted",
    "c23_eval_at_indices",
    "c23_eval_at_indices_transposed",
    "c23_eval_at_indices_one_dim",
    "c23_eval_at_indices_rows_partial",
    "c23_eval_at_indices_one_row_partial",
    "c23_eval_at_indices_one_row_all",
    "c23_eval_at_indices_one_row_refuted"
   ],
   "note": "Mode products, diagonal products, slicing, squeeze, remove_unique_children, tensor_vector_product, eval_diag(), eval_at_indices() (all dims, one dim) proved for all trees. eval_diag(dims) is refuted as an operation equal to the dense one: it needs a node with these dimensions, puts the diagonal first and overwrites a core of the operand; eval_at_indices with several dims and one row also removes other singleton dimensions. What holds of these is in the *_partial theorems."
  },
  {
   "property": "C24",
   "status": "proved",
   "theorems": [
    "c24_inactivate",
    "c24_activate"
   ],
   "note": "all trees of order >= 2, any set of leaves (inactivate) or nodes (activate)"
  },
  {
   "property": "C25",
   "status": "partial",
   "theorems": [
    "c25_dot_partial",
    "c25_dot_metric_partial",
    "c25_norm",
    "c25_dot_unequal_refuted",
    "c25_dot_rank1_refuted"
   ],
   "note": "dot, dot_with_rank_one_metric proved for equal active nodes (any root rank axis of size > 1 or absent) and refuted otherwise and for a root rank axis of size 1; norm proved in full."
  },
  {
   "property": "C26",
   "status": "proved",
   "theorems": [
    "c26_orth",
    "c26_core_orth",
    "c26_qr_exists"
   ],
   "note": "any routine meeting the QR contract (satisfiable: c26_qr_exists), any tree"
  },
  {
   "property": "C27",
   "status": "proved",
   "theorems": [
    "c27_storage",
    "c27_sparse_storage"
   ],
   "note": ""
  },
  {
   "property": "C28",
   "status": "proved",
   "theorems": [
    "c28_trunc_svd",
    "c28_trunc_svd_default_tolerance",
    "c28_trunc_svd_error",
    "c28_trunc_svd_best",
    "c28_trunc_svd_hard",
    "c28_trunc_svd_soft",
    "c28_hosvd",
    "c28_hosvd_error",
    "c28_hosvd_quasi_optimal",
    "c28_svd_exists"
   ],
   "note": "trunc_svd: number of kept values, error identity, thresholding, best approximation (Eckart-Young); hosvd: projector argument, error <= tolerance, quasi-optimality (factor d on squared errors). SVD is a contract (svd_contract), proved satisfiable (c28_svd_exists). hsvd/ttsvd: see C56."
  },
  {
   "property": "C29",
   "status": "partial",
   "theorems": [
    "c29_hosvd_history_partial",
    "c29_hosvd_history_refuted",
    "c29_hsvd_state_partial",
    "c29_hsvd_state_refuted",
    "c29_hsvd_tree_state_partial"
   ],
   "note": "scalar max_rank: any history of hosvd calls, any call of hsvd of a FullTensor, and any call of hsvd of a TreeBasedTensor (default algorithm) leave the truncator unchanged; refuted for one max_rank per dimension/node (max_rank is overwritten)."
  },
  {
   "property": "C30",
   "status": "proved",
   "theorems": [
    "c30_u2z",
    "c30_z2u",
    "c30_u2z_negative",
    "c30_map",
    "c30_inverse_map_map",
    "c30_map_inverse_map",
    "c30_tensorized_function",
    "c30_uniform"
   ],
   "note": "u2z, z2u, map, inverse_map and tensorized functions over the reals (floats idealised); cdf/icdf are arbitrary functions with icdf(cdf x) = x where needed."
  },
  {
   "property": "C31",
   "status": "partial",
   "theorems": [
    "c31_poly_coeff",
    "c31_poly_coeff_mass_refuted",
    "c31_dn_polyval",
    "c31_shifted_dn_polyval",
    "c31_dn_polyval_mass_refuted",
    "c31_canonical",
    "c31_canonical_high_order_refuted"
   ],
   "note": "Proved for measures of mass one; refuted for other masses (poly_coeff and dn_polyval drop 1/sqrt(mass), LegendrePolynomialsLebesgue)."
  },
  {
   "property": "C32",
   "status": "proved",
   "theorems": [
    "c32_eval",
    "c32_unique",
    "c32_pointwise",
    "c32_single_function"
   ],
   "note": ""
  },
  {
   "property": "C33",
   "status": "partial",
   "theorems": [
    "c33_history_partial",
    "c33_matrix_values_refuted"
   ],
   "note": "proved for scalar outputs over any call history; refuted for matrix-valued outputs (C/F reshape). np.squeeze of the result and np.ndim of the returned pair in __call__ are not modelled."
  },
  {
   "property": "C34",
   "status": "proved",
   "theorems": [
    "c34_solution",
    "c34_leave_one_out",
    "c34_correction_positive",
    "c34_k_fold",
    "c34_residuals",
    "c34_density"
   ],
   "note": "numpy.linalg modelled by its documented contract lapack_ok (shown satisfiable by c34_lapack); one output; weights not modelled."
  },
  {
   "property": "C35",
   "status": "partial",
   "theorems": [
    "c35_m_lambda",
    "c35_lambda_path_terminates",
    "c35_lambda_path_partial",
    "c35_slope_heuristic_partial",
    "c35_ties_refuted",
    "c35_no_breakpoint_refuted",
    "c35_slope_raises_refuted"
   ],
   "note": "m_lambda is a minimiser for all inputs; lambda_path terminates for all inputs; exact description of the path and of the slope heuristic for models in general position (distinct risks, no triple ties). Refuted without it: triple ties, path without breakpoint (reports model 0; slope_heuristic raises)."
  },
  {
   "property": "C36",
   "status": "partial",
   "theorems": [
    "c36_init",
    "c36_cdf",
    "c36_icdf",
    "c36_icdf_above_one",
    "c36_icdf_unsorted_refuted",
    "c36_moments",
    "c36_measure_random",
    "c36_measure_random_zero_refuted"
   ],
   "note": "cdf, quantile and inverse-transform sampling proved for sorted values; icdf on unsorted values and DiscreteMeasure.random on the draw u=0 are refuted."
  },
  {
   "property": "C37",
   "status": "proved",
   "theorems": [
    "c37_indices",
    "c37_interpolation",
    "c37_success",
    "c37_left",
    "c37_right",
    "c37_greedy",
    "c37_nested",
    "c37_points_success",
    "c37_points"
   ],
   "note": "All options, all real matrices; numpy.linalg.solve modelled by its contract (raises iff singular); magic_points/interpolate for one-dimensional points."
  },
  {
   "property": "C38",
   "status": "proved",
   "theorems": [
    "c38_array",
    "c38_array_at",
    "c38_empty",
    "c38_eval_scalar",
    "c38_eval_array",
    "c38_eval_sparse"
   ],
   "note": ""
  },
  {
   "property": "C39",
   "status": "proved",
   "theorems": [
    "c39_sparse_eval",
    "c39_full_eval",
    "c39_eval_full_tensor",
    "c39_eval_canonical",
    "c39_eval_sparse_tensor",
    "c39_eval_diagonal",
    "c39_eval_tree_based",
    "c39_eval_on_grid"
   ],
   "note": "sparse and full tensor-product bases; FunctionalTensor.eval for the five tensor formats (tree-based: order >= 2) and eval_on_grid for full tensors"
  },
  {
   "property": "C40",
   "status": "proved",
   "theorems": [
    "c40_cardinal",
    "c40_support",
    "c40_partition_of_unity",
    "c40_extra_knots",
    "c40_derivative",
    "c40_derivative_smooth",
    "c40_dilated_support",
    "c40_dilated_indices",
    "c40_dilated_indices_bounded",
    "c40_dilated_unity",
    "c40_dilated_derivative"
   ],
   "note": "Over the reals, for every strictly increasing knot vector: support, sign, partition of unity, derivatives (off the knots for every order, everywhere below the degree), extra knots, dilated B-splines and their index sets."
  },
  {
   "property": "C41",
   "status": "proved",
   "theorems": [
    "c41_full_sparse_full",
    "c41_sparse_full_sparse",
    "c41_diagonal_sparse",
    "c41_full_tree",
    "c41_diagonal_tree",
    "c41_diagonal_tree_default",
    "c41_diagonal_tree_raises",
    "c41_canonical_tree"
   ],
   "note": "All conversions: dense<->sparse, diagonal->dense/sparse/tree-based (any tree, any active leaves, default arguments, exception), canonical->dense/tree-based (any tree, any active leaves), dense->tree-based (any order). Sizes and rank positive; order >= 2 for diagonal/canonical -> tree."
  },
  {
   "property": "C42",
   "status": "partial",
   "theorems": [
    "c42_square",
    "c42_zero_risk",
    "c42_linear_model",
    "c42_relative_1d",
    "c42_risk_1d_refuted",
    "c42_mixed_shapes_refuted",
    "c42_density",
    "c42_custom"
   ],
   "note": "Proved for two-dimensional outputs (one row per sample); refuted for one-dimensional ones: risk and absolute error miss the factor 1/n (relative error is right), and mixed shapes are broadcast against each other."
  },
  {
   "property": "C43",
   "status": "partial",
   "theorems": [
    "c43_hermite",
    "c43_legendre",
    "c43_well_defined",
    "c43_legendre_lebesgue",
    "c43_lebesgue_interval_refuted",
    "c43_norms",
    "c43_discrete"
   ],
   "note": "Proved for Hermite (Gaussian moments), Legendre on any interval, LegendreLebesgue on [-1,1], discrete measures and the returned norms; refuted for LebesgueMeasure on an interval of length different from 2."
  },
  {
   "property": "C44",
   "status": "proved",
   "theorems": [
    "c44_roots"
   ],
   "note": "numpy.linalg.eig by its contract on symmetric matrices; sorting not modelled."
  },
  {
   "property": "C45",
   "status": "proved",
   "theorems": [
    "c45_gauss_normal",
    "c45_gauss_uniform",
    "c45_gauss_lebesgue",
    "c45_nodes_weights",
    "c45_eig_exists"
   ],
   "note": "numpy.linalg.eig by its contract on symmetric matrices (satisfiable: c45_eig_exists); sorting of the nodes not modelled (any order)."
  },
  {
   "property": "C46",
   "status": "partial",
   "theorems": [
    "c46_moment_normal",
    "c46_moment_uniform",
    "c46_stored_partial",
    "c46_stored_refuted",
    "c46_product_moments",
    "c46_own_moments",
    "c46_own_moments_mass_refuted"
   ],
   "note": "Moments exact for normal and uniform variables and products of Hermite/Legendre/monomial polynomials; the stored-moments path proved when the first call asked 0..n, refuted otherwise; the own-measure moments refuted for mass different from 1. Other laws not modelled."
  },
  {
   "property": "C47",
   "status": "proved",
   "theorems": [
    "c47_iso_grid",
    "c47_iso_grid_equal_mass",
    "c47_discretize_support"
   ],
   "note": ""
  },
  {
   "property": "C48",
   "status": "proved",
   "theorems": [
    "c48_cdf",
    "c48_transfer",
    "c48_transfer_inverse"
   ],
   "note": ""
  },
  {
   "property": "C49",
   "status": "proved",
   "theorems": [
    "c49_composite"
   ],
   "note": ""
  },
  {
   "property": "C50",
   "status": "proved",
   "theorems": [
    "c50_partial_evaluation"
   ],
   "note": ""
  },
  {
   "property": "C51",
   "status": "proved",
   "theorems": [
    "c51_weights",
    "c51_integrate",
    "c51_exact"
   ],
   "note": ""
  },
  {
   "property": "C52",
   "status": "proved",
   "theorems": [
    "c52_selection",
    "c52_support",
    "c52_default_path",
    "c52_stop_has_no_effect"
   ],
   "note": "gram_matrix option not modelled along a path (the code indexes it pairwise)."
  },
  {
   "property": "C53",
   "status": "proved",
   "theorems": [
    "c53_regularized",
    "c53_regularized_included",
    "c53_basis_adaptation"
   ],
   "note": ""
  },
  {
   "property": "C54",
   "status": "partial",
   "theorems": [
    "c54_sparse_mean",
    "c54_sparse_gram",
    "c54_full_mean_partial",
    "c54_mean_full_tensor",
    "c54_mean_canonical",
    "c54_conditional_expectation",
    "c54_full_mean_order_refuted",
    "c54_conditional_measure_refuted"
   ],
   "note": "proved except: FullTensorProductFunctionalBasis.mean uses row-major order whereas eval uses column-major order (c54_full_mean_order_refuted); conditional_expectation with a RandomVector pairs the integrated variables with the first random variables (c54_conditional_measure_refuted). Means of FunctionalTensor: full and canonical formats; conditional expectation: full format, measure of the bases. Measures are discrete (finite sums)."
  },
  {
   "property": "C55",
   "status": "partial",
   "theorems": [
    "c55_basis_array_partial",
    "c55_interpolate_partial",
    "c55_gram_matrix",
    "c55_quasi_projection",
    "c55_sub_eval",
    "c55_sub_mean",
    "c55_sub_gram",
    "c55_orthonormalize",
    "c55_tensor_interpolation",
    "c55_tensor_projection_partial",
    "c55_tensor_projection_grids_refuted",
    "c55_interpolate_outputs_refuted"
   ],
   "note": "proved for one output; with several outputs interpolate is wrong because FunctionalBasisArray mixes orders (c55_interpolate_outputs_refuted); tensor_product_projection is correct when it returns but raises when the grids have different sizes (c55_tensor_projection_grids_refuted). numpy.linalg.solve, inv, cholesky are oracles with contracts."
  },
  {
   "property": "C56",
   "status": "proved",
   "theorems": [
    "c56_hsvd",
    "c56_ttsvd",
    "c56_hsvd_quasi_optimal",
    "c56_hsvd_quasi_optimal_tree"
   ],
   "note": "hsvd of a FullTensor and ttsvd, SVD as a contract (satisfiable: c28_svd_exists); quasi-optimality against all tensors of the same tree ranks; hsvd of a TreeBasedTensor is C58."
  },
  {
   "property": "C57",
   "status": "proved",
   "theorems": [
    "c57_gramians"
   ],
   "note": "for every list of requested nodes; QR as a contract; the Gramian of a node is stated through the inner products of the sections of the full tensor in an orthonormal family."
  },
  {
   "property": "C58",
   "status": "partial",
   "theorems": [
    "c58_hsvd_tree",
    "c58_hsvd_tree_quasi_optimal",
    "c58_hsvd_tree_quasi_optimal_tree",
    "c58_norm_after_hsvd_refuted"
   ],
   "note": "rank and error bounds, exactness and quasi-optimality proved for both algorithms; the orthonormality mark of the result of the default algorithm is wrong in general: norm() of the result is refuted (c58_norm_after_hsvd_refuted)."
  },
  {
   "property": "C59",
   "status": "proved",
   "theorems": [
    "c59_orth_at_node",
    "c59_orth_at_node_inactive",
    "c59_contracts"
   ],
   "note": "frame_at (Spec/OrthNodeSpec.v) states the orthonormal frame; matrix_rank is the exact rank (floating-point tolerance not modelled); contracts proved satisfiable (c59_contracts). The zero tensor keeps its rank (the code returns it unchanged)."
  },
  {
   "property": "C60",
   "status": "partial",
   "theorems": [
    "c60_eval_diag_below_partial",
    "c60_eval_diag_above",
    "c60_gradient_internal",
    "c60_gradient_leaf",
    "c60_gradient_root_partial",
    "c60_gradient_identity",
    "c60_gradient_identity_root_partial",
    "c60_eval_diag_below_root_refuted",
    "c60_gradient_identity_leaf_refuted",
    "c60_gradient_root_refuted",
    "c60_only_child_refuted"
   ],
   "note": "the diagonals and gradients are proved for all trees and tensors outside four cases refuted by the code: eval_diag_below at a root with both active and inactive children, the gradient without matrices at a leaf, the gradient at a root whose children are all inactive and whose sizes are not the number of rows of the matrices, eval_diag_above when a node is an only child. In the gradient the axes of active children come before those of inactive children."
  },
  {
   "property": "C61",
   "status": "partial",
   "theorems": [
    "c61_values",
    "c61_gradient",
    "c61_gradient_root",
    "c61_one_output_refuted"
   ],
   "note": "proved at every active node of every tensor whose nodes are all active (no node above being an only child), or with at most one inactive child per node and no only child (tensor train format). Refuted by the code when the root has a last axis of size 1 (error at the internal nodes other than the root). Not modelled: several inactive leaves under one node (lines 513-543, which merge them), inactive nodes on a tree with an only child."
  },
  {
   "property": "C62",
   "status": "partial",
   "theorems": [
    "c62_strategy",
    "c62_step_partial",
    "c62_sweep_partial",
    "c62_solve_partial",
    "c62_contracts"
   ],
   "note": "proved for every tree where no node is an only child and every tensor with at most one inactive child per node (all the nodes active, or the tensor train format), with no output axis or an output axis of size other than 1 (an output axis of size 1 makes the gradient raise: c61_one_output_refuted), every solver ('qr' or 'solve'), every stopping rule. Not covered: several inactive leaves under one node, basis adaptation, regularisation, rank and tree adaptation; the initialisation (any valid tensor is an initial tensor). The exploration strategy is proved for inactive nodes too."
  },
  {
   "property": "C63",
   "status": "partial",
   "theorems": [
    "c63_admissible_partial",
    "c63_necessary",
    "c63_make_ranks_partial",
    "c63_make_ranks_full",
    "c63_selection_partial",
    "c63_marked",
    "c63_second_loop",
    "c63_selection_refuted",
    "c63_inactive_refuted",
    "c63_outputs_refuted"
   ],
   "note": "is_admissible_rank: exact for tensors with no output at the root (or one) whose inactive leaves are numbered in the order of their dimensions (or have equal sizes); refuted otherwise (c63_inactive_refuted: the default tensor train with sizes that differ; c63_outputs_refuted: several outputs). make_ranks_admissible, new_rank_selection (lines 525-590, from the smallest singular values on; thresholds closer than 1% are merged, as in the code): under the same hypotheses. Refuted: 'unchanged only if no admissible increase exists' (c63_selection_refuted, a consequence of the second marking loop never marking anything, c63_second_loop). The singular values, the rank-one correction and the local solution (lines 477-520) are not modelled."
  },
  {
   "property": "C64",
   "status": "partial",
   "theorems": [
    "c64_cat_partial",
    "c64_reduce_sum",
    "c64_reduce_sum_all",
    "c64_truediv",
    "c64_create",
    "c64_create_default",
    "c64_random_active",
    "c64_create_inactive",
    "c64_zeros",
    "c64_ones",
    "c64_tensor_train_partial",
    "c64_train_dims_refuted",
    "c64_cat_refuted"
   ],
   "note": "create, zeros, ones, reduce_sum, division: proved for all valid arguments (lists of the right lengths, positive sizes and ranks, internal nodes active; an inactive internal node raises, c64_create_inactive). cat: for tensors with the same tree and active nodes; refuted when a leaf is active in the second tensor only (c64_cat_refuted). tensor_train: without dims; with dims refuted (c64_train_dims_refuted)."
  },
  {
   "property": "C65",
   "status": "partial",
   "theorems": [
    "c65_change_root_partial",
    "c65_same_root",
    "c65_inactive",
    "c65_outputs_refuted",
    "c65_output_axis_refuted"
   ],
   "note": "proved for tensors without output axis whose root has at least two children, any active new root (leaf or internal). Refuted for tensors with several outputs (always raises: tree.addChild does not exist, c65_outputs_refuted) and with an output axis of size 1 (c65_output_axis_refuted). Root with one child: see c17_change_root_one_child_refuted (the result has a leaf without dimension); not covered here."
  },
  {
   "property": "C66",
   "status": "partial",
   "theorems": [
    "c66_interpolation",
    "c66_ranks_partial",
    "c66_exact",
    "c66_success",
    "c66_hopca",
    "c66_tucker",
    "c66_tt",
    "c66_max_rank_refuted",
    "c66_all_draws",
    "c66_all_draws_tucker",
    "c66_all_draws_tt"
   ],
   "note": "proved for tree_based_approximation and hopca, over the real numbers, under the contracts of svd and solve. The bound on the ranks is refuted when a precision less than 1 is given together with max_rank: the maximal ranks are then ignored (c66_max_rank_refuted); it is proved where the least of the two is at least 1. The error for a positive precision (no bound is promised for random fibres) and subsampling='random' (interpolation at the root and ranks are proved, exactness is not: the system may be singular) are not covered."
  },
  {
   "property": "C67",
   "status": "partial",
   "theorems": [
    "c67_dense",
    "c67_tree_partial",
    "c67_root_refuted",
    "c67_unique",
    "c67_agree"
   ],
   "note": "proved, over the real numbers and under the contracts of svd and qr, for the dense tensors and for every node of a tree-based tensor except the root, where the claim is false: the value returned at the root is [1] for every tensor instead of the norm (c67_root_refuted)."
  },
  {
   "property": "C68",
   "status": "partial",
   "theorems": [
    "c68_eval",
    "c68_add_partial",
    "c68_sub_partial",
    "c68_neg_partial",
    "c68_scale_partial",
    "c68_matmul_partial",
    "c68_mean",
    "c68_dot_product_expectation",
    "c68_variance",
    "c68_not_orthonormal",
    "c68_dot",
    "c68_vector_add_refuted",
    "c68_product_refuted",
    "c68_conditional_expectation_refuted"
   ],
   "note": "statistics proved for any number of components; the algebra is proved for scalar-valued functions and refuted for several components, where the constructor permutes the coefficients (c68_vector_add_refuted); the product of two objects multiplies their coefficients (c68_product_refuted); conditional_expectation is refuted (c68_conditional_expectation_refuted)."
  },
  {
   "property": "C69",
   "status": "partial",
   "theorems": [
    "c69_dot_expectation_refuted",
    "c69_norm_refuted",
    "c69_variance_refuted",
    "c69_dot_expectation_partial",
    "c69_norm_partial",
    "c69_variance_partial",
    "c69_product_refuted"
   ],
   "note": "the claims are false of the code: dot_product_expectation, norm and variance call FunctionalBases.gram_matrix, which does not exist, and raise for every input (c69_dot_expectation_refuted, c69_norm_refuted, c69_variance_refuted); with gram_matrices in its place the rest of the code is proved right for dense tensors (_partial); the product is refuted whatever the projection (c69_product_refuted)."
  },
  {
   "property": "C70",
   "status": "partial",
   "theorems": [
    "c70_mean_of_conditional_expectation",
    "c70_variance_partial",
    "c70_all_rows_partial",
    "c70_empty",
    "c70_variance_refuted"
   ],
   "note": "the mean of the conditional expectation is proved; variance_conditional_expectation raises for every nonempty set of variables because FunctionalBases.gram_matrix does not exist (c70_variance_refuted); with gram_matrices in its place it is proved right for dense tensors (c70_variance_partial, c70_all_rows_partial); the empty set gives 0 (c70_empty)."
  },
  {
   "property": "C71",
   "status": "proved",
   "theorems": [
    "c71_orthonormalize",
    "c71_needs_orthonormal"
   ],
   "note": "exact real arithmetic; the columns of the matrix must be independent (np.linalg.norm is not zero) and there is at least one column (otherwise the code raises)."
  },
  {
   "property": "C72",
   "status": "partial",
   "theorems": [
    "c72_density",
    "c72_moments",
    "c72_inverse",
    "c72_shift_partial",
    "c72_shift_refuted",
    "c72_transfer",
    "c72_polynomials_domain",
    "c72_random"
   ],
   "note": "proved for scaling > 0; for scaling < 0 shift exchanges the bounds and cdf, icdf return nan everywhere (c72_shift_refuted). scipy.stats.uniform by its documented contract; real numbers; integrals are Coquelicot's Riemann integrals."
  },
  {
   "property": "C73",
   "status": "proved",
   "theorems": [
    "c73_element_number",
    "c73_values",
    "c73_orthonormal",
    "c73_documented_measure_refuted"
   ],
   "note": "the polynomials on [0, 1] are assumed orthonormal (C09); the documentation of the class says that the basis is orthonormal for the uniform probability measure, which is false when b - a <> 1 (c73_documented_measure_refuted); mean raises and is not modelled."
  }
 ]
}