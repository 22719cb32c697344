{
 "claims": [
  {
   "property": "C01",
   "status": "proved",
   "theorems": [
    "elementwise_assign",
    "elementwise_compound"
   ],
   "note": "vector expressions; any storage; target may occur in the expression. For overlapping windows the source must not start below the target (see C51)."
  },
  {
   "property": "C02",
   "status": "proved",
   "theorems": [
    "disjoint_assign",
    "cross_into_operand",
    "aliased_cross_refuted",
    "aliased_subvector_refuted",
    "matrix_assign",
    "aliased_transpose_refuted"
   ],
   "note": "positive part proved; 'also when the target occurs in the expression' is refuted with witnesses"
  },
  {
   "property": "C03",
   "status": "proved",
   "theorems": [
    "scale_by_outside",
    "scale_by_own_element",
    "matrix_scale_by_outside",
    "matrix_scale_by_own_element",
    "quaternion_scale",
    "quaternion_scale_by_own_element"
   ],
   "note": ""
  },
  {
   "property": "C04",
   "status": "proved",
   "theorems": [
    "layout_addresses",
    "data_order",
    "matrix_get_put",
    "layout_independent",
    "storage_view",
    "matrix_resize_linear",
    "matrix_resize_negative",
    "matrix_resize_elements_refuted"
   ],
   "note": ""
  },
  {
   "property": "C05",
   "status": "proved",
   "theorems": [
    "transpose_expression",
    "transpose_in_place",
    "transpose_twice",
    "aliased_transpose_refuted"
   ],
   "note": ""
  },
  {
   "property": "C06",
   "status": "proved",
   "theorems": [
    "product_entries",
    "operands",
    "product_associative",
    "product_distributes",
    "product_transpose",
    "product_identity",
    "matrix_vector_products",
    "product_inner_zero_reads_outside"
   ],
   "note": "exact arithmetic (any commutative ring)"
  },
  {
   "property": "C07",
   "status": "proved",
   "theorems": [
    "wrong_sizes_throw",
    "minmax_wrong_size_throws",
    "histories_sound",
    "matrix_wrong_sizes",
    "matrix_wrong_arguments",
    "row_index_check_refuted",
    "matrix_compound_size_error_refuted"
   ],
   "note": "missing checks (upper bounds of row/col indices; += that reshapes) are refuted"
  },
  {
   "property": "C08",
   "status": "proved",
   "theorems": [
    "resize_keeps_prefix",
    "resize_negative",
    "resize_no_memory",
    "disjoint_assign",
    "resize_nontrivial_refuted"
   ],
   "note": "for trivially destructible element types; with other element types the old elements are destroyed before the copy (refuted)"
  },
  {
   "property": "C09",
   "status": "proved",
   "theorems": [
    "wrong_sizes_throw",
    "compound_longer_reads_garbage",
    "compound_shorter_truncates",
    "compound_size_error_refuted"
   ],
   "note": "the documented exception is refuted for dynamic vectors"
  },
  {
   "property": "C10",
   "status": "proved",
   "theorems": [
    "histories_sound",
    "histories_leak_nothing",
    "histories_self_sub_refuted"
   ],
   "note": "side condition no_self_sub is necessary (refuted without it)"
  },
  {
   "property": "C11",
   "status": "proved",
   "theorems": [
    "vector_order_lexicographic",
    "vector_order_total",
    "matrix_equality",
    "vector_equality_nan_refuted"
   ],
   "note": "elements are lists; the NaN part is a refutation of equality semantics"
  },
  {
   "property": "C12",
   "status": "proved",
   "theorems": [
    "quaternion_order",
    "quaternion_order_transitive"
   ],
   "note": ""
  },
  {
   "property": "C13",
   "status": "proved",
   "theorems": [
    "hash_separates",
    "hash_is_word",
    "hash_respects_equality"
   ],
   "note": "element hashes are arbitrary words; vector_equality_nan_refuted shows the contract with == fails for NaN"
  },
  {
   "property": "C14",
   "status": "proved",
   "theorems": [
    "quaternion_product_table",
    "quaternion_algebra",
    "quaternion_inverse",
    "quaternion_normalize_unit",
    "quaternion_dot"
   ],
   "note": "products of operands of different expression types do not compile (see DESIGN); the theorems give values for all expressions"
  },
  {
   "property": "C15",
   "status": "proved",
   "theorems": [
    "storage_order_unobservable",
    "assign_between_orders_refuted"
   ],
   "note": "within one order; assignment across orders copies slots: refuted"
  },
  {
   "property": "C16",
   "status": "proved",
   "theorems": [
    "in_place_operations",
    "in_place_inverse",
    "quaternion_assign",
    "quaternion_assign_old_values",
    "quaternion_compound",
    "quaternion_wrong_sizes"
   ],
   "note": ""
  },
  {
   "property": "C17",
   "status": "proved",
   "theorems": [
    "quaternion_matrix_rotates",
    "quaternion_matrix_sandwich",
    "quaternion_matrix_product",
    "quaternion_basis_vectors",
    "quaternion_double_cover",
    "quaternion_matrix_too_small"
   ],
   "note": "over the reals"
  },
  {
   "property": "C18",
   "status": "proved",
   "theorems": [
    "matrix_to_quaternion",
    "quaternion_round_trip"
   ],
   "note": "over the reals"
  },
  {
   "property": "C19",
   "status": "proved",
   "theorems": [
    "axis_angle_rotates",
    "rotate_vector_is_rotation",
    "axis_angle_additive",
    "axis_angle_opposite",
    "axis_angle_quaternion",
    "world_axis_is_axis_angle",
    "world_axis_quaternion",
    "rotation_bad_arguments",
    "rotation_2D"
   ],
   "note": "over the reals"
  },
  {
   "property": "C20",
   "status": "proved",
   "theorems": [
    "matrix_axis_angle_round_trip",
    "quaternion_axis_angle_round_trip"
   ],
   "note": "over the reals"
  },
  {
   "property": "C21",
   "status": "proved",
   "theorems": [
    "euler_is_three_rotations",
    "euler_quaternion"
   ],
   "note": "over the reals"
  },
  {
   "property": "C22",
   "status": "proved",
   "theorems": [
    "euler_round_trip",
    "quaternion_euler_round_trip"
   ],
   "note": "over the reals"
  },
  {
   "property": "C23",
   "status": "proved",
   "theorems": [
    "euler_derivatives_signed",
    "euler_derivatives_even",
    "euler_derivatives_odd_refuted",
    "euler_derivatives_homogeneous_refuted",
    "euler_bad_arguments"
   ],
   "note": "over the reals; the documented claim is refuted for odd orders"
  },
  {
   "property": "C24",
   "status": "proved",
   "theorems": [
    "determinant_small",
    "determinant_product",
    "determinant_transpose",
    "determinant_identity",
    "square_required"
   ],
   "note": "any commutative ring; no axioms"
  },
  {
   "property": "C25",
   "status": "proved",
   "theorems": [
    "determinant_exact_or_zero",
    "determinant_one",
    "determinant_dominant",
    "determinant_refuted",
    "square_required"
   ],
   "note": "any ordered field; the documented claim is refuted for every epsilon"
  },
  {
   "property": "C26",
   "status": "proved",
   "theorems": [
    "inverse_small"
   ],
   "note": "any field"
  },
  {
   "property": "C27",
   "status": "proved",
   "theorems": [
    "inverse_dominant",
    "inverse_one",
    "inverse_positive",
    "inverse_exchanges",
    "inverse_iff_involution",
    "inverse_exchanges_ordered",
    "inverse_refuted"
   ],
   "note": "any ordered field, the exchange law over any field; the documented claim is refuted over the rationals"
  },
  {
   "property": "C28",
   "status": "proved",
   "theorems": [
    "lu_factors",
    "lu_leading_minors"
   ],
   "note": "any field"
  },
  {
   "property": "C29",
   "status": "proved",
   "theorems": [
    "lu_pivot_factors",
    "lu_pivot_determinant",
    "lu_pivot_dominant",
    "lu_pivot_sign_refuted"
   ],
   "note": "any ordered field; the claim about singular matrices is refuted"
  },
  {
   "property": "C30",
   "status": "proved",
   "theorems": [
    "lu_solve_solves",
    "lu_solve_total",
    "lu_pivot_solve_solves",
    "lu_pivot_solve_total"
   ],
   "note": "any field; ordered field for the pivoted form"
  },
  {
   "property": "C31",
   "status": "proved",
   "theorems": [
    "dot_is_sum",
    "dot_sizes",
    "dot_symmetric",
    "dot_bilinear",
    "length_squared_is_dot",
    "cross_sizes",
    "cross_laws",
    "cross_linear",
    "triple_is_determinant",
    "triple_cyclic",
    "perp_dot_is_determinant",
    "outer_times",
    "hadamard_elements",
    "matrix_vector_dots"
   ],
   "note": "any commutative ring; dot and outer product for any length"
  },
  {
   "property": "C32",
   "status": "proved",
   "theorems": [
    "vector_normalize",
    "normalize_empty",
    "quaternion_normalize",
    "quaternion_normalize_expression"
   ],
   "note": "exact reals, any length; both quaternion storage orders"
  },
  {
   "property": "C33",
   "status": "proved",
   "theorems": [
    "project_to_vector_parallel",
    "project_to_hplane_orthogonal",
    "perp_orthogonal",
    "perp_sizes",
    "manhattan_metric"
   ],
   "note": "exact reals, any dimension"
  },
  {
   "property": "C34",
   "status": "proved",
   "theorems": [
    "signed_angle_2D_rotates",
    "signed_angle_2D_antisymmetric",
    "signed_angle_2D_opposite",
    "unsigned_angle_cosine",
    "signed_angle_sign",
    "signed_angle_rotates",
    "angle_sizes"
   ],
   "note": "exact reals"
  },
  {
   "property": "C35",
   "status": "proved",
   "theorems": [
    "orthonormal_basis_frame",
    "orthonormal_basis_2D_frame",
    "orthonormal_basis_sizes"
   ],
   "note": "all six axis orders, both 2D orders; with normalize_align = false the argument must be a unit vector; the second axis is maximally aligned with the reference"
  },
  {
   "property": "C36",
   "status": "proved",
   "theorems": [
    "invert_RT_only_inverse",
    "invert_RT_only_2D_inverse",
    "invert_RT_inverse",
    "invert_RT_products",
    "invert_RT_sizes",
    "rotation_orthogonal",
    "rigid_inverse"
   ],
   "note": "any commutative ring for the algebra; any dimension for invert_RT; both basis orientations"
  },
  {
   "property": "C37",
   "status": "proved",
   "theorems": [
    "concat_transforms_points",
    "concat_transforms_vectors",
    "concat_transforms_points_4D",
    "transform_point_4D_affine",
    "concat_sizes",
    "transform_is_map",
    "transform_sizes"
   ],
   "note": "any commutative ring, both basis orientations"
  },
  {
   "property": "C38",
   "status": "proved",
   "theorems": [
    "clip_is_transform",
    "orthographic_maps",
    "orthographic_clips",
    "perspective_maps",
    "perspective_depth",
    "perspective_clips",
    "orthographic_size_clips",
    "perspective_size_clips",
    "perspective_xfov_clips",
    "perspective_yfov_clips",
    "projection_hands",
    "projection_sizes"
   ],
   "note": "exact reals, both basis orientations, any matrix of at least 4x4"
  },
  {
   "property": "C39",
   "status": "proved",
   "theorems": [
    "frustum_planes_bound_clip",
    "near_plane",
    "normalized_planes",
    "frustum_planes_modelview",
    "frustum_planes_modelview_sizes",
    "perspective_frustum",
    "orthographic_frustum"
   ],
   "note": "exact reals"
  },
  {
   "property": "C40",
   "status": "proved",
   "theorems": [
    "look_at_spec",
    "look_at_hands",
    "look_at_sizes"
   ],
   "note": "exact reals; eye, target and up in general position"
  },
  {
   "property": "C41",
   "status": "proved",
   "theorems": [
    "polar_to_cartesian_spec",
    "polar_round_trip",
    "polar_recovered",
    "cylindrical_to_cartesian_spec",
    "cylindrical_round_trip",
    "cylindrical_recovered",
    "spherical_to_cartesian_spec",
    "spherical_round_trip",
    "spherical_recovered",
    "spherical_base_plane_refuted",
    "conversion_errors",
    "conversion_variants"
   ],
   "note": "exact reals; tolerance band bounded by 2*tol"
  },
  {
   "property": "C42",
   "status": "proved",
   "theorems": [
    "clamp_nearest",
    "clamp_any",
    "in_range_iff",
    "wrap_congruent",
    "wrap_unique",
    "map_range_affine",
    "sign_abs",
    "acos_safe_total",
    "asin_safe_total",
    "sqrt_safe_total",
    "index_of_max_is_max",
    "index_of_min_is_min",
    "index_of_max_abs_is_max",
    "index_of_min_abs_is_min",
    "next_step",
    "prev_after_next",
    "next_after_prev",
    "cyclic_permutations",
    "powers_and_roots"
   ],
   "note": "exact real arithmetic"
  },
  {
   "property": "C43",
   "status": "proved",
   "theorems": [
    "euler_order_axes",
    "axis_order_axes",
    "axis_order_pack_unpack",
    "axis_order_swap",
    "axis_order_2D"
   ],
   "note": ""
  },
  {
   "property": "C44",
   "status": "proved",
   "theorems": [
    "set_row_exact",
    "set_col_exact",
    "row_and_column_views",
    "read_back",
    "basis_vectors",
    "set_basis_element_exact",
    "basis_of_transpose",
    "matrix_from_list",
    "matrix_zero_identity"
   ],
   "note": ""
  },
  {
   "property": "C45",
   "status": "proved",
   "theorems": [
    "trace_sum",
    "trace_transpose",
    "trace_linear",
    "trace_product",
    "trace_empty_reads_outside",
    "block_trace",
    "block_trace_basis"
   ],
   "note": ""
  },
  {
   "property": "C46",
   "status": "proved",
   "theorems": [
    "random_unit_spec",
    "random_unit_retries",
    "random_unit_empty",
    "random_unit_cone_spec",
    "random_unit_cone_reaches",
    "random_unit_cone_2D_spec",
    "random_unit_cone_errors",
    "random_unit_cone_1D_refuted",
    "random_unit_own_axis_refuted",
    "random_unit_own_axis_nD_refuted"
   ],
   "note": "exact reals, any dimension, arbitrary draws; NaN cases over the reals extended with NaN"
  },
  {
   "property": "C47",
   "status": "proved",
   "theorems": [
    "exp_polar",
    "exp_of_log",
    "log_of_exp",
    "exp_log_of_real_refuted"
   ],
   "note": "real arithmetic; the real-quaternion clause is refuted"
  },
  {
   "property": "C48",
   "status": "proved",
   "theorems": [
    "assign_element_list",
    "assign_sub_and_elements",
    "parts_wrong_size",
    "set_own_elements_refuted",
    "assign_from_pointer"
   ],
   "note": ""
  },
  {
   "property": "C49",
   "status": "proved",
   "theorems": [
    "minmax_elementwise",
    "minmax_wrong_size_throws",
    "fill_all",
    "cardinal_unit"
   ],
   "note": ""
  },
  {
   "property": "C50",
   "status": "proved",
   "theorems": [
    "tags_symmetric",
    "storage_associative",
    "basis_associative_refuted",
    "vector_temporary_fits",
    "matrix_temporary_fits",
    "product_temporary_fits",
    "vector_product_temporary_fits",
    "outer_temporary_fits",
    "outer_mixed_refuted",
    "row_and_column_types_fit"
   ],
   "note": "type-level selection modelled as functions on tags; allocators not modelled; value types: C71"
  },
  {
   "property": "C51",
   "status": "proved",
   "theorems": [
    "write_through",
    "external_put",
    "disjoint_assign",
    "overlapping_copy_repeats",
    "elementwise_assign",
    "external_construct",
    "external_negative_size",
    "external_copy_shares",
    "same_view_reads_writes",
    "external_move_construct",
    "external_fixed_move_construct",
    "external_move_assign",
    "external_self_move_empties",
    "external_self_move_refuted",
    "external_fixed_move_assign",
    "external_reset"
   ],
   "note": ""
  },
  {
   "property": "C52",
   "status": "proved",
   "theorems": [
    "set_translation_spec",
    "set_translation_2D_spec",
    "translation_moves_points",
    "translation_2D_moves_points",
    "translation_vectors",
    "helpers_sizes",
    "scale_spec",
    "scale_2D_spec",
    "scale_variants",
    "inverse_scale_undoes",
    "linear_transform_spec",
    "linear_transform_self_identity",
    "linear_transform_self_refuted",
    "affine_transform_spec",
    "affine_transform_axis_spec",
    "skew_symmetric_is_cross",
    "skew_symmetric_2D_spec",
    "basis_vector_is_image",
    "set_basis_vector_spec",
    "basis_vector_errors",
    "set_basis_vector_2D_spec",
    "basis_vector_2D_errors"
   ],
   "note": "any commutative ring (field for inverse scale, reals for the axis version)"
  },
  {
   "property": "C53",
   "status": "proved",
   "theorems": [
    "binary_from_temporaries",
    "cross_from_named",
    "cross_from_dynamic_temporary_throws",
    "cross_from_temporaries_refuted"
   ],
   "note": "the universal statement is refuted for cross()"
  },
  {
   "property": "C54",
   "status": "proved",
   "theorems": [
    "rotation_align_spec",
    "rotation_aim_at_spec",
    "quaternion_align_spec",
    "quaternion_aim_at_spec",
    "rotation_align_2D_spec",
    "align_sizes"
   ],
   "note": "exact reals; with normalize = false the argument must be a unit vector"
  },
  {
   "property": "C55",
   "status": "proved",
   "theorems": [
    "matrix_histories_sound",
    "matrix_histories_leak_nothing",
    "matrix_throw_changes_nothing",
    "matrix_ctor_mismatch_leaks",
    "matrix_leaks_nothing_refuted",
    "self_transpose_reads_outside"
   ],
   "note": "trivially destructible elements; rows*cols does not overflow; the two exceptions in the statement are theorems for all sizes"
  },
  {
   "property": "C56",
   "status": "proved",
   "theorems": [
    "matrix_assignment_in_memory",
    "matrix_assignment_wrong_size",
    "matrix_compound_in_memory",
    "matrix_scale_in_memory",
    "matrix_generate_in_memory",
    "matrix_list_in_memory",
    "matrix_construction_in_memory",
    "matrix_elements_in_memory",
    "matrix_transpose_in_memory",
    "matrix_product_in_memory",
    "matrix_move_assignment_swaps",
    "memory_refines_values"
   ],
   "note": "every memory state; memory_refines_values ties the memory model to MatModel.v"
  },
  {
   "property": "C57",
   "status": "proved",
   "theorems": [
    "fov_conversions",
    "zoom_conversions",
    "fov_zoom_decreasing",
    "perspective_builders_agree",
    "fov_wide_angle",
    "fov_round_trip_refuted"
   ],
   "note": "exact real arithmetic"
  },
  {
   "property": "C58",
   "status": "proved",
   "theorems": [
    "vector_output",
    "matrix_output",
    "vector_output_determines",
    "matrix_output_determines",
    "quaternion_output",
    "quaternion_output_determines",
    "empty_vector_output_refuted"
   ],
   "note": "default field width; the text of one element is a parameter"
  },
  {
   "property": "C59",
   "status": "proved",
   "theorems": [
    "vector_generators",
    "matrix_generators",
    "basis_vector_nD_is_product"
   ],
   "note": ""
  },
  {
   "property": "C60",
   "status": "proved",
   "theorems": [
    "dot_accuracy",
    "dot_no_overflow",
    "accurate_linear",
    "length_squared_accuracy",
    "product_accuracy",
    "matrix_vector_accuracy",
    "vector_matrix_accuracy"
   ],
   "note": "over the model functions of C06, C31 and C04 instantiated with Flocq's binary_float of any precision; roundoff_values spells r and h out for float and double"
  },
  {
   "property": "C61",
   "status": "proved",
   "theorems": [
    "dot_commutes_exactly",
    "sum_commutes_exactly",
    "product_transpose_exactly",
    "matrix_vector_exactly",
    "opposite_exactly",
    "cross_self_exactly",
    "cross_opposite_exactly",
    "length_never_nan",
    "dot_reordering_refuted",
    "float_product_associative_refuted"
   ],
   "note": "equality of binary_float values, which identifies all NaNs; products and sums are commutative in IEEE arithmetic but not associative"
  },
  {
   "property": "C62",
   "status": "proved",
   "theorems": [
    "length_accuracy",
    "normalize_accuracy",
    "normalize_unit",
    "normalize_tiny",
    "normalize_huge",
    "normalize_unit_refuted",
    "normalize_huge_refuted"
   ],
   "note": "std::sqrt is taken to be correctly rounded (ieee_math), which IEEE 754 requires; the refutations are instances of the two general theorems on tiny and huge vectors"
  },
  {
   "property": "C63",
   "status": "proved",
   "theorems": [
    "wrap_float_range",
    "wrap_from_zero_exact",
    "clamp_float",
    "acos_asin_safe_argument",
    "sqrt_safe_never_nan",
    "in_range_float",
    "in_range_nan_refuted",
    "map_range_lower_exact",
    "index_of_float",
    "index_of_float_abs",
    "wrap_within_refuted",
    "map_range_upper_refuted",
    "index_of_max_nan_refuted"
   ],
   "note": "std::fmod is modelled by Bfmod, proved exact in fmod_exact; nothing is assumed of acos and asin"
  },
  {
   "property": "C64",
   "status": "proved",
   "theorems": [
    "lu_accuracy",
    "lu_pivot_accuracy",
    "lu_solve_accuracy",
    "lu_pivot_solve_accuracy",
    "residual_linear",
    "pivoting_stability_refuted"
   ],
   "note": "rounding to nearest even, no fused operations or excess precision; fabs and epsilon of lu_pivot are arbitrary in the accuracy theorems, Babs and 2^-52 in the refutation"
  },
  {
   "property": "C65",
   "status": "proved",
   "theorems": [
    "perp_dot_accuracy",
    "cross_accuracy",
    "triple_accuracy",
    "determinant_accuracy",
    "transform_vector_accuracy",
    "transform_point_accuracy",
    "quaternion_product_accuracy",
    "quaternion_product_no_overflow",
    "rotation_quaternion_accuracy"
   ],
   "note": "every formula is run on syntax trees by the same polymorphic model function, and the error of every tree is bounded once (formula_near in FloatExpr.v); divisions are not covered"
  },
  {
   "property": "C66",
   "status": "proved",
   "theorems": [
    "quaternion_product_relative",
    "rotation_chain_drift",
    "unit_chain_drift"
   ],
   "note": "distance in the four-dimensional Euclidean norm to the product over the reals"
  },
  {
   "property": "C67",
   "status": "proved",
   "theorems": [
    "dot_integer",
    "elementwise_integer",
    "product_integer",
    "matrix_vector_integer",
    "cross_integer",
    "triple_integer",
    "determinant_integer",
    "quaternion_product_integer",
    "dot_fits_refuted",
    "unsigned_short_refuted"
   ],
   "note": "model of integer arithmetic in IntModel.v; int has 32 bits; narrower types only for dot and elementwise operations, where the code converts back after each operation"
  },
  {
   "property": "C68",
   "status": "proved",
   "theorems": [
    "wrapping_operations",
    "wrapping_ring",
    "product_associative_integer",
    "int_associative_refuted"
   ],
   "note": "wrapping_ring is the premise is_ring of the theorems of C06, C13, C31, C36, C37"
  },
  {
   "property": "C69",
   "status": "proved",
   "theorems": [
    "external_matrix_construct",
    "external_matrix_negative_size",
    "external_matrix_default",
    "external_matrix_get",
    "external_matrix_array",
    "external_matrix_put",
    "external_matrix_transposed_view",
    "external_matrix_resize",
    "external_matrix_resize_wrong",
    "external_matrix_reset",
    "external_matrix_move_assign",
    "external_matrix_move_construct",
    "external_matrix_self_move_empties",
    "external_matrix_fixed_move",
    "external_matrix_fixed_move_construct",
    "external_matrix_fixed_construct",
    "external_matrix_assign",
    "external_matrix_assign_wrong",
    "external_matrix_fixed_assign",
    "external_matrix_fixed_assign_wrong",
    "external_matrix_copy_elements",
    "external_matrix_compound",
    "external_matrix_scale",
    "external_matrix_compound_shape_refuted",
    "external_matrix_overlap_refuted",
    "external_matrix_transpose_self_refuted"
   ],
   "note": ""
  },
  {
   "property": "C70",
   "status": "proved",
   "theorems": [
    "threads_do_not_interfere",
    "order_is_irrelevant",
    "no_data_race",
    "untouchable_keeps_contents",
    "thread_sequence",
    "thread_assign",
    "thread_compound",
    "thread_pairwise",
    "thread_scale",
    "thread_fill",
    "thread_set",
    "thread_resize",
    "thread_resize_fast",
    "thread_move",
    "thread_destroy",
    "thread_construct_size",
    "thread_construct_expr",
    "thread_construct_list",
    "thread_construct_move",
    "writers_of_one_vector_refuted",
    "reading_during_resize_refuted"
   ],
   "note": ""
  },
  {
   "property": "C71",
   "status": "proved",
   "theorems": [
    "result_type",
    "common_type_laws",
    "common_type_range",
    "float_to_double_exact",
    "to_floating_nearest",
    "int_to_floating_exact",
    "to_integer_truncates",
    "int_double_round_trip",
    "long_double_round_trip_refuted",
    "same_type_float",
    "same_type_double",
    "same_type_int",
    "mixed_operation_rounds_once",
    "scaling_elementwise",
    "assignment_elementwise",
    "compound_elementwise",
    "negation",
    "double_scalar_on_floats",
    "double_vector_on_floats",
    "double_intermediate_refuted",
    "double_constant_refuted",
    "dot_result_type",
    "dot_int_int",
    "dot_float_float",
    "dot_float_double",
    "dot_float_double_exact_products",
    "int_with_unsigned",
    "int_with_unsigned_refuted",
    "integer_vector_by_double",
    "integer_quotient_refuted",
    "int_sqrt_floor",
    "integer_length",
    "long_length_refuted",
    "int_fabs_exact",
    "long_fabs_refuted",
    "integer_normalize_refuted"
   ],
   "note": ""
  },
  {
   "property": "C72",
   "status": "proved",
   "theorems": [
    "random_vector",
    "random_vector_aliasing",
    "random_vector_range",
    "random_vector_prefix",
    "random_vector_reproducible",
    "random_vector_invalid",
    "random_matrix",
    "random_matrix_range",
    "random_matrix_layout",
    "random_matrix_aliasing",
    "random_scalar_value",
    "random_scalar_vector",
    "random_binary_polar",
    "random_unit_range"
   ],
   "note": "std::rand(), engines and distributions are parameters; the standard library is not modelled"
  },
  {
   "property": "C73",
   "status": "proved",
   "theorems": [
    "type_map_lookup",
    "type_map_bijective",
    "type_map_order",
    "type_map_bijective_refuted",
    "type_map_documented_refuted",
    "type_table_lookup",
    "type_table_order",
    "same_pair",
    "all_same",
    "storage_table"
   ],
   "note": ""
  },
  {
   "property": "C74",
   "status": "proved",
   "theorems": [
    "orthographic_accuracy",
    "perspective_accuracy",
    "orthographic_wh_accuracy",
    "perspective_wh_accuracy",
    "perspective_xfov_accuracy",
    "perspective_yfov_accuracy",
    "quaternion_norm_accuracy",
    "quaternion_inverse_accuracy",
    "quaternion_inverse_expression_accuracy",
    "perspective_overflow_refuted",
    "inverse_forms_refuted"
   ],
   "note": "round to nearest even; operands of one format; no fused operations"
  },
  {
   "property": "C75",
   "status": "proved",
   "theorems": [
    "scalars_elsewhere",
    "scale_elsewhere",
    "translation_elsewhere",
    "basis_vectors_elsewhere",
    "look_at_elsewhere",
    "skew_elsewhere",
    "affine_transform_elsewhere",
    "scale_forgets",
    "translation_forgets",
    "rotation_forgets",
    "look_at_forgets",
    "linear_transform_forgets",
    "axis_angle_reads_identity",
    "align_reads_identity",
    "align_2D_reads_identity",
    "aim_at_reads_identity",
    "look_at_reads_identity",
    "look_at_from_own_position",
    "scale_by_own_diagonal",
    "uniform_scale_by_own_element",
    "translation_by_own_translation",
    "linear_transform_by_own_transpose",
    "inverse_scale_by_own_elements",
    "world_axis_by_own_element",
    "affine_transform_own_axis",
    "set_row_own",
    "set_col_own",
    "set_row_from_own_row",
    "set_row_from_own_column",
    "set_col_from_own_column",
    "set_basis_vectors_from_own",
    "set_basis_vectors_from_own_transposed",
    "own_elements_refuted",
    "own_axis_refuted",
    "own_basis_refuted",
    "own_column_refuted"
   ],
   "note": "references inside the matrix only"
  },
  {
   "property": "C76",
   "status": "proved",
   "theorems": [
    "statements_carry_out_basis",
    "statements_carry_out_scale",
    "statements_carry_out_rotation",
    "statements_carry_out_transform",
    "single_checks_first",
    "rigid_inverse_checks_first",
    "translation_leaves_identity",
    "alignment_leaves_identity",
    "look_at_leaves",
    "euler_derivatives_leaves_identity",
    "basis_vectors_stored_so_far",
    "affine_transform_stored_so_far",
    "affine_transform_axis_stored_so_far",
    "shape_survives",
    "builders_start_afresh",
    "retry",
    "unchanged_on_failure_refuted"
   ],
   "note": "the builders of matrices; resizing and assignment that throw are in C07, C08 and C55"
  },
  {
   "property": "C77",
   "status": "proved",
   "theorems": [
    "quaternion_matrix_near_rotation",
    "axis_angle_matrix_near_rotation",
    "rotated_vector_length",
    "moved_points_distance",
    "orthogonal_products_drift",
    "quaternion_rotation_keeps_length",
    "normalized_axis_rotation"
   ],
   "note": "the sine and cosine are those the C++ library returns; the closeness of c*c + s*s to one is a hypothesis about that library"
  },
  {
   "property": "C78",
   "status": "proved",
   "theorems": [
    "workspace_decompose",
    "workspace_reuse",
    "workspace_undecomposed",
    "workspace_solves",
    "workspace_twice_refuted",
    "workspace_stale_refuted",
    "workspace_grow_refuted"
   ],
   "note": ""
  },
  {
   "property": "C79",
   "status": "proved",
   "theorems": [
    "matrix_threads_do_not_interfere",
    "matrix_order_is_irrelevant",
    "matrix_no_data_race",
    "untouchable_keeps_matrix",
    "mthread_sequence",
    "mthread_read",
    "mthread_put",
    "mthread_assign",
    "mthread_compound",
    "mthread_scale",
    "mthread_generate",
    "mthread_list",
    "mthread_resize",
    "mthread_resize_fast",
    "mthread_move",
    "mthread_destroy",
    "mthread_construct_size",
    "mthread_construct_expr",
    "mthread_construct_elements",
    "mthread_construct_move",
    "mthread_transpose",
    "mthread_product",
    "writers_of_one_matrix_refuted",
    "reading_during_matrix_resize_refuted",
    "reading_during_transpose_refuted"
   ],
   "note": ""
  },
  {
   "property": "C80",
   "status": "proved",
   "theorems": [
    "vector_set_lands",
    "vector_set_rejects",
    "vector_set_by_value_iff",
    "vector_rearranged_iff",
    "vector_list_by_value",
    "vector_from_overlapping_array",
    "resized_set_of_own_element_refuted",
    "matrix_from_array_lands",
    "matrix_from_2d_array_lands",
    "matrix_from_view_lands",
    "matrix_list_by_value",
    "row_major_from_own_array",
    "col_major_from_own_array_refuted",
    "matrix_from_transposed_view_refuted",
    "quaternion_set_lands",
    "quaternion_real_part_set",
    "quaternion_list_by_value",
    "quaternion_set_own_memory_refuted",
    "own_calls_check_counts"
   ],
   "note": ""
  },
  {
   "property": "C81",
   "status": "proved",
   "theorems": [
    "constants_nearest",
    "constants_relative_error",
    "pi_side",
    "integer_constants_truncated",
    "rad_accurate",
    "deg_accurate",
    "degrees_round_trip",
    "degrees_round_trip_exact_refuted",
    "right_angles_convert",
    "conversions_monotone_and_odd",
    "integer_angles_refuted"
   ],
   "note": ""
  },
  {
   "property": "C82",
   "status": "proved",
   "theorems": [
    "small_inverse_integer",
    "small_inverse_singular",
    "small_inverse_unimodular",
    "small_inverse_modular",
    "pivoting_inverse_integer_refuted",
    "large_determinant_zero_column",
    "large_determinant_triangular",
    "small_inverse_modular_refuted",
    "large_determinant_refuted"
   ],
   "note": ""
  },
  {
   "property": "C83",
   "status": "proved",
   "theorems": [
    "dot_not_hidden",
    "length_not_hidden",
    "normalize_not_hidden",
    "cross_not_hidden",
    "triple_not_hidden",
    "product_not_hidden",
    "matrix_vector_not_hidden",
    "vector_matrix_not_hidden",
    "transform_vector_not_hidden",
    "transform_point_not_hidden",
    "quaternion_product_not_hidden",
    "quaternion_norm_not_hidden",
    "quaternion_inverse_not_hidden",
    "determinant_not_hidden",
    "small_inverse_not_hidden",
    "large_inverse_not_hidden",
    "lu_solve_not_hidden",
    "pivoted_solve_not_hidden",
    "large_determinant_hidden_refuted",
    "infinity_inverse_hidden_refuted",
    "infinity_solve_hidden_refuted",
    "large_inverse_spread_refuted"
   ],
   "note": ""
  },
  {
   "property": "C84",
   "status": "proved",
   "theorems": [
    "small_inverse_divides",
    "small_inverse_accuracy",
    "small_inverse_residual",
    "invertible_without_inverse_refuted",
    "inverse_overflow_refuted"
   ],
   "note": ""
  },
  {
   "property": "C85",
   "status": "proved",
   "theorems": [
    "euler_matrix_near_rotation",
    "euler_rotation_keeps_length",
    "world_axis_matrix_exact",
    "plane_matrix_exact",
    "world_axis_near_orthogonal"
   ],
   "note": ""
  },
  {
   "property": "C86",
   "status": "proved",
   "theorems": [
    "world_axis_quaternion_exact",
    "axis_angle_quaternion_unit",
    "euler_quaternion_unit",
    "euler_quaternion_keeps_length"
   ],
   "note": ""
  },
  {
   "property": "C87",
   "status": "proved",
   "theorems": [
    "quaternion_of_matrix_accuracy",
    "quaternion_matrix_round_trip",
    "round_trip_sign_refuted"
   ],
   "note": ""
  },
  {
   "property": "C88",
   "status": "proved",
   "theorems": [
    "look_at_accuracy",
    "align_accuracy",
    "aim_at_accuracy",
    "look_at_parallel_refuted"
   ],
   "note": ""
  },
  {
   "property": "C89",
   "status": "proved",
   "theorems": [
    "invert_RT_only_accuracy",
    "rigid_round_trip",
    "rigid_round_trip_back"
   ],
   "note": ""
  },
  {
   "property": "C90",
   "status": "proved",
   "theorems": [
    "rotate_vector_accuracy",
    "rotate_vector_length",
    "project_to_hplane_accuracy"
   ],
   "note": ""
  },
  {
   "property": "C91",
   "status": "proved",
   "theorems": [
    "polar_radius_recovered",
    "cylindrical_radius_recovered",
    "spherical_radius_recovered",
    "polar_radius_range_refuted"
   ],
   "note": ""
  },
  {
   "property": "C92",
   "status": "proved",
   "theorems": [
    "quaternion_align_accuracy",
    "quaternion_aim_at_accuracy"
   ],
   "note": ""
  },
  {
   "property": "C93",
   "status": "proved",
   "theorems": [
    "frustum_planes_accuracy",
    "frustum_side_decided",
    "normalized_frustum_planes_accuracy",
    "infinite_far_plane_refuted"
   ],
   "note": ""
  },
  {
   "property": "C94",
   "status": "proved",
   "theorems": [
    "unsigned_angle_accuracy",
    "signed_angle_sign_float",
    "signed_angle_2D_accuracy"
   ],
   "note": ""
  },
  {
   "property": "C95",
   "status": "proved",
   "theorems": [
    "quaternion_to_axis_angle_accuracy",
    "matrix_to_axis_angle_accuracy"
   ],
   "note": ""
  },
  {
   "property": "C96",
   "status": "proved",
   "theorems": [
    "rotation_2D_exact",
    "transform_vector_2D_accuracy",
    "transform_point_2D_accuracy",
    "rotated_2D_length",
    "orthonormal_basis_2D_accuracy",
    "align_2D_near_orthogonal",
    "invert_RT_only_2D_accuracy"
   ],
   "note": ""
  },
  {
   "property": "C97",
   "status": "proved",
   "theorems": [
    "random_unit_accuracy",
    "random_unit_ends",
    "random_cone_2D_accuracy",
    "random_unit_float_refuted"
   ],
   "note": ""
  },
  {
   "property": "C98",
   "status": "proved",
   "theorems": [
    "exp_accuracy",
    "exp_unit",
    "log_accuracy",
    "exp_log_real_nan_refuted",
    "log_small_angle_refuted"
   ],
   "note": ""
  },
  {
   "property": "C99",
   "status": "proved",
   "theorems": [
    "normalize_zero_nan",
    "look_at_own_target_nan",
    "look_at_noise_refuted"
   ],
   "note": ""
  }
 ]
}