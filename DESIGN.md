# Formal model of CML in Rocq — design

## Approach

The source is read as text and transcribed by hand to Gallina, function by
function. Three layers:

1. **Control layer** (`Base.v`): a result type `Ok a | Throw e | UB` and a
   counted loop. Out-of-range element access, reading an indeterminate or freed
   cell, and signed overflow of a size are `UB`, a distinct outcome. Exceptions
   are `Throw e` with the C++ exception class.
2. **Container layer**: a memory of blocks of cells with live/freed state;
   vectors and matrices are objects pointing into it (fixed, allocated,
   external), so that aliasing, overlap, resize, move and destruction are in the
   model. Expressions are trees over object names evaluated lazily, element by
   element, against the *current* memory, as the C++ expression templates are.
   This layer is parametric in the scalar type and its operations and uses no
   law about them, so its theorems hold bit for bit for floats and integers.
3. **Numeric layer**: determinant, inverse, LU, quaternions, mathlib. Written
   once over an operation record; theorems instantiate it with any (ordered)
   field or ring, or with the Coq reals when sqrt/trigonometry occur.

Exact arithmetic: theorems of layer 3 are about exact scalars (rationals, reals,
any field); rounding is the subject of C60 to C66 and C71. Layers 1–2 do not depend on this.

## Independent specifications

Determinants and inverses are compared with mathcomp's `\det`, `*m`, `1%:M`.
Rotations are compared with Coq's `cos`, `sin`, `derivable_pt_lim` and plain
3-vector algebra. Orders are compared with textbook definitions restated in
`Spec` sections.

## Plan per property

| Property | Model | Proof |
|---|---|---|
| C01 C02 | expression trees + assignment loop in memory model | loop invariant: cells < i new, >= i old; counterexamples for cross/transpose/subvector |
| C03 | in-place scaling loop with scalar by value or by cell reference | loop invariant; witness for aliasing |
| C04 C05 C44 | linear addressing of both layouts; row/col/basis access; in-place transpose | arithmetic (div/mod), loop invariants |
| C06 C45 | product loops | induction on the loop; big sums over a ring |
| C07 C08 C09 | outcome of every checked operation | case analysis; C09 refuted for dynamic targets |
| C10 C51 | history semantics over objects and blocks | ownership invariant by induction over operations |
| C11 C12 | comparison loops | induction on length |
| C13 | 32/64-bit mixing as arithmetic mod 2^w | each step is a bijection |
| C14 C15 C16 | quaternion operations on 4-element arrays with order tags | `ring`/`field`, structural equality |
| C17–C23 | rotation builders and extractors over R | `nsatz`/`ring`/trigonometric identities, derivative lemmas |
| C24 C26 | closed formulas | expansion of `\det`, `ring`/`field` |
| C25 C27–C30 | elimination loops | loop invariants against mathcomp matrices; refutations where the code is wrong |
| C31–C41 C46 C47 C52 | mathlib functions over R | real algebra |
| C42 C43 | scalar functions, order bit-fields | arithmetic; exhaustive over the finite enumerations |
| C48 C49 | element list assignment | loop invariants |
| C50 | tag tables as functions | exhaustive case analysis over tags, arithmetic over sizes |
| C53 | lifetime of temporaries in expression trees | case analysis over operand categories |
| C54 | alignment rotations over R | real algebra |
| C55 C56 | dynamic matrices on the memory model | ownership invariant over histories; refinement of the value model |
| C57 C58 C59 | util.h over R; output as text; generators as loops | trigonometry; unique reading of the text by induction; loop invariants |
| C60 | FloatModel.v (IEEE instance of the scalars), the models of vectors and products | induction on the number of terms with the standard model of each rounded operation from Flocq |
| C61 | as C60 | commutation and sign symmetry of each rounded operation, then congruence |
| C62 | as C60, with a correctly rounded square root | relative error of each step; case analysis at the ends of the exponent range |
| C63 | ScalarModel.v on IEEE values, fmod as exact remainder | monotonicity and exactness of rounding |
| C64 | LUModel.v on IEEE values; recurrences of every entry hold in any arithmetic (ExactLU.v) | errors relative to the computed value, induction over the inner loops, then over the reals |
| C65 | VecModel.v, LUModel.v, XfModel.v, QuatModel.v, RotModel.v on IEEE values | the model functions run on formulas give syntax trees; error bound by induction on the tree |
| C66 | QuatModel.v on IEEE values, a list of factors | C65, norm multiplicativity, induction on the list |
| C67 | integer types with promotion, wraparound and overflow as an undefined outcome (IntModel.v); the model functions at that arithmetic | one induction over sums and formulas: every defined outcome is congruent to the exact one |
| C68 | the same; elements of a wrapping type as a ring | ring laws of modular arithmetic; both associations have the same exact value |
| C69 | ExtMatModel.v: external matrices (dynamic and fixed size) as pointer, sizes and layout over the memory of HeapModel.v; construction, moves, resize, reset, assignment, compound assignment | direct evaluation; for the element loop, an invariant over the positions already stored; witnesses for the refuted claims |
| C70 | ConcModel.v: the operations of HeapModel.v as programs of single memory accesses, a pool of threads, and arbitrary interleavings | simulation of every access on an address-free view of the thread; separation and the other threads' views are invariant; refinement of HeapModel.v by rules for sequencing and loops; witnesses for the refuted claims |
| C71 | MixedModel.v: typed numbers, the usual arithmetic conversions, std::common_type, casts, mixed expressions, assignment with conversion | innocuous double rounding (Flocq) lifted to all special values; order of promoted types; error bounds of FloatDot.v; correctly rounded root of a small integer; witnesses for the refuted claims |
| C72 | FillModel.v: vector and matrix random() with cells, references and an engine state threaded through the loops | loop rule for a predictable second state; storage position of (i,j) counts the draws |
| C73 | FillModel.v: the recursive templates as functions on lists with a decidable equality | induction on the entries, permutations |
| C74 | GeoModel.v and QuatModel.v at IEEE floats | FloatRel.v: a float stands for a real up to k relative roundings and a range of exponents; composed along the code, scaling by powers of two exact |
| C75 | AliasModel.v: the builders with arguments that are read when the code reads them | equality with the value model, independence of the old contents, invariants of the element loops |
| C76 | FailModel.v: the builders statement by statement, with the matrix at the point of the throw | each builder carries out the function of the value model; rules for checks, identity() and writes in sequence |
| C77 | as C63, C65; near orthogonality of a real matrix (FloatRot.v) | norms, almost-isometry, error of each entry by C65's formula bounds, induction over the products |
| C78 | lu_pivot_result as an object with its calls, histories with caught exceptions (LUWsModel.v) | invariant on the order array over the history, refinement to lu_pivot of the last matrix; witnesses over rationals |
| C79 | MConcModel.v: the operations of MHeapModel.v as programs of single accesses to elements, sizes and storage, threads, arbitrary interleavings | simulation on an address-free view with sizes, on top of the separation invariant of C70; refinement of MHeapModel.v by rules for sequencing, loops, construction and local matrices; witnesses for the refuted claims |
| C80 | OwnModel.v: set and assignment with arguments that are references into the same memory; HeapModel.v for resizable vectors | every call is a sequence of stores to distinct slots: induction over the stores; characterisation of the harmless argument lists; closed forms for overlapping arrays and square matrices |
| C81 | ConstModel.v: the literals of constants.h in IEEE arithmetic, deg and rad for every arithmetic type; ConstSpec.v: the real numbers meant, nearest, error bounds | enclosures of PI (Machin series of the standard library) and e (alternating series) to 20 digits; half-ulp enclosures give the nearest number; standard rounding-error model; B2R/sign arguments |
| C82 | LUModel.v at the integer instance int_ops t of IntModel.v with fabs through double (MixedModel.v); IntInvSpec.v: adjugate, inverse, inverse modulo m, truncated quotient | reflection of the closed formulas (Formula.v) for the entries; adjugate identities and multiplicativity of the determinant by ring; loop invariants: a row that became zero or undefined stays so, an undefined trailing block stays so, triangular matrices are unchanged |
| C83 | VecModel.v, MatOps.v, XfModel.v, QuatModel.v, LUModel.v at the IEEE instance (FloatModel.v); Absorb.v: values that survive every operation | an abstract absorbing predicate (instances: not finite, NaN); reflection of closed formulas for determinants, inverses and quaternion products; loop invariants for elimination: the bad element is on the diagonal or still in the trailing block |
| C84 | LUModel.v (inv2, inv3, inv4) at the IEEE instance | the reflected formulas of the cofactors with the error calculus of FloatExpr.v; Laplace expansion for the residual; two closed counterexamples computed by the kernel |
| C85 | RotModel.v (matrix_rotation_euler, matrix_rotation_world_axis, matrix_rotation_2D) at the IEEE instance | the entries as formulas in three cosines and sines; the error calculus of FloatExpr.v; exact Gram matrix of the product of three turns as a combination of c^2 + s^2 - 1 |
| C86 | RotModel.v (quaternion_rotation_world_axis, _axis_angle, _euler) at the IEEE instance | components as formulas in cosines and sines, the error calculus of FloatExpr.v, the squared length of the exact product |
| C87 | RotModel.v (quaternion_rotation_matrix, matrix_rotation_quaternion) at the IEEE instance | one lemma for the component taken from the diagonal and one for the others; the computed trace and index of the largest diagonal element bound the chosen radicand from below |
| C88 | XfModel.v (matrix_look_at, matrix_rotation_align, matrix_rotation_aim_at), VecModel.v (vorthonormal_basis) at the IEEE instance | distances between vectors: a computed direction, cross product and third axis stay close to the exact ones; the exact frame is orthonormal |
| C89 | XfModel.v (matrix_invert_RT_only, transform_point) at the IEEE instance | the error of each dot product, the defect of the Gram matrix as a linear map, triangle inequality over the composed maps |
| C90 | RotModel.v (rotate_vector), VecModel.v (vproject_to_hplane) at the IEEE instance | the elements as formulas with the error calculus of FloatExpr.v, near-orthogonality of the exact rotation (C77); for the projection the error of the dot product of any size (C63) |
| C91 | GeoModel.v (polar, cylindrical and spherical conversions) at the IEEE instance | the returned radius as nested lengths of rounded products, the error of the length (C62), triangle inequality in the plane |
| C92 | XfModel.v (quaternion_rotation_align, quaternion_rotation_aim_at) at the IEEE instance | the matrix of C88 is close to an exact rotation, which is the rotation of a unit quaternion; the conversion of C87 recovers it or its opposite |
| C93 | GeoModel.v (extract_frustum_planes) at the IEEE instance | one rounding per coefficient, then the length and division bounds of C82 |
| C94 | VecModel.v (vunsigned_angle, vsigned_angle, vsigned_angle_2D) at the IEEE instance | the pair given to atan2 is within a multiple of u of L(cos, sin); a plane-geometry lemma turns that into an angle bound |
| C95 | RotModel.v (quaternion_to_axis_angle, matrix_to_axis_angle) at the IEEE instance | length and normalisation bounds of C62 for the axis, the angle lemma of C94 for the pair |
| C96 | RotModel.v, XfModel.v, VecModel.v (the 2D functions) at the IEEE instance | negation is exact, so perpendicularity is exact; lengths from C62 and dot products from C60 |
| C97 | GeoModel.v (random_unit, random_cone_2D) at the IEEE instance | induction over the draws; length and normalisation bounds of C62; for the cone two roundings per element and the change of a direction |
| C98 | QuatModel.v (q_exp, q_log) at the IEEE instance | length bounds of C62, rounding errors collected into one relative and one absolute term; NaN by case analysis of the operations |
| C99 | VecModel.v (vnormalize), XfModel.v (matrix_look_at) at the IEEE instance | NaN by case analysis of the operations; the refutation evaluates the model on one input and reduces every math library to its square root |

No property is planned as not applicable.

## Trusted base

* **Kernel.** The Coq 8.16.1 kernel (with its VM, used by `vm_compute` in
  examples and a few witnesses). No kernel check is switched off, there is no
  `Admitted`, no axiom, no parameter, no module type or functor in `theories/`.
* **Axioms of the standard library**, only where Coq's real numbers occur:
  * [R2] `ClassicalDedekindReals.sig_forall_dec`,
    `FunctionalExtensionality.functional_extensionality_dep`;
  * [R4] = [R2] plus `ClassicalDedekindReals.sig_not_dec` and
    `Classical_Prop.classic` (trigonometry, square roots, limits).
  Flocq, used for IEEE arithmetic, adds none.
  mathcomp, used for `\det`, permutations and matrices, adds none: `coqchk` lists
  the constants sealed by its module signatures (`BigOp.bigop`, ...) and those of
  `Rdefinitions` as "axioms", which they are not in the sense of
  `Print Assumptions`.
* **The reading of C++.** The model was transcribed by hand from the text in
  `/repo`; each definition cites file and lines. What the reading assumes:
  * every operand of one operation has the same element type, so conversions
    `value_type(x)` are the identity;
  * `int` sizes do not overflow (`rows*cols` in particular);
  * arguments are evaluated left to right where C++ leaves the order open; no
    modelled expression has side effects in two operands;
  * `assert` is compiled out; the run-time checks behind
    `CML_NO_RUNTIME_VECTOR_SIZE_CHECKS`, `CML_NO_RUNTIME_MATRIX_SIZE_CHECKS` etc.
    are compiled in (the default);
  * compile-time size errors are the exception that the run-time variant throws;
  * moved-from and copied temporaries are those C++17 guarantees (elision of
    returned prvalues).
* **Exact scalars.** Theorems whose statement has `is_ring T`, `is_field T` or `R`
  are about exact arithmetic. Theorems of the container layer (C01-C13, C44,
  C48-C51, C53 and parts of others) need no law and hold for any element type,
  including floats.

### Theorem by theorem

What `Print Assumptions` lists: nothing unless marked [R2] or [R4].

| Property | Theorems (file: names) |
|---|---|
| C01 Elementwise vector expressions are alias-safe | PropHeap: `elementwise_assign`, `elementwise_compound` |
| C02 Non-elementwise expressions need a distinct target | PropHeap: `disjoint_assign`, `cross_into_operand`, `aliased_cross_refuted`, `aliased_subvector_refuted`; PropMat: `matrix_assign`, `aliased_transpose_refuted` |
| C03 Scaling a container in place | PropHeap: `scale_by_outside`, `scale_by_own_element`; PropMat: `matrix_scale_by_outside`, `matrix_scale_by_own_element`; PropQuat: `quaternion_scale`, `quaternion_scale_by_own_element` |
| C04 Matrix storage layout is a faithful addressing of (row,col) | PropMat: `layout_addresses`, `data_order`, `matrix_get_put`, `layout_independent`, `storage_view`, `matrix_resize_linear`, `matrix_resize_negative`, `matrix_resize_elements_refuted` |
| C05 Transpose | PropMat: `transpose_expression`, `transpose_in_place`, `transpose_twice`, `aliased_transpose_refuted` |
| C06 Matrix product laws | PropMat: `product_entries`, `operands`, `product_associative`, `product_distributes`, `product_transpose`, `product_identity`, `matrix_vector_products`, `product_inner_zero_reads_outside` |
| C07 Size checks fire before any access | PropHeap: `wrong_sizes_throw`, `minmax_wrong_size_throws`, `histories_sound`; PropMat: `matrix_wrong_sizes`, `matrix_wrong_arguments`, `row_index_check_refuted`, `matrix_compound_size_error_refuted` |
| C08 Dynamic resize | PropHeap: `resize_keeps_prefix`, `resize_negative`, `resize_no_memory`, `disjoint_assign`, `resize_nontrivial_refuted` |
| C09 Compound assignment of different sizes | PropHeap: `wrong_sizes_throw`, `compound_longer_reads_garbage`, `compound_shorter_truncates`, `compound_size_error_refuted` |
| C10 No leak, no double free, no use after free | PropHeap: `histories_sound`, `histories_leak_nothing`, `histories_self_sub_refuted` |
| C11 Vector comparison is lexicographic and consistent | PropMisc: `vector_order_lexicographic`, `vector_order_total`, `matrix_equality`, `vector_equality_nan_refuted` |
| C12 Quaternion comparison | PropQuat: `quaternion_order`, `quaternion_order_transitive` |
| C13 Vector hash respects and separates | PropMisc: `hash_separates`, `hash_is_word`, `hash_respects_equality` |
| C14 Quaternion algebra | PropQuat: `quaternion_product_table`, `quaternion_algebra`, `quaternion_inverse`, `quaternion_normalize_unit` [R4]; PropSmall: `quaternion_dot` |
| C15 Storage order of a quaternion is unobservable | PropQuat: `storage_order_unobservable`, `assign_between_orders_refuted` |
| C16 In-place quaternion operations agree with the expression forms | PropQuat: `in_place_operations`, `in_place_inverse`, `quaternion_assign`, `quaternion_assign_old_values`, `quaternion_compound`, `quaternion_wrong_sizes` |
| C17 Quaternion to rotation matrix is a homomorphism | PropRotQuat: `quaternion_matrix_rotates` [R2], `quaternion_matrix_sandwich` [R2], `quaternion_matrix_product` [R2], `quaternion_basis_vectors` [R2], `quaternion_double_cover` [R2], `quaternion_matrix_too_small` [R4] |
| C18 Rotation matrix to quaternion round trip | PropRotQuat: `matrix_to_quaternion` [R4], `quaternion_round_trip` [R4] |
| C19 Axis-angle rotation | PropRotAngle: `axis_angle_rotates` [R4], `rotate_vector_is_rotation` [R4], `axis_angle_additive` [R4], `axis_angle_opposite` [R4], `axis_angle_quaternion` [R4], `world_axis_is_axis_angle` [R4], `world_axis_quaternion` [R4], `rotation_bad_arguments` [R4], `rotation_2D` [R4] |
| C20 Axis-angle extraction round trip | PropRotAngle: `matrix_axis_angle_round_trip` [R4], `quaternion_axis_angle_round_trip` [R4] |
| C21 Euler angles mean the product of axis rotations | PropRotEuler: `euler_is_three_rotations` [R4], `euler_quaternion` [R4] |
| C22 Euler angle extraction round trip | PropRotEuler: `euler_round_trip` [R4], `quaternion_euler_round_trip` [R4] |
| C23 Euler derivative matrices | PropRotEuler: `euler_derivatives_signed` [R4], `euler_derivatives_even` [R4], `euler_derivatives_odd_refuted` [R4], `euler_derivatives_homogeneous_refuted` [R4], `euler_bad_arguments` [R4] |
| C24 Determinant of small matrices | PropLU: `determinant_small`, `determinant_product`, `determinant_transpose`, `determinant_identity`, `square_required` |
| C25 Determinant of n x n matrices | PropLU: `determinant_exact_or_zero`, `determinant_one`, `determinant_dominant`, `determinant_refuted`, `square_required` |
| C26 Inverse of small matrices | PropLU: `inverse_small` |
| C27 Inverse of n x n matrices | PropLU: `inverse_dominant`, `inverse_one`, `inverse_refuted`; PropInverse: `inverse_positive`, `inverse_exchanges`, `inverse_iff_involution`, `inverse_exchanges_ordered` |
| C28 LU decomposition without pivoting | PropLU: `lu_factors`, `lu_leading_minors` |
| C29 Pivoted LU decomposition | PropLU: `lu_pivot_factors`, `lu_pivot_determinant`, `lu_pivot_dominant`, `lu_pivot_sign_refuted` |
| C30 lu_solve solves | PropLU: `lu_solve_solves`, `lu_solve_total`, `lu_pivot_solve_solves`, `lu_pivot_solve_total` |
| C31 Vector products | PropVec: `dot_is_sum`, `dot_sizes`, `dot_symmetric`, `dot_bilinear`, `length_squared_is_dot`, `cross_sizes`, `cross_laws`, `cross_linear`, `triple_is_determinant`, `triple_cyclic`, `perp_dot_is_determinant`, `outer_times`, `hadamard_elements`, `matrix_vector_dots` |
| C32 normalize | PropVec: `vector_normalize` [R4], `normalize_empty`, `quaternion_normalize` [R4], `quaternion_normalize_expression` [R4] |
| C33 Projections | PropVec: `project_to_vector_parallel` [R2], `project_to_hplane_orthogonal` [R2], `perp_orthogonal` [R4], `perp_sizes`, `manhattan_metric` [R4] |
| C34 Angles between vectors | PropVec: `signed_angle_2D_rotates` [R4], `signed_angle_2D_antisymmetric` [R4], `signed_angle_2D_opposite` [R4], `unsigned_angle_cosine` [R4], `signed_angle_sign` [R4], `signed_angle_rotates` [R4], `angle_sizes` [R4] |
| C35 Orthonormal bases | PropVec: `orthonormal_basis_frame` [R4], `orthonormal_basis_2D_frame` [R4], `orthonormal_basis_sizes` [R4] |
| C36 Rigid-transform inverse | PropXf: `invert_RT_only_inverse`, `invert_RT_only_2D_inverse`, `invert_RT_inverse`, `invert_RT_products`, `invert_RT_sizes`; PropXfReal: `rotation_orthogonal` [R2], `rigid_inverse` [R2] |
| C37 Transform application composes | PropXf: `concat_transforms_points`, `concat_transforms_vectors`, `concat_transforms_points_4D`, `transform_point_4D_affine`, `concat_sizes`, `transform_is_map`, `transform_sizes` |
| C38 Projection matrices map the view volume to the clip volume | PropProj: `clip_is_transform` [R2], `orthographic_maps` [R2], `orthographic_clips` [R2], `perspective_maps` [R2], `perspective_depth` [R2], `perspective_clips` [R2], `orthographic_size_clips` [R2], `perspective_size_clips` [R2], `perspective_xfov_clips` [R4], `perspective_yfov_clips` [R4], `projection_hands` [R4], `projection_sizes` |
| C39 Frustum extraction | PropProj: `frustum_planes_bound_clip` [R4], `near_plane` [R4], `normalized_planes` [R4], `frustum_planes_modelview` [R4], `frustum_planes_modelview_sizes` [R4], `perspective_frustum` [R4], `orthographic_frustum` [R4] |
| C40 Look-at | PropXfReal: `look_at_spec` [R4], `look_at_hands` [R4], `look_at_sizes` [R4] |
| C41 Coordinate conversion round trips | PropCoord: `polar_to_cartesian_spec` [R4], `polar_round_trip` [R4], `polar_recovered` [R4], `cylindrical_to_cartesian_spec` [R4], `cylindrical_round_trip` [R4], `cylindrical_recovered` [R4], `spherical_to_cartesian_spec` [R4], `spherical_round_trip` [R4], `spherical_recovered` [R4], `spherical_base_plane_refuted` [R4], `conversion_errors`, `conversion_variants` |
| C42 Scalar utilities | PropScalar: `clamp_nearest` [R2], `clamp_any`, `in_range_iff` [R2], `wrap_congruent` [R4], `wrap_unique` [R4], `map_range_affine` [R2], `sign_abs` [R2], `acos_safe_total` [R4], `asin_safe_total` [R4], `sqrt_safe_total` [R4], `index_of_max_is_max`, `index_of_min_is_min`, `index_of_max_abs_is_max` [R4], `index_of_min_abs_is_min` [R4], `next_step`, `prev_after_next`, `next_after_prev`, `cyclic_permutations`; PropSmall: `powers_and_roots` [R4] |
| C43 Axis and Euler order packing | PropMisc: `euler_order_axes`, `axis_order_axes`, `axis_order_pack_unpack`, `axis_order_swap`, `axis_order_2D` |
| C44 Row, column and basis accessors | PropMat: `set_row_exact`, `set_col_exact`, `row_and_column_views`, `read_back`, `basis_vectors`, `set_basis_element_exact`, `basis_of_transpose`, `matrix_from_list`, `matrix_zero_identity` |
| C45 Trace | PropMat: `trace_sum`, `trace_transpose`, `trace_linear`, `trace_product`, `trace_empty_reads_outside`; PropSmall: `block_trace`, `block_trace_basis` |
| C46 Random unit vectors | PropRandom: `random_unit_spec` [R4], `random_unit_retries` [R4], `random_unit_empty`, `random_unit_cone_spec` [R4], `random_unit_cone_reaches` [R4], `random_unit_cone_2D_spec` [R4], `random_unit_cone_errors` [R4], `random_unit_cone_1D_refuted` [R4], `random_unit_own_axis_refuted` [R4], `random_unit_own_axis_nD_refuted` [R4] |
| C47 Quaternion exp and log | PropQuatExp: `exp_polar` [R4], `exp_of_log` [R4], `log_of_exp` [R4], `exp_log_of_real_refuted` [R4] |
| C48 Construction from parts | PropHeap: `assign_element_list`, `assign_sub_and_elements`, `parts_wrong_size`, `set_own_elements_refuted`; PropExt: `assign_from_pointer` |
| C49 minimize, maximize, zero, cardinal, fill | PropHeap: `minmax_elementwise`, `minmax_wrong_size_throws`, `fill_all`, `cardinal_unit` |
| C50 Type promotion is symmetric | PropMisc: `tags_symmetric`, `storage_associative`, `basis_associative_refuted`, `vector_temporary_fits`, `matrix_temporary_fits`, `product_temporary_fits`, `vector_product_temporary_fits`, `outer_temporary_fits`, `outer_mixed_refuted`, `row_and_column_types_fit` |
| C51 External vectors and matrices write through | PropHeap: `write_through`, `external_put`, `disjoint_assign`, `overlapping_copy_repeats`, `elementwise_assign`; PropExt: `external_construct`, `external_negative_size`, `external_copy_shares`, `same_view_reads_writes`, `external_move_construct`, `external_fixed_move_construct`, `external_move_assign`, `external_self_move_empties`, `external_self_move_refuted`, `external_fixed_move_assign`, `external_reset` |
| C52 Affine helpers | PropXf: `set_translation_spec`, `set_translation_2D_spec`, `translation_moves_points`, `translation_2D_moves_points`, `translation_vectors`, `helpers_sizes`, `scale_spec`, `scale_2D_spec`, `scale_variants`, `inverse_scale_undoes`, `linear_transform_spec`, `linear_transform_self_identity`, `linear_transform_self_refuted`, `affine_transform_spec`, `skew_symmetric_is_cross`, `skew_symmetric_2D_spec`, `basis_vector_is_image`, `set_basis_vector_spec`, `basis_vector_errors`; PropXfReal: `affine_transform_axis_spec` [R4]; PropSmall: `set_basis_vector_2D_spec`, `basis_vector_2D_errors` |
| C53 Temporaries as operands | PropHeap: `binary_from_temporaries`, `cross_from_named`, `cross_from_dynamic_temporary_throws`, `cross_from_temporaries_refuted` |
| C54 Alignment rotations | PropXfReal: `rotation_align_spec` [R4], `rotation_aim_at_spec` [R4], `quaternion_align_spec` [R4], `quaternion_aim_at_spec` [R4], `rotation_align_2D_spec` [R4], `align_sizes` [R4] |
| C55 Dynamic matrices never corrupt or leak memory | PropMHeap: `matrix_histories_sound`, `matrix_histories_leak_nothing`, `matrix_throw_changes_nothing`, `matrix_ctor_mismatch_leaks`, `matrix_leaks_nothing_refuted`, `self_transpose_reads_outside` |
| C56 Every matrix operation stores its mathematical value and touches nothing else | PropMHeap: `matrix_assignment_in_memory`, `matrix_assignment_wrong_size`, `matrix_compound_in_memory`, `matrix_scale_in_memory`, `matrix_generate_in_memory`, `matrix_list_in_memory`, `matrix_construction_in_memory`, `matrix_elements_in_memory`, `matrix_transpose_in_memory`, `matrix_product_in_memory`, `matrix_move_assignment_swaps`, `memory_refines_values` |
| C57 Field-of-view and zoom conversions | PropUtil: `fov_conversions` [R4], `zoom_conversions` [R4], `fov_zoom_decreasing` [R4], `perspective_builders_agree` [R4], `fov_wide_angle` [R4], `fov_round_trip_refuted` [R4] |
| C58 Stream output determines the value | PropUtil: `vector_output`, `matrix_output`, `vector_output_determines`, `matrix_output_determines`, `quaternion_output`, `quaternion_output_determines`, `empty_vector_output_refuted` |
| C59 Generators and basis vectors in any dimension | PropUtil: `vector_generators`, `matrix_generators`, `basis_vector_nD_is_product` |
| C60 Accuracy of products in floating point | PropFloat: `dot_accuracy` [R4], `dot_no_overflow` [R4], `accurate_linear` [R2], `length_squared_accuracy` [R4], `product_accuracy` [R4], `matrix_vector_accuracy` [R4], `vector_matrix_accuracy` [R4] |
| C61 Identities that survive rounding | PropFloat: `dot_commutes_exactly` [R4], `sum_commutes_exactly` [R4], `product_transpose_exactly` [R4], `matrix_vector_exactly` [R4], `opposite_exactly` [R4], `cross_self_exactly` [R4], `cross_opposite_exactly` [R4], `length_never_nan` [R4], `dot_reordering_refuted` [R4], `float_product_associative_refuted` [R4] |
| C62 Normalisation in floating point | PropFloatNorm: `length_accuracy` [R4], `normalize_accuracy` [R4], `normalize_unit` [R4], `normalize_tiny` [R4], `normalize_huge` [R4], `normalize_unit_refuted` [R4], `normalize_huge_refuted` [R4] |
| C63 Scalar helpers on floating point values | PropFloatScalar: `wrap_float_range` [R4], `wrap_from_zero_exact` [R4], `clamp_float` [R4], `acos_asin_safe_argument` [R4], `sqrt_safe_never_nan` [R4], `in_range_float` [R4], `in_range_nan_refuted` [R4], `map_range_lower_exact` [R4], `index_of_float` [R4], `index_of_float_abs` [R4], `wrap_within_refuted` [R4], `map_range_upper_refuted` [R4], `index_of_max_nan_refuted` [R4] |
| C64 LU decomposition and solve in floating point | PropFloatLU: `lu_accuracy` [R4], `lu_pivot_accuracy` [R4], `lu_solve_accuracy` [R4], `lu_pivot_solve_accuracy` [R4], `residual_linear` [R2], `pivoting_stability_refuted` [R4] |
| C65 Closed formulas in floating point | PropFloatForm: `perp_dot_accuracy` [R4], `cross_accuracy` [R4], `triple_accuracy` [R4], `determinant_accuracy` [R4], `transform_vector_accuracy` [R4], `transform_point_accuracy` [R4], `quaternion_product_accuracy` [R4], `quaternion_product_no_overflow` [R4], `rotation_quaternion_accuracy` [R4] |
| C66 Accumulated rotations drift by a bounded amount per step | PropFloatForm: `quaternion_product_relative` [R4], `rotation_chain_drift` [R4], `unit_chain_drift` [R4] |
| C67 Integer elements: exact, modular or overflow | PropInt: `dot_integer`, `elementwise_integer`, `product_integer`, `matrix_vector_integer`, `cross_integer`, `triple_integer`, `determinant_integer`, `quaternion_product_integer`, `dot_fits_refuted`, `unsigned_short_refuted` |
| C68 Integer elements: algebraic laws | PropInt: `wrapping_operations`, `wrapping_ring`, `product_associative_integer`, `int_associative_refuted` |
| C69 External matrices are views of memory they do not own | PropExtMat: `external_matrix_construct`, `external_matrix_negative_size`, `external_matrix_default`, `external_matrix_get`, `external_matrix_array`, `external_matrix_put`, `external_matrix_transposed_view`, `external_matrix_resize`, `external_matrix_resize_wrong`, `external_matrix_reset`, `external_matrix_move_assign`, `external_matrix_move_construct`, `external_matrix_self_move_empties`, `external_matrix_fixed_move`, `external_matrix_fixed_move_construct`, `external_matrix_fixed_construct`, `external_matrix_assign`, `external_matrix_assign_wrong`, `external_matrix_fixed_assign`, `external_matrix_fixed_assign_wrong`, `external_matrix_copy_elements`, `external_matrix_compound`, `external_matrix_scale`, `external_matrix_compound_shape_refuted`, `external_matrix_overlap_refuted`, `external_matrix_transpose_self_refuted` |
| C70 Threads that share no writable vector do not interfere | PropConc: `threads_do_not_interfere`, `order_is_irrelevant`, `no_data_race`, `untouchable_keeps_contents`, `thread_sequence`, `thread_assign`, `thread_compound`, `thread_pairwise`, `thread_scale`, `thread_fill`, `thread_set`, `thread_resize`, `thread_resize_fast`, `thread_move`, `thread_destroy`, `thread_construct_size`, `thread_construct_expr`, `thread_construct_list`, `thread_construct_move`, `writers_of_one_vector_refuted`, `reading_during_resize_refuted` |
| C71 Mixed element types | PropMixed: `result_type` [R4], `common_type_laws`, `common_type_range`, `float_to_double_exact` [R4], `to_floating_nearest` [R4], `int_to_floating_exact` [R4], `to_integer_truncates` [R4], `int_double_round_trip` [R4], `long_double_round_trip_refuted` [R4], `same_type_float` [R4], `same_type_double` [R4], `same_type_int` [R4], `mixed_operation_rounds_once` [R4], `scaling_elementwise` [R4], `assignment_elementwise` [R4], `compound_elementwise` [R4], `negation` [R4], `double_scalar_on_floats` [R4], `double_vector_on_floats` [R4], `double_intermediate_refuted` [R4], `double_constant_refuted` [R4], `dot_result_type` [R4], `dot_int_int` [R4], `dot_float_float` [R4], `dot_float_double` [R4], `dot_float_double_exact_products` [R4], `int_with_unsigned` [R4], `int_with_unsigned_refuted` [R4], `integer_vector_by_double` [R4], `integer_quotient_refuted` [R4], `int_sqrt_floor` [R4], `integer_length` [R4], `long_length_refuted` [R4], `int_fabs_exact` [R4], `long_fabs_refuted` [R4], `integer_normalize_refuted` [R4] |
| C72 Random fills and random scalars | PropFill: `random_vector`, `random_vector_aliasing`, `random_vector_range`, `random_vector_prefix`, `random_vector_reproducible`, `random_vector_invalid`, `random_matrix`, `random_matrix_range`, `random_matrix_layout`, `random_matrix_aliasing`, `random_scalar_value`, `random_scalar_vector`, `random_binary_polar`, `random_unit_range` |
| C73 Compile-time lookup of types | PropFill: `type_map_lookup`, `type_map_bijective`, `type_map_order`, `type_map_bijective_refuted`, `type_map_documented_refuted`, `type_table_lookup`, `type_table_order`, `same_pair`, `all_same`, `storage_table` |
| C74 Projection matrices and quaternion inverses in floating point | PropFloatProj: `orthographic_accuracy` [R4], `perspective_accuracy` [R4], `orthographic_wh_accuracy` [R4], `perspective_wh_accuracy` [R4], `perspective_xfov_accuracy` [R4], `perspective_yfov_accuracy` [R4], `quaternion_norm_accuracy` [R4], `quaternion_inverse_accuracy` [R4], `quaternion_inverse_expression_accuracy` [R4], `perspective_overflow_refuted` [R4], `inverse_forms_refuted` [R4] |
| C75 Building a matrix from its own elements, rows and columns | PropAlias: `scalars_elsewhere`, `scale_elsewhere`, `translation_elsewhere`, `basis_vectors_elsewhere`, `look_at_elsewhere`, `skew_elsewhere`, `affine_transform_elsewhere`, `scale_forgets`, `translation_forgets`, `rotation_forgets`, `look_at_forgets`, `linear_transform_forgets`, `axis_angle_reads_identity`, `align_reads_identity`, `align_2D_reads_identity`, `aim_at_reads_identity`, `look_at_reads_identity`, `look_at_from_own_position`, `scale_by_own_diagonal`, `uniform_scale_by_own_element`, `translation_by_own_translation`, `linear_transform_by_own_transpose`, `inverse_scale_by_own_elements`, `world_axis_by_own_element`, `affine_transform_own_axis`, `set_row_own`, `set_col_own`, `set_row_from_own_row`, `set_row_from_own_column`, `set_col_from_own_column`, `set_basis_vectors_from_own`, `set_basis_vectors_from_own_transposed`, `own_elements_refuted` [R2], `own_axis_refuted` [R4], `own_basis_refuted` [R2], `own_column_refuted` [R2] |
| C76 What a rejected call leaves in the matrix | PropFail: `statements_carry_out_basis`, `statements_carry_out_scale`, `statements_carry_out_rotation`, `statements_carry_out_transform`, `single_checks_first`, `rigid_inverse_checks_first`, `translation_leaves_identity`, `alignment_leaves_identity`, `look_at_leaves`, `euler_derivatives_leaves_identity`, `basis_vectors_stored_so_far`, `affine_transform_stored_so_far`, `affine_transform_axis_stored_so_far`, `shape_survives`, `builders_start_afresh`, `retry`, `unchanged_on_failure_refuted` |
| C77 Rotation matrices in floating point stay nearly orthogonal and keep lengths | PropFloatRot: `quaternion_matrix_near_rotation` [R4], `axis_angle_matrix_near_rotation` [R4], `rotated_vector_length` [R4], `moved_points_distance` [R4], `orthogonal_products_drift` [R4], `quaternion_rotation_keeps_length` [R4], `normalized_axis_rotation` [R4] |
| C78 An LU result object used again and again | PropLUWs: `workspace_decompose`, `workspace_reuse`, `workspace_undecomposed`, `workspace_solves`, `workspace_twice_refuted`, `workspace_stale_refuted`, `workspace_grow_refuted` |
| C79 Threads that share no writable matrix do not interfere | PropMConc: `matrix_threads_do_not_interfere`, `matrix_order_is_irrelevant`, `matrix_no_data_race`, `untouchable_keeps_matrix`, `mthread_sequence`, `mthread_read`, `mthread_put`, `mthread_assign`, `mthread_compound`, `mthread_scale`, `mthread_generate`, `mthread_list`, `mthread_resize`, `mthread_resize_fast`, `mthread_move`, `mthread_destroy`, `mthread_construct_size`, `mthread_construct_expr`, `mthread_construct_elements`, `mthread_construct_move`, `mthread_transpose`, `mthread_product`, `writers_of_one_matrix_refuted`, `reading_during_matrix_resize_refuted`, `reading_during_transpose_refuted` |
| C80 What setting an object from its own elements stores | PropOwn: `vector_set_lands`, `vector_set_rejects`, `vector_set_by_value_iff`, `vector_rearranged_iff`, `vector_list_by_value`, `vector_from_overlapping_array`, `resized_set_of_own_element_refuted`, `matrix_from_array_lands`, `matrix_from_2d_array_lands`, `matrix_from_view_lands`, `matrix_list_by_value`, `row_major_from_own_array`, `col_major_from_own_array_refuted`, `matrix_from_transposed_view_refuted`, `quaternion_set_lands`, `quaternion_real_part_set`, `quaternion_list_by_value`, `quaternion_set_own_memory_refuted`, `own_calls_check_counts` |
| C81 Constants and angle conversions | PropConst: `constants_nearest` [R4], `constants_relative_error` [R4], `pi_side` [R4], `integer_constants_truncated` [R4], `rad_accurate` [R4], `deg_accurate` [R4], `degrees_round_trip` [R4], `degrees_round_trip_exact_refuted` [R4], `right_angles_convert` [R4], `conversions_monotone_and_odd` [R4], `integer_angles_refuted` [R4] |
| C82 Inverses and determinants of integer matrices | PropIntInv: `small_inverse_integer` [R4], `small_inverse_singular` [R4], `small_inverse_unimodular` [R4], `small_inverse_modular` [R4], `pivoting_inverse_integer_refuted` [R4], `large_determinant_zero_column` [R4], `large_determinant_triangular` [R4], `small_inverse_modular_refuted` [R4], `large_determinant_refuted` [R4] |
| C83 Infinities and NaN are not hidden | PropNan: `dot_not_hidden` [R4], `length_not_hidden` [R4], `normalize_not_hidden` [R4], `cross_not_hidden` [R4], `triple_not_hidden` [R4], `product_not_hidden` [R4], `matrix_vector_not_hidden` [R4], `vector_matrix_not_hidden` [R4], `transform_vector_not_hidden` [R4], `transform_point_not_hidden` [R4], `quaternion_product_not_hidden` [R4], `quaternion_norm_not_hidden` [R4], `quaternion_inverse_not_hidden` [R4], `determinant_not_hidden` [R4], `small_inverse_not_hidden` [R4], `large_inverse_not_hidden` [R4], `lu_solve_not_hidden` [R4], `pivoted_solve_not_hidden` [R4], `large_determinant_hidden_refuted` [R4], `infinity_inverse_hidden_refuted` [R4], `infinity_solve_hidden_refuted` [R4], `large_inverse_spread_refuted` [R4] |
| C84 Inverses of small matrices in floating point | PropFloatInv: `small_inverse_divides` [R4], `small_inverse_accuracy` [R4], `small_inverse_residual` [R4], `invertible_without_inverse_refuted` [R4], `inverse_overflow_refuted` [R4] |
| C85 Euler and coordinate-axis rotations in floating point | PropFloatEuler: `euler_matrix_near_rotation` [R4], `euler_rotation_keeps_length` [R4], `world_axis_matrix_exact` [R4], `plane_matrix_exact` [R4], `world_axis_near_orthogonal` [R4] |
| C86 Quaternions from angles in floating point | PropFloatQuat: `world_axis_quaternion_exact` [R4], `axis_angle_quaternion_unit` [R4], `euler_quaternion_unit` [R4], `euler_quaternion_keeps_length` [R4] |
| C87 From a quaternion to its matrix and back in floating point | PropFloatTrip: `quaternion_of_matrix_accuracy` [R4], `quaternion_matrix_round_trip` [R4], `round_trip_sign_refuted` [R4] |
| C88 look_at, aim_at and align matrices in floating point | PropFloatFrame: `look_at_accuracy` [R4], `align_accuracy` [R4], `aim_at_accuracy` [R4], `look_at_parallel_refuted` [R4] |
| C89 Inverse of a rigid transform in floating point | PropFloatRigid: `invert_RT_only_accuracy` [R4], `rigid_round_trip` [R4], `rigid_round_trip_back` [R4] |
| C90 rotate_vector and projections in floating point | PropFloatTurn: `rotate_vector_accuracy` [R4], `rotate_vector_length` [R4], `project_to_hplane_accuracy` [R4] |
| C91 Coordinate conversions in floating point give the radius back | PropFloatCoord: `polar_radius_recovered` [R4], `cylindrical_radius_recovered` [R4], `spherical_radius_recovered` [R4], `polar_radius_range_refuted` [R4] |
| C92 quaternion_rotation_align and quaternion_rotation_aim_at in floating point | PropFloatAim: `quaternion_align_accuracy` [R4], `quaternion_aim_at_accuracy` [R4] |
| C93 Frustum planes in floating point | PropFloatPlanes: `frustum_planes_accuracy` [R4], `frustum_side_decided` [R4], `normalized_frustum_planes_accuracy` [R4], `infinite_far_plane_refuted` [R4] |
| C94 Angles between vectors in floating point | PropFloatAngle: `unsigned_angle_accuracy` [R4], `signed_angle_sign_float` [R4], `signed_angle_2D_accuracy` [R4] |
| C95 Axis and angle of a rotation in floating point | PropFloatAxis: `quaternion_to_axis_angle_accuracy` [R4], `matrix_to_axis_angle_accuracy` [R4] |
| C96 Rotations, frames and inverses of the plane in floating point | PropFloatTwo: `rotation_2D_exact` [R4], `transform_vector_2D_accuracy` [R4], `transform_point_2D_accuracy` [R4], `rotated_2D_length` [R4], `orthonormal_basis_2D_accuracy` [R4], `align_2D_near_orthogonal` [R4], `invert_RT_only_2D_accuracy` [R4] |
| C97 Random unit vectors in floating point | PropFloatRandom: `random_unit_accuracy` [R4], `random_unit_ends` [R4], `random_cone_2D_accuracy` [R4], `random_unit_float_refuted` [R4] |
| C98 Exponential and logarithm of a quaternion in floating point | PropFloatExp: `exp_accuracy` [R4], `exp_unit` [R4], `log_accuracy` [R4], `exp_log_real_nan_refuted` [R4], `log_small_angle_refuted` [R4] |
| C99 Degenerate directions in floating point | PropFloatDegenerate: `normalize_zero_nan` [R4], `look_at_own_target_nan` [R4], `look_at_noise_refuted` [R4] |

## What is modelled

Paths below `cml/`.

| Model file | C++ |
|---|---|
| Base.v | exception classes, loops, `std::min`/`std::max` |
| ScalarModel.v | `scalar/functions.h` |
| HeapModel.v, ExtModel.v | `vector/{fixed_compiled,fixed_external,dynamic_allocated,dynamic_external,writable_vector,readable_vector}.tpp`, `vector/{unary,binary,scalar,cross,subvector}_node.tpp`, `vector/detail/{check_or_resize,combined_size_of,resize}.h`, `vector/size_checking.tpp` |
| MatModel.v | `matrix/{fixed_compiled,fixed_external,dynamic_allocated,dynamic_external}.{h,tpp}` storage and resizing, `matrix/{readable,writable}_matrix.tpp`, the expression nodes, `matrix/{matrix_product,vector_product,trace,comparison}.tpp`, `matrix/detail/{copy,get,generate,apply,transpose,check_or_resize}.h` |
| MiscModel.v | `vector/comparison.tpp`, `common/hash.h`, `util/vector_hash.h`, `mathlib/{axis_order,euler_order}.h` |
| PromoteModel.v | `common/promotion.h`, the tag headers, `storage/*.h`, `vector/promotion.h`, `matrix/promotion.h`, `vector/temporary.h` |
| QuatModel.v | `quaternion/*.tpp` |
| RotModel.v | `mathlib/matrix/{rotation,misc}.tpp`, `mathlib/quaternion/{rotation,basis}.tpp`, `mathlib/vector/rotation.tpp` |
| LUModel.v | `matrix/detail/{determinant.tpp,inverse.h,lu.tpp}`, `matrix/{lu,determinant}.tpp`, `matrix/inverse.h` |
| VecModel.v | `vector/{dot,perp_dot,triple_product,outer_product_node}.tpp`, `mathlib/vector/{angle,misc,orthonormal}.tpp` |
| XfModel.v | `mathlib/matrix/{basis,concat,invert,scale,transform,translation}.tpp`, alignment rotations, `mathlib/vector/transform.tpp` |
| GeoModel.v | `mathlib/matrix/projection.tpp`, `mathlib/{frustum,coordinate_conversion,random_unit}.tpp` |
| MHeapModel.v | `matrix/dynamic_allocated.{h,tpp}`, `matrix/writable_matrix.tpp`, `matrix/detail/{check_or_resize,copy,apply,generate,transpose}.h`, `matrix/matrix_product.tpp` on the memory of HeapModel.v |
| UtilModel.v | `util.h`, `util/{vector,matrix,quaternion}_print.tpp`, `mathlib/vector/generators.h`, `mathlib/matrix/generators.h` |
| FloatModel.v | scalar/binary_ops.h, unary_ops.h and the square root of scalar/traits.h on IEEE formats |
| ExactLU.v, FloatLU.v, PropFloatLU.v | (no new code) the recurrences of matrix/detail/lu.tpp and matrix/lu.tpp in any arithmetic, and their rounding errors |
| FloatExpr.v, PropFloatForm.v | (no new code) rounding errors of the formulas modelled in VecModel.v, LUModel.v, XfModel.v, QuatModel.v, RotModel.v |
| IntModel.v, Formula.v | integer arithmetic of the element type: `scalar/{promotion,binary_ops}.h`, C++ promotion and overflow rules (int: 32 bits); division of narrow types is not covered |
| ExtMatModel.v | cml/matrix/{dynamic_external,fixed_external}.{h,tpp} |
| ConcModel.v | the vector operations of HeapModel.v again, access by access (`cml/vector/{writable_vector,dynamic_allocated}.tpp`); sequentially consistent memory |
| MixedModel.v | `cml/scalar/{binary_ops,unary_ops,promotion,traits}.h`, and the element conversions of `cml/vector/{writable_vector,dynamic_allocated,fixed_compiled,scalar_node,binary_node,unary_node,dot,readable_vector}.tpp` |
| FillModel.v | `random` of `cml/vector/writable_vector.tpp`, `cml/matrix/writable_matrix.tpp`; random functions of `cml/scalar/functions.h`; `cml/common/mpl/{type_map,type_table,is_same_pair,are_same}.h`; the table of `cml/storage/promotion.h` |
| AliasModel.v | `cml/mathlib/matrix/{basis,translation,scale,transform,rotation,misc}.tpp` and `set_row`, `set_col` of `cml/matrix/writable_matrix.tpp` with arguments that refer to the target |
| FailModel.v | `cml/mathlib/matrix/{basis,translation,scale,transform,rotation,misc,invert}.tpp` with the contents of the matrix when they throw |
| LUWsModel.v | `lu_pivot_result` as an object: `cml/matrix/lu.h:18-58`, `lu.tpp:25-32, 91-140` |
| MConcModel.v | the operations of MHeapModel.v (see there) as programs of single accesses, for threads |
| OwnModel.v | vector/writable_vector.tpp set, assign from arrays and lists; matrix/writable_matrix.tpp assign from arrays, lists and matrices with detail/copy.h; quaternion/writable_quaternion.tpp set and assign from lists, all with arguments that refer to the memory written; element type conversions not modelled |
| ConstModel.v | scalar/constants.h, all members; scalar/functions.h deg and rad, for double, float and the integer types; a literal is the double nearest to its decimal value (what a compiler must not guarantee but all do); M_PI and the like have the digits of constants.h also when <cmath> defines them |

Not modelled: code under `#if 0`; `noexcept`, `constexpr` and SFINAE (which
overload is chosen, and whether an expression compiles at all); `typedef`
headers (`*/types.h`, `*/fwd.h`); the distribution of the random numbers
(C46 and C72 are proved for every sequence of draws); threads, except
for vector operations (C70) and operations on run-time-size matrices (C79), and there weak memory; `std::rand()`, whose state all threads share; rounding, except in the theorems on IEEE arithmetic (C60 onwards), which take
round-to-nearest-even, no fused multiply-add and no excess precision;
`matrix_invert_RT` of a 0 x 0 matrix.

## Findings

Claims of the documentation, or plain expectations, that the model refutes.
Each has a `_refuted` theorem with a witness, or a theorem that says what happens
instead.

| Finding | Theorem |
|---|---|
| `u = cross(u,v)` and `v = subvector(v,i)` read elements already overwritten | `aliased_cross_refuted`, `aliased_subvector_refuted` |
| `m = transpose(m)` of a square matrix does not transpose | `aliased_transpose_refuted` |
| `v += w` of dynamic vectors of different sizes does not throw: a longer `w` makes `v` read indeterminate cells, a shorter one truncates `v` | `compound_size_error_refuted`, `compound_longer_reads_garbage` |
| the same for matrices, and external matrices are reshaped by `+=` | `matrix_compound_size_error_refuted` |
| resizing a dynamic vector of a type with a destructor destroys elements that were never constructed | `resize_nontrivial_refuted` |
| a matrix `resize` keeps linear positions, not (row, column) positions | `matrix_resize_elements_refuted` |
| row index checks have no upper bound | `row_index_check_refuted` |
| `v.set(v[1], v[0])` uses overwritten elements | `set_own_elements_refuted` |
| `cross` with a dynamic temporary operand computes from a moved-from vector | `cross_from_temporaries_refuted` |
| `m *= m(p,q)` and `q *= q[k]` change the factor half way | `scale_by_own_element`, `matrix_scale_by_own_element`, `quaternion_scale_by_own_element` |
| `==` is defined from `<`, so a NaN element equals everything: `==` is not transitive and "equal" vectors can differ by hash | `vector_equality_nan_refuted` |
| promotion of basis tags is not associative | `basis_associative_refuted` |
| the outer product of a fixed and a dynamic vector has no usable result type | `outer_mixed_refuted` |
| assigning a quaternion of the other storage order copies positions, not parts | `assign_between_orders_refuted` |
| `exp` and `log` of a real quaternion divide by zero | `exp_log_of_real_refuted` |
| `matrix_rotation_euler_derivatives` has the wrong sign for the odd orders, and leaves the identity outside the 3 x 3 block | `euler_derivatives_odd_refuted`, `euler_derivatives_homogeneous_refuted` |
| `determinant` of a 5 x 5 or larger invertible matrix can be 0 (`diag(-1,1,1,1,1)`) | `determinant_refuted` |
| `lu_pivot` reports a sign that is not that of its permutation | `lu_pivot_sign_refuted` |
| `inverse` of a 5 x 5 or larger matrix is wrong for `0.5*I`, and returns a cyclic permutation unchanged | `inverse_refuted` |
| The column exchanges at the end of `inverse` run in the order of the row exchanges instead of the reverse order: the product of a matrix and its computed inverse is the matrix of the squared exchange permutation | `inverse_exchanges` |
| `matrix_linear_transform(m, m)` gives the identity | `linear_transform_self_refuted` |
| "phi = 0 on the base plane" is false for colatitude | `spherical_base_plane_refuted` |
| `random_unit` in a cone divides by zero in dimension 1; `random_unit(v, v, a)` leaves the cone or is NaN | `random_unit_cone_1D_refuted`, `random_unit_own_axis_refuted`, `random_unit_own_axis_nD_refuted` |
| move-assigning a dynamic external vector to itself empties it | `external_self_move_refuted` |
| `matrix(rows, cols, e...)` and `matrix(rows, cols, array)` with the wrong number of elements throw and leak the block | `matrix_leaks_nothing_refuted`, `matrix_ctor_mismatch_leaks` |
| `m = transpose(m)` of a tall row-major or wide column-major dynamic matrix reads past the allocation | `self_transpose_reads_outside` |
| printing an empty vector reads element 0 | `empty_vector_output_refuted` |
| a field of view above pi does not survive the round trip through the other axis | `fov_round_trip_refuted`, `fov_wide_angle` |
| In floating point a dot product depends on the order of the elements and matrix products are not associative (expected, but it bounds what C06 and C31 say for float and double). | `dot_reordering_refuted`, `float_product_associative_refuted` |
| normalize() of a finite non-zero vector yields infinities and NaN when all squares underflow, and the zero vector when one overflows. | `normalize_unit_refuted`, `normalize_huge_refuted` |
| wrap() can return a value above max (documented range [min,max]): doubles -1, -(1-2^-53), 17*2^-55. | `wrap_within_refuted` |
| in_range(NaN, min, max) is true for every range. | `in_range_nan_refuted` |
| map_range() need not map max1 to max2; index_of_max() with a NaN argument can return the index of a smaller number. | `map_range_upper_refuted`, `index_of_max_nan_refuted` |
| lu_pivot loses the stability of partial pivoting when a diagonal entry is large and negative: the tiny entry below it becomes the pivot (cml/matrix/detail/lu.tpp:53 starts the search from M(k,k), not its magnitude) | `pivoting_stability_refuted` |
| `dot` of `unsigned short` vectors multiplies promoted `int`s: 65535 * 65535 is signed overflow (undefined), although the element type is unsigned; a dot product of ints whose value fits may overflow on the way | `unsigned_short_refuted`, `dot_fits_refuted` |
| Assigning an external matrix from an overlapping external matrix, or from its own transpose (also a non-square one, which first reshapes the target), stores wrong elements without any error; `m += e` with another shape but as many elements reshapes m | `external_matrix_overlap_refuted`, `external_matrix_transpose_self_refuted`, `external_matrix_compound_shape_refuted` |
| No operation is synchronised: two threads that write one vector lose updates, and reading a vector while another thread resizes it is undefined; `random`, `random_unit` and the random vectors draw seeds from `std::rand()`, the only mutable state shared behind the user's back (no thread model) | `writers_of_one_vector_refuted`, `reading_during_resize_refuted` |
| Element types mix silently: int with unsigned vectors wraps (-1 + 0u), v / 2 of an int vector assigned to doubles is truncated, `length()` and `fabs` of 64-bit integers go through double and can be off by one, `normalize()` of integer vectors truncates | `int_with_unsigned_refuted`, `integer_quotient_refuted`, `long_length_refuted`, `long_fabs_refuted`, `integer_normalize_refuted` |
| `type_map` is called bijective but repeated types are accepted and break it; the comment on `find_first` says it returns the first type of the entry | `type_map_bijective_refuted`, `type_map_documented_refuted` |
| `matrix_perspective` computes `-2*far*near` before dividing: it overflows for planes whose matrix entry is representable | `perspective_overflow_refuted` |
| `q.inverse()` divides by the norm, `inverse(q)` multiplies by its reciprocal: the results differ in the last place | `inverse_forms_refuted` |
| `matrix_scale(m, m(0,0), m(1,1), m(2,2))`, `matrix_uniform_scale(m, m(0,0))`, `matrix_translation(m, m(3,0), ...)` overwrite their arguments first and yield the identity; `matrix_inverse_scale` does not | `own_elements_refuted`, `scale_by_own_diagonal`, `inverse_scale_by_own_elements` |
| `matrix_affine_transform(m, axis, angle, t, normalize)` with a unit axis that is a view of m: the flag decides whether the axis or that of the identity is used | `own_axis_refuted` |
| exchanging basis vectors of a matrix through views duplicates one; storing its columns as rows mirrors a triangle | `own_basis_refuted`, `own_column_refuted` |
| `matrix_translation`, `matrix_rotation_align`, `matrix_look_at` and `matrix_rotation_euler_derivatives` throw with the identity in the matrix; `matrix_set_basis_vectors` and `matrix_affine_transform` with a part of their result | `unchanged_on_failure_refuted` |
| `lu_pivot(result)` after `result.lu` was given a larger matrix writes outside `result.order`; the constructors of `lu_pivot_result` leave `sign` uninitialised and `lu_solve` reads it | `workspace_grow_refuted`, `workspace_undecomposed` |
| The same holds of matrices; in addition a reader of a matrix that another thread transposes in place may use the old size with the new elements | `writers_of_one_matrix_refuted`, `reading_during_matrix_resize_refuted`, `reading_during_transpose_refuted` |
| v.set(v[1], v[0]) does not swap; a column-major matrix over an array, assigned from that array, or a matrix assigned from its transposed view over the same memory, becomes symmetric; q.set(s, v) with v over q.data() depends on the storage order; a resizable vector set to another number of own elements reads freed memory | `vector_rearranged_iff`, `col_major_from_own_array_refuted`, `matrix_from_transposed_view_refuted`, `quaternion_set_own_memory_refuted`, `resized_set_of_own_element_refuted` |
| deg(rad(30)) is not 30, neither in double nor in float; rad of an integer is always 0 and deg of an integer multiplies by 57 | `degrees_round_trip_exact_refuted`, `integer_angles_refuted` |
| inverse() of an integer matrix compiles and runs: for sizes 2 to 4 it truncates cofactor/determinant, and for the other sizes it returns a zero row for every matrix with an element outside {-1, 0, 1}; determinant() of an integer matrix of size 5 or more is wrong or divides by zero on invertible matrices | `pivoting_inverse_integer_refuted`, `large_determinant_refuted`, `large_determinant_zero_column`, `small_inverse_modular_refuted` |
| determinant() of a matrix of size 5 or more returns 0 for matrices containing NaN when the pivot search stops early; inverse() of size 5 or more returns finite (meaningless) entries for matrices containing NaN: a NaN never becomes the pivot, and element (0, 0) serves as pivot a second time | `large_determinant_hidden_refuted`, `large_inverse_spread_refuted` |
| inverse() of an invertible 2x2 matrix with elements between 1 and 2 can contain no finite entry (the determinant rounds to 0), and the inverse of a matrix with large elements can be the zero matrix (the determinant overflows): the code divides by the determinant without a check | `invertible_without_inverse_refuted`, `inverse_overflow_refuted` |
| look_at with an up vector along the line of sight returns a matrix of NaNs and reports nothing | `look_at_parallel_refuted` |
| A finite radius comes back from a coordinate conversion: the radius is the square root of a sum of squares that overflows or underflows for radii whose coordinates are all finite | `polar_radius_range_refuted` |
| normalised frustum planes of a projection with an infinite far plane have a NaN far plane, silently | `infinite_far_plane_refuted` |
| random_unit returns a unit vector: a draw whose squared length is subnormal is accepted and gives a vector of squared length 5/4 | `random_unit_float_refuted` |
| exp() and log() of a quaternion without imaginary part have NaN imaginary parts in IEEE arithmetic, whatever the math library | `exp_log_real_nan_refuted` |
| log() of a rotation by a small angle: w/\|q\| rounds to 1, the logarithm has zero imaginary part and exp(log(q)) is NaN | `log_small_angle_refuted` |
| look_at with up along the line of sight returns a finite matrix made of rounding errors that is not a rotation | `look_at_noise_refuted` |

Other observations made while reading, not stated as theorems: the product of two
quaternion expressions of different types does not compile; `inverse_node`'s
constructor reads `sub.norm()` after `std::move(sub)` (harmless for references);
`determinant` of a 0 x 0 matrix reads element (0,0); the subvector of an empty
vector has size -1; the documentation of the coordinate conversions swaps theta
and phi (code: theta is the azimuth, phi the inclination); `orthonormal_basis` with
`normalize_align = false` and a non-unit `align` returns non-unit axes; degenerate `look_at` arguments and
frustum planes with zero normal divide by zero.

## Wrong programs

`seeded/LOG.jsonl` has one line per edit of the model that was tried in a scratch
copy: the definition edited, the edit, the claim it breaks, the manifest theorems
that no longer prove, and the theorems added or tightened when none failed.
