{"id": "C01", "title": "Elementwise vector expressions are alias-safe", "statement": "Assigning an elementwise vector expression (any nesting of +, -, unary minus, *scalar, /scalar over vectors) to a vector v stores, at every index i, the value the expression has at i in the state before the assignment, even when v itself occurs in the expression any number of times; nothing other than v changes.", "quantifier": "every expression tree, every vector length, every operand placement (including the target), every scalar type", "why_tests_cant": "expression trees and lengths are unbounded, and every aliasing pattern is a different case", "anchors": ["cml/vector/writable_vector.tpp: assign", "cml/vector/binary_node.tpp", "cml/vector/unary_node.tpp", "cml/vector/scalar_node.tpp"]}
{"id": "C02", "title": "Non-elementwise expressions need a distinct target", "statement": "Assigning cross(a,b), subvector(a,i) or transpose(m) to an object that does not occur in the expression stores the mathematical value of the expression. When the target occurs in the expression the property 'the target receives the value of the expression before the assignment' fails.", "quantifier": "all operands, sizes and indices; all placements of the target", "why_tests_cant": "the failing placements produce plausible numbers and depend on evaluation order", "anchors": ["cml/vector/cross_node.tpp", "cml/vector/subvector_node.tpp", "cml/matrix/transpose_node.tpp", "cml/matrix/writable_matrix.tpp: assign"]}
{"id": "C03", "title": "Scaling a container in place", "statement": "v *= s and v /= s multiply or divide every element by the value s had on entry, for vectors, matrices and quaternions, provided s does not refer to an element of the container; when s refers to element k, the elements after k are scaled by the already updated value.", "quantifier": "all lengths, element values, aliased index k", "why_tests_cant": "only some positions are wrong and only for some values", "anchors": ["cml/vector/writable_vector.tpp: operator*=, operator/=", "cml/matrix/writable_matrix.tpp: operator*=, operator/=", "cml/quaternion/writable_quaternion.tpp: operator*=, operator/="]}
{"id": "C04", "title": "Matrix storage layout is a faithful addressing of (row,col)", "statement": "For row-major and column-major matrices of every shape, put(i,j,x) followed by get(i,j) yields x and leaves every other get(i',j') unchanged; every address is inside the array, and each array element is reached by exactly one (i,j). Element data() order is row-by-row for row_major and column-by-column for col_major.", "quantifier": "all shapes rows x cols, all in-range indices, both layouts", "why_tests_cant": "shapes are unbounded", "anchors": ["cml/matrix/dynamic_allocated.h: s_access", "cml/matrix/dynamic_external.h: s_access", "cml/matrix/fixed_compiled.h: s_access", "cml/matrix/fixed_external.h: s_access"]}
{"id": "C05", "title": "Transpose", "statement": "transpose(m) has entry m(j,i) at (i,j); transposing twice gives back m; the in-place m.transpose() of a square matrix produces exactly transpose(m) and of a dynamic rectangular one the transposed shape; no element outside is touched.", "quantifier": "all shapes, layouts and element types", "why_tests_cant": "in-place permutation must be right for every size", "anchors": ["cml/matrix/detail/transpose.h", "cml/matrix/transpose_node.tpp", "cml/matrix/writable_matrix.tpp: transpose"]}
{"id": "C06", "title": "Matrix product laws", "statement": "The product of conformable matrices has entry sum_k a(i,k)*b(k,j), is associative, distributes over +, has identity() as unit and satisfies transpose(A*B)=transpose(B)*transpose(A); M*v and v*M agree with treating v as a one-column/one-row matrix. The result does not depend on the layouts of the operands.", "quantifier": "all conformable shapes with nonempty inner dimension, all entries of any commutative ring, all layouts", "why_tests_cant": "sizes and entries are unbounded", "anchors": ["cml/matrix/matrix_product.tpp", "cml/matrix/vector_product.tpp"]}
{"id": "C07", "title": "Size checks fire before any access", "statement": "Every run-time-sized operation on operands of incompatible size throws the documented exception and modifies nothing; when the check passes no element outside an operand is read or written.", "quantifier": "all operand sizes (negative arguments included), all storage kinds", "why_tests_cant": "sizes are unbounded and a stray access need not crash", "anchors": ["cml/vector/size_checking.tpp", "cml/matrix/size_checking.tpp", "cml/vector/detail/check_or_resize.h", "cml/matrix/detail/check_or_resize.h"]}
{"id": "C08", "title": "Dynamic resize", "statement": "resize(n) on a dynamic vector gives size n, keeps the first min(old,n) elements, never touches other objects, throws std::invalid_argument without effect for n<0; assignment to a dynamic vector gives it the size of the source.", "quantifier": "all old and new sizes, all contents, all other live objects", "why_tests_cant": "size pairs are unbounded; preservation of other objects quantifies over whole heaps", "anchors": ["cml/vector/dynamic_allocated.tpp: resize, resize_fast", "cml/matrix/dynamic_allocated.tpp: resize"]}
{"id": "C09", "title": "Compound assignment of different sizes", "statement": "v += w and v -= w with sizes that differ throw and leave v unchanged when v has fixed-size or external storage. For dynamically allocated v the documentation promises the same, but that claim is false: a shorter w silently cuts v to the size of w, a longer w makes the call read indeterminate elements.", "quantifier": "all pairs of different sizes", "why_tests_cant": "the behaviour for a dynamic target depends on every size pair and reads indeterminate memory", "anchors": ["cml/vector/writable_vector.tpp: operator+=, operator-=", "cml/vector/writable_vector.h", "cml/matrix/writable_matrix.tpp: operator+=, operator-="]}
{"id": "C10", "title": "No leak, no double free, no use after free", "statement": "For every sequence of construct, copy, move, assign, resize, element write and destroy operations on dynamic vectors, including operations that throw (bad size, allocation failure), every heap block is owned by exactly one live vector, each block is freed exactly once, and no operation touches a freed block.", "quantifier": "every finite history of operations on any number of vectors, any allocation-failure schedule", "why_tests_cant": "histories are unbounded", "anchors": ["cml/vector/dynamic_allocated.tpp", "cml/vector/dynamic_allocated.h"]}
{"id": "C11", "title": "Vector comparison is lexicographic and consistent", "statement": "For element types with a total order, operator< on vectors is the lexicographic strict total order with shorter prefixes first, operator> its converse, == holds exactly for equal size and equal elements, and <=,>=,!= are the corresponding negations; exactly one of <, ==, > holds. For elements with unordered values (NaN) == is not equality and not transitive. Matrix == holds exactly for equal sizes and elements.", "quantifier": "all pairs/triples of vectors of all lengths over any totally ordered type", "why_tests_cant": "transitivity and trichotomy quantify over all triples of unbounded vectors", "anchors": ["cml/vector/comparison.tpp"]}
{"id": "C12", "title": "Quaternion comparison", "statement": "Quaternion < is a strict total order on the stored elements for totally ordered scalars, > its converse and == elementwise equality, consistent with each other.", "quantifier": "all quaternions over any totally ordered type, both storage orders", "why_tests_cant": "order laws quantify over all triples", "anchors": ["cml/quaternion/comparison.tpp"]}
{"id": "C13", "title": "Vector hash respects and separates", "statement": "Vectors with the same element hashes hash equally; two vectors of equal length that differ in the hash of exactly one element never collide, in both the 32-bit and the 64-bit combiner.", "quantifier": "all vectors of all lengths, all machine words", "why_tests_cant": "2^64 words and unbounded lengths", "anchors": ["cml/util/vector_hash.h", "cml/common/hash.h"]}
{"id": "C14", "title": "Quaternion algebra", "statement": "For each cross type, the quaternion product is associative, distributes over +, has identity as unit, norm(p*q)=norm(p)*norm(q), conjugate(p*q)=conjugate(q)*conjugate(p), q*inverse(q)=inverse(q)*q=identity for norm(q)/=0; dot(p,q) is the symmetric bilinear form with dot(q,q)=norm(q), the real part of p*conjugate(q), and is scaled by norm(r) when both operands are multiplied by r; the negative-cross product is the positive-cross product with swapped operands.", "quantifier": "all quaternions over any field (in particular R)", "why_tests_cant": "algebraic identities over infinitely many values", "anchors": ["cml/quaternion/product.tpp", "cml/quaternion/readable_quaternion.tpp", "cml/quaternion/conjugate_node.tpp", "cml/quaternion/inverse_node.tpp"]}
{"id": "C15", "title": "Storage order of a quaternion is unobservable", "statement": "real_first and imaginary_first quaternions with the same real and imaginary parts give the same real and imaginary parts after any of: product, sum, difference, scaling, conjugate, inverse, normalize, in any nested expression, and in-place operation. Assignment (and +=, -=) between quaternions of different orders compiles but copies storage slots, so the parts are permuted.", "quantifier": "all quaternions, all operation results, both orders, any scalar operations (no algebraic law needed)", "why_tests_cant": "must hold for every value including non-associative floating point ones", "anchors": ["cml/quaternion/order_tags.h", "cml/quaternion/product.tpp", "cml/quaternion/writable_quaternion.tpp"]}
{"id": "C16", "title": "In-place quaternion operations agree with the expression forms", "statement": "q.conjugate(), q.inverse(), q.normalize(), q*=p have the value of conjugate(q), inverse(q), normalize(q), q*p taken before the call, also when p is q itself.", "quantifier": "all quaternions, both orders, both cross types, aliasing included", "why_tests_cant": "aliasing and values are universally quantified", "anchors": ["cml/quaternion/writable_quaternion.tpp"]}
{"id": "C17", "title": "Quaternion to rotation matrix is a homomorphism", "statement": "matrix_rotation_quaternion of a unit quaternion is orthogonal with determinant 1; applied to a vector it equals the imaginary part of q*v*conjugate(q) in the order given by the cross type; and the matrix of a product is the product of the matrices in the order dictated by basis orientation and cross type.", "quantifier": "all unit quaternions, both cross types, both basis orientations", "why_tests_cant": "identities over a continuum", "anchors": ["cml/mathlib/matrix/rotation.tpp: matrix_rotation_quaternion"]}
{"id": "C18", "title": "Rotation matrix to quaternion round trip", "statement": "quaternion_rotation_matrix of the matrix of a unit quaternion q returns q or -q, whichever branch is taken; for every rotation matrix the returned quaternion is unit and has that matrix.", "quantifier": "all unit quaternions / all rotation matrices, all four branches", "why_tests_cant": "branch boundaries form a continuum", "anchors": ["cml/mathlib/quaternion/rotation.tpp: quaternion_rotation_matrix"]}
{"id": "C19", "title": "Axis-angle rotation", "statement": "matrix_rotation_axis_angle(axis,theta) with unit axis is orthogonal, has determinant 1, fixes the axis, has trace 1+2cos(theta), composes additively in theta, is transposed by theta -> -theta, equals rotate_vector applied to each vector and the matrix of quaternion_rotation_axis_angle, and equals the world-axis rotation for the cardinal axes.", "quantifier": "all unit axes, all angles, both basis orientations", "why_tests_cant": "continuum of inputs", "anchors": ["cml/mathlib/matrix/rotation.tpp: matrix_rotation_axis_angle, matrix_rotation_world_axis", "cml/mathlib/vector/rotation.tpp", "cml/mathlib/quaternion/rotation.tpp"]}
{"id": "C20", "title": "Axis-angle extraction round trip", "statement": "matrix_to_axis_angle and quaternion_to_axis_angle return a unit axis and angle whose rotation matrix is the given rotation (outside the tolerance band, in which the angle is reported as 0 or pi).", "quantifier": "all rotations (all unit axes, all angles)", "why_tests_cant": "degenerate bands and branch choices form a continuum", "anchors": ["cml/mathlib/matrix/rotation.tpp: matrix_to_axis_angle", "cml/mathlib/quaternion/rotation.tpp: quaternion_to_axis_angle"]}
{"id": "C21", "title": "Euler angles mean the product of axis rotations", "statement": "For each of the 12 orders, matrix_rotation_euler(a0,a1,a2,order) is the product of the three single-axis world rotations named by the order, is orthogonal with determinant 1, and quaternion_rotation_euler yields a unit quaternion with that same matrix.", "quantifier": "all three angles, all 12 orders, both basis orientations", "why_tests_cant": "three continuous parameters times 12 orders", "anchors": ["cml/mathlib/matrix/rotation.tpp: matrix_rotation_euler", "cml/mathlib/quaternion/rotation.tpp: quaternion_rotation_euler", "cml/mathlib/euler_order.h"]}
{"id": "C22", "title": "Euler angle extraction round trip", "statement": "matrix_rotation_euler applied to the angles returned by matrix_to_euler reproduces the given rotation matrix, for each order, outside the tolerance band and at exact gimbal lock.", "quantifier": "all rotation matrices, all 12 orders", "why_tests_cant": "continuum, with singular configurations", "anchors": ["cml/mathlib/matrix/rotation.tpp: matrix_to_euler"]}
{"id": "C23", "title": "Euler derivative matrices", "statement": "For the even non-repeating orders (xyz, yzx, zxy) matrix_rotation_euler_derivatives(axis,...) holds, in its 3x3 block, the partial derivative of matrix_rotation_euler with respect to the selected angle; for the odd orders (xzy, yxz, zyx) it holds the negated partial derivative, so the documented claim that it is the derivative fails there, and in larger matrices 1 is left on the rest of the diagonal.  Repeating orders are rejected.", "quantifier": "all angles, all six non-repeating orders, all three axes", "why_tests_cant": "derivatives are limits over a continuum", "anchors": ["cml/mathlib/matrix/rotation.tpp: matrix_rotation_euler_derivatives"]}
{"id": "C24", "title": "Determinant of small matrices", "statement": "determinant(M) of a 2x2, 3x3 or 4x4 matrix equals the Leibniz determinant, so det(A*B)=det(A)det(B), det(transpose(A))=det(A), det(identity)=1.", "quantifier": "all entries in any commutative ring", "why_tests_cant": "polynomial identities over infinitely many entries", "anchors": ["cml/matrix/determinant.tpp"]}
{"id": "C25", "title": "Determinant of n x n matrices", "statement": "determinant(M) of a square matrix of run-time or larger compile-time size is the Leibniz determinant or 0; it is the Leibniz determinant for every matrix whose (positive) diagonal dominates its columns by at least epsilon. The documented claim that it is the determinant of every square matrix is false: the pivot search compares a signed element, so diag(-1,1,1,1,1) has determinant 0 for every epsilon.", "quantifier": "all n, all entries of any ordered field", "why_tests_cant": "n and entries are unbounded; the failing matrices form a thin set", "anchors": ["cml/matrix/determinant.tpp", "cml/matrix/detail/lu.tpp: lu_pivot_inplace"]}
{"id": "C26", "title": "Inverse of small matrices", "statement": "inverse(M) of a 2x2, 3x3 or 4x4 matrix with nonzero determinant is a two-sided inverse.", "quantifier": "all invertible matrices over any field", "why_tests_cant": "infinitely many entries", "anchors": ["cml/matrix/detail/inverse.h: 2x2, 3x3, 4x4"]}
{"id": "C27", "title": "Inverse of n x n matrices", "statement": "inverse(M) of an n x n matrix (n>4 or run-time size) whose diagonal dominates its rows by more than 1, or which is symmetric with x*M*x >= e*x*x for some e > 1, is a two-sided inverse. Whenever every step chooses a non-zero element from a row and column not used before, M*inverse(M) is the matrix of p*p, where p is the product of the row exchanges made, so the result is the inverse exactly when p*p is the identity; over an ordered field an invertible M can only fail that condition by choosing element (0,0) a second time. The documented claim for every invertible matrix is false: inverse(0.5*I) and the inverse of a cyclic 5x5 permutation matrix are not inverses.", "quantifier": "all n, all invertible matrices", "why_tests_cant": "n and entries are unbounded; failing cases depend on pivot history", "anchors": ["cml/matrix/detail/inverse.h: inverse_pivot"]}
{"id": "C28", "title": "LU decomposition without pivoting", "statement": "lu(M) returns a new matrix of the size and basis of M whose unit lower and upper parts multiply to M whenever no zero pivot is met; no zero pivot is met exactly when no leading principal minor of M is zero.", "quantifier": "all n, all matrices over any field", "why_tests_cant": "unbounded n", "anchors": ["cml/matrix/detail/lu.tpp: lu_inplace", "cml/matrix/lu.tpp"]}
{"id": "C29", "title": "Pivoted LU decomposition", "statement": "lu_pivot(M) returns (LU,order,sign) where, whenever sign is nonzero, order is a permutation of the rows, sign is its parity, L*U is M with rows permuted by order, and the determinant is sign times the product of the diagonal of LU; the decomposition of a column-dominant matrix exists and exchanges nothing. The documented claim that sign is 0 exactly for singular matrices is false in both directions.", "quantifier": "all n, all matrices over any ordered field", "why_tests_cant": "unbounded n, data-dependent pivots", "anchors": ["cml/matrix/detail/lu.tpp: lu_pivot_inplace", "cml/matrix/lu.tpp"]}
{"id": "C30", "title": "lu_solve solves", "statement": "lu_solve(lu(M),b) and the pivoted form return x with M*x=b, for every right-hand side and every previous value of the result vector, when M has nonzero leading minors, respectively is nonsingular with a nonzero returned sign; wrong sizes and a zero sign are refused with an exception.", "quantifier": "all n, all nonsingular M, all b", "why_tests_cant": "unbounded n", "anchors": ["cml/matrix/lu.tpp: lu_solve"]}
{"id": "C31", "title": "Vector products", "statement": "dot is symmetric and bilinear, cross is antisymmetric, orthogonal to both operands and satisfies Lagrange's identity; triple_product is cyclic and equals the 3x3 determinant; perp_dot equals the 2x2 determinant; outer(u,v)*w = dot(v,w)*u; length_squared = dot(v,v).", "quantifier": "all vectors over any commutative ring (any length where applicable)", "why_tests_cant": "infinitely many values and lengths", "anchors": ["cml/vector/dot.tpp", "cml/vector/cross_node.tpp", "cml/vector/triple_product.tpp", "cml/vector/perp_dot.tpp", "cml/vector/outer_product_node.tpp"]}
{"id": "C32", "title": "normalize", "statement": "normalize of a vector or quaternion with nonzero length has length 1 and is a positive multiple of the argument; it is idempotent.", "quantifier": "all lengths, all nonzero real vectors/quaternions", "why_tests_cant": "continuum, unbounded dimension", "anchors": ["cml/vector/writable_vector.tpp: normalize", "cml/vector/readable_vector.tpp: length, normalize", "cml/quaternion/writable_quaternion.tpp: normalize"]}
{"id": "C33", "title": "Projections", "statement": "v = project_to_vector(v,n) + project_to_hplane(v,n) for unit n, the first is parallel to n, the second orthogonal to n, both are idempotent; perp(v) is orthogonal to v with the same length.", "quantifier": "all real vectors of any dimension", "why_tests_cant": "continuum", "anchors": ["cml/mathlib/vector/misc.tpp"]}
{"id": "C34", "title": "Angles between vectors", "statement": "unsigned_angle is in [0,pi], symmetric and its cosine is dot/(|a||b|); signed_angle_2D(a,b) in (-pi,pi], rotating a by it gives the direction of b, and it is antisymmetric off the half turn; signed_angle has the sign of dot(cross(a,b),reference).", "quantifier": "all nonzero real vectors", "why_tests_cant": "continuum with branch cuts", "anchors": ["cml/mathlib/vector/angle.tpp"]}
{"id": "C35", "title": "Orthonormal bases", "statement": "orthonormal_basis(v,ref,...) returns three unit, mutually orthogonal vectors forming a right-handed frame with the first listed axis parallel to v, for each axis order; the 2D versions return an orthonormal pair.", "quantifier": "all independent real vector pairs, all axis orders", "why_tests_cant": "continuum", "anchors": ["cml/mathlib/vector/orthonormal.tpp", "cml/mathlib/axis_order.h"]}
{"id": "C36", "title": "Rigid-transform inverse", "statement": "invert_RT_only(M) of an affine matrix whose linear part is orthogonal is the two-sided inverse of M, in 2D, 3D and general n, for both basis orientations.", "quantifier": "all orthogonal linear parts, all translations, all n", "why_tests_cant": "continuum and unbounded n", "anchors": ["cml/mathlib/matrix/invert.tpp"]}
{"id": "C37", "title": "Transform application composes", "statement": "transform_point/transform_vector/transform_point_4D with matrix_concat(m1,m2) equals applying m1 then m2, for row and column basis alike; translation moves points and not vectors.", "quantifier": "all affine matrices, all points, both basis orientations", "why_tests_cant": "continuum", "anchors": ["cml/mathlib/vector/transform.tpp", "cml/mathlib/matrix/concat.tpp"]}
{"id": "C38", "title": "Projection matrices map the view volume to the clip volume", "statement": "A point lies in the view volume described by the arguments of matrix_orthographic (a box) or matrix_perspective (a truncated pyramid) exactly if its clip coordinates lie in the clip volume (z in [-1,1] or [0,1]); corners map to corners and depth is strictly increasing between the near and far planes; width/height and field-of-view forms and the _LH/_RH forms build the same matrices.", "quantifier": "all non-degenerate bounds, all points, both handedness, both z-clip types, both basis orientations", "why_tests_cant": "six continuous parameters", "anchors": ["cml/mathlib/matrix/projection.tpp"]}
{"id": "C39", "title": "Frustum extraction", "statement": "The six planes extracted from a modelview-projection matrix bound exactly the points whose clip coordinates satisfy the clip inequalities, in the documented order left, right, bottom, top, near, far; planes from separate modelview and projection matrices bound the points whose transformed images do; normalised planes are positive multiples with unit normals and bound the same set; planes of a perspective or orthographic matrix bound its view volume.", "quantifier": "all matrices, all points, both z-clip types", "why_tests_cant": "continuum", "anchors": ["cml/mathlib/frustum.tpp"]}
{"id": "C40", "title": "Look-at", "statement": "The matrix_look_at transform maps the eye position to the origin, the target onto the positive (LH) or negative (RH) z axis at its distance, and its linear part is a rotation.", "quantifier": "all eye/target/up in general position, both handedness and basis orientations", "why_tests_cant": "continuum", "anchors": ["cml/mathlib/matrix/transform.tpp: matrix_look_at"]}
{"id": "C41", "title": "Coordinate conversion round trips", "statement": "cartesian_to_{polar,cylindrical,spherical} followed by the inverse conversion gives back the vector outside the tolerance band, and within it a vector at most twice the tolerance away, for every axis order and both spherical types; the opposite round trip gives back the coordinates; theta lies in (-pi,pi] and phi in [0,pi] (colatitude) or [-pi/2,pi/2] (latitude). The documented 'phi is 0 on the base plane' does not hold for colatitude.", "quantifier": "all real vectors, all axis orders, both types", "why_tests_cant": "continuum with singular axes", "anchors": ["cml/mathlib/coordinate_conversion.tpp"]}
{"id": "C42", "title": "Scalar utilities", "statement": "clamp returns the nearest value of [min,max], wrap returns a value of [min,max) congruent to the input modulo the period, in_range tests membership, map_range maps end points to end points, sign, index_of_max/min (2-4 arguments, plain and abs) return the index of an extremum, next/prev are mutually inverse cyclic steps, cyclic_permutation lists a cyclic rotation starting at the given index, sqr/cub/inv_sqrt/length are the powers and roots they name.", "quantifier": "all values / all N", "why_tests_cant": "continuum or unbounded N", "anchors": ["cml/scalar/functions.h"]}
{"id": "C43", "title": "Axis and Euler order packing", "statement": "pack/unpack of axis orders are mutually inverse, swapping twice is the identity, unpacked Euler and axis orders are permutations of {0,1,2} with the parity the odd flag says.", "quantifier": "all orders", "why_tests_cant": "finite but the composition laws must hold for every combination, with negative/odd flags", "anchors": ["cml/mathlib/axis_order.h", "cml/mathlib/euler_order.h"]}
{"id": "C44", "title": "Row, column and basis accessors", "statement": "set_row/set_col/set_basis_element/set_basis_vector change exactly the addressed elements; reading them back through row/col/basis views returns what was stored; basis accessors of a row-basis matrix and of the transposed column-basis matrix agree.", "quantifier": "all shapes, indices, layouts, both basis orientations", "why_tests_cant": "frame conditions over unbounded shapes", "anchors": ["cml/matrix/writable_matrix.tpp", "cml/matrix/row_node.tpp", "cml/matrix/col_node.tpp", "cml/matrix/basis_node.tpp", "cml/mathlib/matrix/basis.tpp"]}
{"id": "C45", "title": "Trace", "statement": "trace is linear, invariant under transpose, and trace(A*B)=trace(B*A); trace_2x2 and trace_3x3 sum the diagonal of the upper-left block, reject smaller matrices, and do not depend on the basis orientation.", "quantifier": "all n>=1, all entries of a commutative ring", "why_tests_cant": "unbounded n", "anchors": ["cml/matrix/readable_matrix.tpp: trace", "cml/matrix/trace.tpp"]}
{"id": "C46", "title": "Random unit vectors", "statement": "random_unit(v) returns a unit vector, a positive multiple of the first non-zero draw. random_unit(v,n,a) returns a unit vector within angle a of the axis n for every value of the random source that is not parallel to n, every direction of the cone other than its axis is the result of some draw, and a outside (0,pi/2] throws. In one dimension (where every draw is parallel to n) the result is NaN, and with v as its own axis the result can leave the cone in two dimensions and is NaN in every element otherwise.", "quantifier": "all random draws, all axes, all angles, any dimension", "why_tests_cant": "every draw of the generator", "anchors": ["cml/mathlib/random_unit.tpp"]}
{"id": "C47", "title": "Quaternion exp and log", "statement": "exp(log(q)) = q and exp of a pure quaternion theta*u (u unit) is cos(theta)+sin(theta)u, and log(exp(q)) = q when the angle is in (0,pi), for all quaternions with a non-zero imaginary part; for real quaternions both functions divide 0 by 0 and produce NaN imaginary parts.", "quantifier": "all quaternions", "why_tests_cant": "continuum with a singular set", "anchors": ["cml/quaternion/writable_quaternion.tpp: exp, log"]}
{"id": "C48", "title": "Construction from parts", "statement": "Assigning or constructing a vector from a sub-vector plus trailing scalars, from an array, pointer or initializer list stores the elements in order, with dynamic targets taking exactly the combined size and fixed ones rejecting any other size.", "quantifier": "all part counts and lengths", "why_tests_cant": "argument-list lengths are unbounded", "anchors": ["cml/vector/writable_vector.tpp: assign, assign_elements", "cml/vector/detail/combined_size_of.h"]}
{"id": "C49", "title": "minimize, maximize, zero, cardinal, fill", "statement": "These set every element to the elementwise minimum/maximum, 0, the unit vector, or the value, with the documented size errors and no other effect.", "quantifier": "all lengths, all values of a totally ordered type", "why_tests_cant": "unbounded lengths", "anchors": ["cml/vector/writable_vector.tpp"]}
{"id": "C50", "title": "Type promotion is symmetric", "statement": "The size, storage, basis and layout tags chosen for the temporary of a binary expression do not depend on operand order; size tags and storages do not depend on how a nested sum is grouped either (basis and layout tags do: row, col, col); the storage chosen for sums, matrix and matrix-vector products, rows and columns can hold the run-time result, as it can for outer products whose sizes are both fixed or both dynamic (a fixed-by-dynamic outer product selects a compiled matrix of negative size).", "quantifier": "all tag combinations, all compile-time sizes", "why_tests_cant": "every combination of tags and unbounded sizes", "anchors": ["cml/common/promotion.h", "cml/storage/promotion.h", "cml/vector/promotion.h", "cml/matrix/promotion.h"]}
{"id": "C51", "title": "External vectors and matrices write through", "statement": "Writes through an external (wrapping) vector change exactly the wrapped memory cells; assignment between external vectors over disjoint memory copies the values; with overlapping windows the result is that of a forward element-by-element copy. Copy construction of a wrapping vector shares the wrapped memory and copies no element; moving one transfers the view, writes no element and leaves the source empty (a fixed-size source keeps its size but refers to no memory); constructing with a negative size throws; move-assigning a dynamic wrapping vector to itself, which should keep it unchanged, empties it.", "quantifier": "all memories, windows, offsets and sizes", "why_tests_cant": "memory contents and overlaps are unbounded", "anchors": ["cml/vector/dynamic_external.tpp", "cml/vector/fixed_external.tpp"]}
{"id": "C52", "title": "Affine helpers", "statement": "matrix_set_translation/get, matrix_translation, matrix_scale, matrix_linear_transform/affine_transform place their arguments so that transform_point yields A*p+t for both basis orientations; basis vectors are the images of the cardinal axes; inverse scales undo scales; skew_symmetric(v)*w = cross(v,w); wrong sizes and axis indices throw. matrix_linear_transform(m,m) of a matrix with itself does not keep its linear part: m becomes the identity.", "quantifier": "all arguments, both basis orientations", "why_tests_cant": "continuum", "anchors": ["cml/mathlib/matrix/translation.tpp", "cml/mathlib/matrix/scale.tpp", "cml/mathlib/matrix/transform.tpp", "cml/mathlib/matrix/misc.tpp"]}
{"id": "C53", "title": "Temporaries as operands", "statement": "Building an expression from temporaries gives the same value as building it from named vectors holding the same elements. True of +, -, and scalar products; false of cross(): with a dynamic-size temporary as operand it throws vector_size_error although both operands have three elements.", "quantifier": "all operands, named or temporary, of all storage kinds", "why_tests_cant": "whether an operand is still intact depends on the combination of value categories and storage of both operands", "anchors": ["cml/vector/cross_node.tpp: vector_cross_node::vector_cross_node", "cml/vector/binary_node.tpp: vector_binary_node::vector_binary_node", "cml/vector/dynamic_allocated.tpp"]}
{"id": "C54", "title": "Alignment rotations", "statement": "matrix_rotation_align / matrix_rotation_aim_at (and the quaternion versions) build a rotation taking the first axis of the order to the direction to align with, the third axis to a direction orthogonal to the reference, and the second axis as close to the reference as the first allows, for every axis order; the 2D version is a plane rotation taking its first axis to the direction; a too small matrix throws.", "quantifier": "all non-parallel align/reference vectors, all six axis orders, both basis orientations, both quaternion orders", "why_tests_cant": "continuum of directions for six axis orders", "anchors": ["cml/mathlib/matrix/rotation.tpp: matrix_rotation_align, matrix_rotation_aim_at", "cml/mathlib/quaternion/rotation.tpp: quaternion_rotation_align, quaternion_rotation_aim_at", "cml/mathlib/vector/orthonormal.tpp"]}
{"id": "C55", "title": "Dynamic matrices never corrupt or leak memory", "statement": "In any sequence of calls on dynamic matrices (construction, copy, move, assignment from expressions, compound assignment, products, in-place transpose, resize, element access, destruction), with any allocation failing, no call touches memory outside live allocations, every matrix owns one allocation of exactly rows*cols elements, a call that throws leaves every matrix unchanged, and once all matrices are destroyed every block is freed. Two exceptions: matrix(rows, cols, elements...) given the wrong number of elements throws and loses the block it allocated, and m = transpose(m) of a tall row-major (wide column-major) matrix reads past its allocation.", "quantifier": "all histories of calls, sizes, layouts, expressions and allocation failures", "why_tests_cant": "histories and failure points are unbounded", "anchors": ["cml/matrix/dynamic_allocated.tpp", "cml/matrix/dynamic_allocated.h", "cml/matrix/writable_matrix.tpp", "cml/matrix/detail/check_or_resize.h", "cml/matrix/detail/transpose.h", "cml/matrix/matrix_product.tpp"]}
{"id": "C56", "title": "Every matrix operation stores its mathematical value and touches nothing else", "statement": "After an assignment, compound assignment, scaling, fill, list assignment, construction, in-place transpose, product or move of dynamic matrices, the target has exactly the size and elements of the mathematical result (the target may itself be an operand, outside transpose()), its layout is unchanged, every other matrix in the program still exists with the same size, layout and elements, and the only other outcome is std::bad_alloc with nothing changed. Size mismatches throw with nothing changed. A compound assignment of the right size never allocates.", "quantifier": "all memory states with any number of matrices, all expressions, layouts and sizes", "why_tests_cant": "the state of the whole heap and nested expressions are unbounded", "anchors": ["cml/matrix/writable_matrix.tpp", "cml/matrix/dynamic_allocated.tpp", "cml/matrix/detail/copy.h", "cml/matrix/detail/apply.h", "cml/matrix/detail/generate.h", "cml/matrix/matrix_product.tpp"]}
{"id": "C57", "title": "Field-of-view and zoom conversions", "statement": "For a positive aspect ratio and angles between 0 and pi, xfov_to_yfov and yfov_to_xfov are inverse to each other and give the angle under which the other side of the same image is seen; zoom_to_fov and fov_to_zoom are inverse, decreasing, and commute with the zoom conversions; building a perspective matrix from a horizontal angle equals building it from the converted vertical angle. Angles above pi do not survive the round trip.", "quantifier": "all angles, zooms, aspect ratios, projection parameters (real numbers)", "why_tests_cant": "continuous parameters", "anchors": ["cml/util.h: xfov_to_yfov, yfov_to_xfov, zoom_to_fov, fov_to_zoom, xzoom_to_yzoom, yzoom_to_xzoom", "cml/mathlib/matrix/projection.tpp: matrix_perspective_xfov, matrix_perspective_yfov"]}
{"id": "C58", "title": "Stream output determines the value", "statement": "operator<< appends exactly the elements in order separated by single blanks (vectors), one bracketed line per row (matrices), or real part then x, y, z whatever the storage order (quaternions); hence two vectors, matrices or quaternions print alike exactly when they have the same size and corresponding elements print alike (matrices without rows print nothing). Printing an empty vector reads outside it.", "quantifier": "all sizes, element types, ways of printing one element without blanks, previous stream contents", "why_tests_cant": "unbounded sizes and element types", "anchors": ["cml/util/vector_print.tpp", "cml/util/matrix_print.tpp", "cml/util/quaternion_print.tpp"]}
{"id": "C59", "title": "Generators and basis vectors in any dimension", "statement": "zero<N>() and axis<N>(i) return the zero vector and the i-th cardinal axis whatever the memory held before, for every N and every i below N (other i write outside the vector); zero<R,C>() and identity<R,C>() likewise; matrix_get_basis_vector_nD(m, i) is the i-th cardinal axis multiplied by m on the side the basis orientation prescribes, for rectangular matrices too.", "quantifier": "all dimensions, indices, matrices, element rings", "why_tests_cant": "unbounded dimensions", "anchors": ["cml/mathlib/vector/generators.h", "cml/mathlib/matrix/generators.h", "cml/mathlib/matrix/basis.tpp: matrix_get_basis_vector_nD", "cml/vector/writable_vector.tpp: cardinal"]}
{"id": "C60", "title": "Accuracy of products in floating point", "statement": "With float, double or any other IEEE binary format as the value type, dot(u,v), length_squared(v), A*B, A*v and v*A compute each entry, a sum of n products a_k*b_k, with an error of at most ((1+r)^n - 1) * sum |a_k*b_k| + n*(1+r)^n*h, where r = 2^-precision and h is half the least positive number, whenever the computed entry is finite (for n*r <= 1/2 at most 2*n*r*sum |a_k*b_k| + 2*n*h).  A finite entry comes from finite operands only, and the entry is finite whenever the operands are and (1+r)^n * sum |a_k*b_k| + n*(1+r)^n*h is below the overflow threshold.  In length_squared the error is relative, as no terms cancel.", "quantifier": "all IEEE binary formats, all lengths and matrix sizes, all elements", "why_tests_cant": "the set of floating point vectors cannot be enumerated, and a worst-case bound over all of them is not a property of any sample", "anchors": ["cml/vector/dot.tpp:dot", "cml/vector/readable_vector.tpp:length_squared", "cml/matrix/matrix_product.tpp:operator*", "cml/matrix/vector_product.tpp:operator*"]}
{"id": "C61", "title": "Identities that survive rounding", "statement": "With an IEEE binary format as the value type the following hold in every bit: dot(u,v) = dot(v,u); u+v = v+u and hadamard(u,v) = hadamard(v,u); transpose(A*B) = transpose(B)*transpose(A); A*v = v*transpose(A); (-v).length() = v.length() and normalize(-v) = -normalize(v) for any square root.  cross(v,v) is exactly zero unless it contains a NaN, and cross(w,v) has the values of -cross(v,w).  Vectors without NaN elements never have a NaN or a negative length, even on overflow.  The laws that need exact arithmetic fail: a dot product of doubles depends on the order of the elements, and (A*B)*C differs from A*(B*C).", "quantifier": "all IEEE binary formats, all lengths and matrix sizes, all elements including infinities and NaN", "why_tests_cant": "equality in every bit for every pair of operands is not implied by any number of samples", "anchors": ["cml/vector/dot.tpp:dot", "cml/vector/cross_node.tpp:cross", "cml/matrix/vector_product.tpp:operator*", "cml/matrix/matrix_product.tpp:operator*", "cml/vector/writable_vector.tpp:normalize", "cml/vector/readable_vector.tpp:length"]}
{"id": "C62", "title": "Normalisation in floating point", "statement": "With an IEEE binary format as the value type and a correctly rounded square root: when length_squared(v) is finite, the exact squared length is at least 2^(3-emax) and n*r <= 1/64 (n elements, r = 2^-precision), length() is finite with relative error at most 4(n+1)r, every element of normalize(v) is finite and differs from v_i/|v| by at most 4(n+1)r relative plus half the least positive number, and the squared length of the result differs from 1 by at most 12(n+1)r plus an underflow term.  Outside that range it fails: if every square rounds to zero, length() is 0 and normalize() yields infinities where v_i is non-zero and NaN where it is zero; if one square overflows, length() is infinite and normalize() yields the zero vector.  So 'normalize makes a non-zero vector a unit vector' is refuted for finite doubles at both ends.", "quantifier": "all IEEE binary formats, all vectors of all lengths", "why_tests_cant": "the error bound is a worst case over all vectors, and the failures sit at the ends of the exponent range", "anchors": ["cml/vector/writable_vector.tpp:normalize", "cml/vector/readable_vector.tpp:length", "cml/vector/readable_vector.tpp:length_squared", "cml/scalar/traits.h:sqrt"]}
{"id": "C63", "title": "Scalar helpers on floating point values", "statement": "clamp(v,min,max) lies in [min,max] for every v that is not NaN (infinities included), returns v itself when v is inside, and passes NaN through; acos_safe and asin_safe call acos and asin with an argument in [-1,1]; sqrt_safe of a number is never NaN; in_range is exact on numbers but true for NaN; wrap(v,min,max) is at least min and at most the rounded value of min + (max - min), is exact for min = 0 and v >= 0, but can exceed max by rounding, so the documented range [min,max] is refuted; map_range sends min1 exactly to min2 but need not send max1 to max2; index_of_max/min and their _abs forms choose an extreme argument on finite values and may not when an argument is NaN.", "quantifier": "all IEEE binary formats, all arguments including infinities and NaN", "why_tests_cant": "the statements quantify over all floating point values, and the failures need particular roundings", "anchors": ["cml/scalar/functions.h:clamp", "cml/scalar/functions.h:wrap", "cml/scalar/functions.h:in_range", "cml/scalar/functions.h:map_range", "cml/scalar/functions.h:acos_safe", "cml/scalar/functions.h:sqrt_safe", "cml/scalar/functions.h:index_of_max"]}
{"id": "C64", "title": "LU decomposition and solve in floating point", "statement": "In IEEE arithmetic of any precision with unit roundoff u and half-least-subnormal eta, whenever the computed factors of lu(A) are all finite, the unit lower factor L and the upper factor U read from the result multiply to A with an entrywise error of at most ((1+u)^N - 1) |L||U| plus N+|U_jj| underflow terms; the same holds for lu_pivot with the rows of A taken in the returned order, which is a permutation. If lu_solve or lu_pivot_solve then returns a finite x, every pivot is non-zero and every row of b - A x is at most (G-1)(G+2) |L||U||x| plus underflow terms, G = (1+u)^(N+1), hence at most 8(N+1)u |L||U||x| when (N+1)u <= 1/2. The guarantee expected of partial pivoting, a residual of a few units of roundoff times |A||x|, is refuted: for a 2x2 matrix of entries at most 2 and a solution of magnitude at most 1 the residual is 2^43 u, because the pivot search compares magnitudes with the signed diagonal entry.", "quantifier": "every precision and exponent range, every square size N, every matrix and right-hand side of floating point values, every pivot threshold", "why_tests_cant": "the error depends on all N*N entries and on every rounding; tests compare a few well-conditioned solves against a fixed tolerance", "anchors": ["cml/matrix/lu.h: lu, lu_pivot, lu_solve, lu_pivot_solve", "cml/matrix/lu.tpp", "cml/matrix/detail/lu.tpp: lu_inplace, lu_pivot_inplace"]}
{"id": "C65", "title": "Closed formulas in floating point", "statement": "In IEEE arithmetic of any precision with unit roundoff u, every finite result of a closed formula is the exact value up to ((1+u)^c - 1) times the sum of the absolute values of its monomials, plus underflow terms: perp_dot and each component of cross (c = 2), triple_product (c = 5), determinant of 2x2, 3x3 and 4x4 matrices (c = 2, 5, 9, against the permanent of the absolute values), transform_vector and transform_point (c = 3, 4), every part of a quaternion product (c = 4) in both storage orders and both cross conventions, and every entry of matrix_rotation_quaternion (c = 4). A quaternion product of finite quaternions whose sums of absolute values stay below the overflow threshold is finite.", "quantifier": "every precision and exponent range, all finite or non-finite arguments with a finite result", "why_tests_cant": "the error bound must hold for all values of up to sixteen floating point arguments", "anchors": ["cml/vector/perp_dot.tpp: perp_dot", "cml/vector/cross_node.tpp", "cml/vector/triple_product.tpp: triple_product", "cml/matrix/detail/determinant.tpp: determinant", "cml/mathlib/vector/transform.tpp: transform_point", "cml/quaternion/product.tpp: operator*", "cml/mathlib/matrix/rotation.tpp: matrix_rotation_quaternion"]}
{"id": "C66", "title": "Accumulated rotations drift by a bounded amount per step", "statement": "Multiplying a quaternion in place (operator*=) by any sequence of n quaternions of length at most 1 + delta keeps it finite (while the bound stays below the overflow threshold) and leaves it within ((1+delta)(1+2((1+u)^4-1)))^n (L + n t) - (1+delta)^n L of the exact product, L the initial length and t = 8(1+u)^4 eta. For factors and start of length at most one and (8n+4)u <= 1/2 the distance is at most 16 n u plus underflow.", "quantifier": "every sequence of factors of every length n, every precision, both storage orders and cross conventions", "why_tests_cant": "drift is a property of arbitrarily long histories of updates", "anchors": ["cml/quaternion/writable_quaternion.tpp: operator*=", "cml/quaternion/product.tpp: operator*"]}
{"id": "C67", "title": "Integer elements: exact, modular or overflow", "statement": "For integer element types, the dot product, elementwise sums, differences, products and scalings, matrix products, matrix-vector products, cross and triple products, determinants up to 4x4 and quaternion products return a value of the type that is congruent to the exact integer result modulo 2^bits; for int and wider signed types a returned value is the exact result itself. For unsigned types at least as wide as int (and, in dot and elementwise operations, for unsigned char, signed char and short) every call is defined. For int and wider no step overflows when the sum of the absolute values of the products fits the type (for a determinant: when n! B^n fits, with B >= 1 a bound of the elements). For int and wider signed types division truncates and is undefined exactly for a zero divisor or for the smallest value divided by -1. Refuted: a dot product whose value fits the type never overflows; unsigned element types never overflow (unsigned short products are int products).", "quantifier": "all integer types of 8 or more bits, all vectors, matrices and quaternions with elements in range, all sizes", "why_tests_cant": "overflow depends on all the elements together and on the order of the additions; undefined behaviour usually passes tests", "anchors": ["cml/vector/dot.tpp: dot", "cml/scalar/binary_ops.h: binary_plus, binary_multiply, binary_divide", "cml/scalar/promotion.h: scalar_promote", "cml/matrix/matrix_product.tpp: operator*", "cml/matrix/vector_product.tpp: operator*", "cml/vector/cross_node.tpp: cross_node", "cml/vector/triple_product.tpp: triple_product", "cml/matrix/detail/determinant.tpp: determinant", "cml/quaternion/product.tpp: operator*"]}
{"id": "C68", "title": "Integer elements: algebraic laws", "statement": "Integer types that never overflow (unsigned int and wider) form a commutative ring under the operations the library uses, so every algebraic law stated for rings (associativity, distributivity, transposition and identity of matrix products, dot and cross product laws, quaternion algebra, composition of transforms) holds for them in every bit. For every integer type at least as wide as int, the two ways to multiply three matrices return equal elements wherever both are defined, and for unsigned types they are always defined and equal. Refuted: for int, scaling by two factors one after the other and scaling by their product are both defined or both undefined.", "quantifier": "all integer types of 8 or more bits, all matrices of any sizes with elements in range", "why_tests_cant": "modular identities and overflow must be settled for all combinations of elements", "anchors": ["cml/matrix/matrix_product.tpp: operator*", "cml/scalar/binary_ops.h: binary_multiply", "cml/vector/scalar_node.tpp: vector_scalar_node"]}
{"id": "C69", "title": "External matrices are views of memory they do not own", "statement": "An external matrix built on a pointer is the rows x cols elements found there by its layout (from a C array, m(i,j) is array[i][j] with row-major layout and array[j][i] with column-major layout); negative sizes throw std::invalid_argument. Writing m(i,j) changes that memory cell only and is seen by every other external matrix that has an element at that address, and by no other element; the same memory with the other layout and exchanged sizes is the transpose. resize() keeps memory and storage order and throws matrix_size_error, changing nothing, when the number of elements differs; reset() and moves only change which memory the objects point to, and a moved-from matrix has no elements (self-move too). Assignment of any expression whose operands are elsewhere in memory, or are exactly the target's own memory untransposed, stores the value of the expression in the target's memory and leaves all other memory and all other objects alone; sizes that do not fit throw and change nothing; copy assignment copies elements and never rebinds the pointer. The plausible claims that copying between overlapping views, m = transpose(m), and += of another shape with as many elements are safe or rejected are refuted.", "quantifier": "all memory contents, addresses, offsets, sizes, layouts, any number of views of the same memory, all element expressions, all indices", "why_tests_cant": "A test has one or two views of one small array; aliasing effects depend on how every pair of views overlaps, on layout and on the order of the element loop, for arbitrary sizes and expressions.", "anchors": ["cml/matrix/dynamic_external.h", "cml/matrix/dynamic_external.tpp", "cml/matrix/fixed_external.h", "cml/matrix/fixed_external.tpp", "cml/matrix/writable_matrix.tpp:writable_matrix::assign", "cml/matrix/detail/check_or_resize.h:check_or_resize", "cml/matrix/size_checking.tpp:check_linear_size"]}
{"id": "C70", "title": "Threads that share no writable vector do not interfere", "statement": "Any number of threads run programs made of vector operations (construction from a size, list, expression or by move, assignment of expressions, compound assignment, fill, set, minimize/maximize, resize, move assignment, destruction, with exceptions from failed allocations), and the single memory accesses of these operations are interleaved in any order. If no vector that some thread may write (by a non-const reference), and no memory of such a vector, can be reached by another thread or under a second name, then for every order: no access is undefined if no thread's is when it runs alone; no two threads are ever about to touch the same location with one of them writing; every thread ends after as many turns as it needs alone, with the result, the exception and the contents of its vectors that it has alone (vectors read by several threads through const references included), so two orders cannot be told apart; vectors nobody may write keep their contents. A thread alone has exactly the outcome of the sequential operations of the container model. The condition is needed: two writers of one vector can lose an update, and reading a vector that another thread resizes can be undefined (the claims that these are safe are refuted).", "quantifier": "all numbers of threads, all programs, all interleavings of their accesses, all sizes, expressions, memory states and allocation failures", "why_tests_cant": "A stress test runs a few of astronomically many interleavings; races show on some machines and loads only.", "anchors": ["cml/vector/writable_vector.tpp:writable_vector::assign", "cml/vector/dynamic_allocated.tpp:vector::resize", "cml/vector/dynamic_allocated.tpp:vector::destruct", "cml/vector/binary_node.tpp", "cml/vector/detail/check_or_resize.h"]}
{"id": "C71", "title": "Mixed element types", "statement": "Operands of different element types (integers, float, double) are combined in their common type, which does not depend on order or grouping and holds all values of both, except negative ones when an unsigned type is at least as wide as the signed one. float to double and back changes no bit; integers of at most 53 bits survive double; conversions to a floating point type give a nearest number; conversions to an integer drop the fraction and are undefined exactly when the result is out of range. With a floating point operand an operation rounds the exact result once, in the wider type. One operation of a float vector with a double scalar or double vector whose values are floats, stored in a float vector (v = v*s, v *= s, v += w, ...), is the float operation in every bit; the claims that this holds for two operations, or for any double constant, are refuted. dot() of floats is accumulated in float, of a float and a double vector in double, and with float values in the double vector only the additions round. int with unsigned is computed modulo 2^32 (the claim that a sum that fits int is right is refuted). An integer vector scaled by a double holds the truncated rounded products; a quotient of integers assigned to doubles has lost its fraction. length() of an int vector is the root of the sum of squares rounded down while no sum overflows and it is below 2^52; for 64 bits this is refuted, as is exactness of fabs; normalize() of an integer vector need not be a unit vector (refuted).", "quantifier": "all element values including infinities, NaN and signed zeros, all integer types of 8 or more bits, all vectors of any length, all four operations", "why_tests_cant": "Rounding, truncation and wrap-around depend on every bit of the operands; tests cover a few values.", "anchors": ["cml/scalar/binary_ops.h:binary_plus", "cml/scalar/promotion.h:value_type_trait_promote", "cml/scalar/unary_ops.h:unary_minus", "cml/scalar/traits.h:default_integral_traits", "cml/vector/writable_vector.tpp:operator*=", "cml/vector/scalar_node.tpp", "cml/vector/dot.tpp:dot"]}
{"id": "C72", "title": "Random fills and random scalars", "statement": "v.random(low, high) sets element k to the k-th of consecutive values of one distribution object over [low, high] seeded by one call of std::rand(), so all elements are within the bounds whenever the distribution respects them, the size is unchanged, and after std::srand() a sequence of fills gives the same vectors whatever they held; a shorter vector gets a prefix of what a longer one would. low and high may be references to elements of the vector. m.random(low, high) draws in storage order: a row-major matrix and the column-major matrix of the transposed size get transposed values from one seed; low and high may be its own elements. An invalid range is undefined. random_integer and random_real give the value a vector would get first. random_binary() is 0 or 1 and random_polar() is -1 or 1, 1 exactly where random_binary() is 1.", "quantifier": "all sizes, layouts, element types, old contents, seeds, engines and distributions; bounds given as values or as elements of the container itself", "why_tests_cant": "Aliased bounds, all sizes and every engine state; tests draw a few vectors and look at ranges.", "anchors": ["cml/vector/writable_vector.tpp:random", "cml/matrix/writable_matrix.tpp:random", "cml/matrix/detail/generate.h:generate", "cml/scalar/functions.h:random_integer", "cml/scalar/functions.h:random_polar", "cml/scalar/functions.h:random_real"]}
{"id": "C73", "title": "Compile-time lookup of types", "statement": "A lookup in a type_map returns the partner of the first entry with the wanted type, and reports failure exactly if no entry has it. If no type is repeated on either side, lookups by first and by second type are inverse to each other and the order of the entries is irrelevant; the claim that every type_map is bijective is refuted for repeated types, and so is the comment that the first type of the entry is returned. A lookup in a type_table does not depend on the order of the two types, is decided by the first entry for the unordered pair, and does not depend on the order of consistent entries. The table of storage promotion has exactly one entry for every pair of storage selectors, so its static assertions never fail.", "quantifier": "all lists of entries of any length, all types", "why_tests_cant": "The templates are instantiated for the few lists the library uses; the claims are about every list.", "anchors": ["cml/common/mpl/type_map.h:type_map", "cml/common/mpl/type_table.h:type_table", "cml/common/mpl/is_same_pair.h:is_same_pair", "cml/common/mpl/are_same.h:are_same", "cml/storage/promotion.h:storage_promote"]}
{"id": "C74", "title": "Projection matrices and quaternion inverses in floating point", "statement": "With IEEE arithmetic, matrix_orthographic and matrix_perspective (from four sides, or from width and height) succeed and every entry that depends on the view volume is within 5 half units in the last place, relatively, of the textbook entry for the given floats; every other entry is exact, and the centring entries of the symmetric forms are exactly zero. The same holds for the field-of-view forms relative to the tangent the math library returned. This needs the differences, sums and planes to be zero or of moderate magnitude: for large planes the intermediate product 2*far*near overflows although the entry is representable (refuted in general). The norm of a quaternion is within 5, each component of q.inverse() within 6 and of the expression inverse(q) within 7 half units, relatively; the two forms of the inverse are not always the same floats (refuted).", "quantifier": "all binary formats with precision at least 5 (6 for the expression), all finite inputs in the stated range, both handednesses and clip ranges, all matrix sizes and layouts, both quaternion orders", "why_tests_cant": "Rounding of every combination of inputs; tests compare a few matrices with a tolerance.", "anchors": ["cml/mathlib/matrix/projection.tpp:matrix_orthographic", "cml/mathlib/matrix/projection.tpp:matrix_perspective", "cml/mathlib/matrix/projection.tpp:matrix_perspective_xfov", "cml/quaternion/writable_quaternion.tpp:inverse", "cml/quaternion/inverse_node.tpp:inverse_node"]}
{"id": "C75", "title": "Building a matrix from its own elements, rows and columns", "statement": "Arguments that do not refer to the matrix being written give the result for their values. Arguments that are elements, rows, columns or basis vectors of that matrix are references, and the functions that start from the identity read them after overwriting it: matrix_translation, matrix_scale, matrix_uniform_scale, matrix_rotation_axis_angle, matrix_rotation_align, matrix_rotation_aim_at, matrix_look_at, matrix_skew_symmetric and matrix_linear_transform give a result that does not depend on what the matrix held. In particular matrix_scale by the own diagonal, matrix_translation by the own translation and matrix_linear_transform of the own transpose give the identity, a rotation about an own basis vector is one about a coordinate axis, and a look-at from the own position is one from the origin. matrix_inverse_scale, matrix_rotation_world_axis and, with normalize = true only, matrix_affine_transform use the elements as they were. set_row, set_col and matrix_set_basis_vectors from rows and columns of the matrix itself read each element as it is when its turn comes: own rows are copied into a row as they were, but exchanging two basis vectors duplicates one, and storing columns as rows mirrors the lower triangle instead of transposing. That any of these calls means the same as with copied arguments is refuted.", "quantifier": "all matrices of admissible size, both orientations, all references into the matrix and all expressions reading it, any scalar type", "why_tests_cant": "Every pattern of references into the target, for every size; tests pass separate arguments.", "anchors": ["cml/mathlib/matrix/scale.tpp:matrix_scale", "cml/mathlib/matrix/translation.tpp:matrix_translation", "cml/mathlib/matrix/rotation.tpp:matrix_rotation_axis_angle", "cml/mathlib/matrix/transform.tpp:matrix_look_at", "cml/mathlib/matrix/transform.tpp:matrix_affine_transform", "cml/mathlib/matrix/basis.tpp:matrix_set_basis_vectors", "cml/matrix/writable_matrix.tpp:set_row", "cml/scalar/traits.h:immutable_value"]}
{"id": "C76", "title": "What a rejected call leaves in the matrix", "statement": "The functions that set one basis vector, the translation, a scale, a skew-symmetric matrix, a 2D, world-axis or axis-angle rotation or a linear transform, and matrix_invert_RT_only, throw before they write: the matrix is what it was. matrix_translation, matrix_rotation_align, matrix_rotation_aim_at (once target - pos is formed), matrix_look_at (on a matrix that is large enough) and matrix_rotation_euler_derivatives with a repeated axis order throw after identity(): the matrix is the identity. matrix_set_basis_vectors has stored the vectors before the one it rejects, and matrix_affine_transform with a translation of the wrong size has stored its rotation or linear part. No rejected call changes the size, layout or orientation, and a builder that succeeds after a rejected call gives the result it would have given without it. That every rejected call leaves the matrix unchanged is refuted.", "quantifier": "all matrices of any run-time size, both orientations, all arguments of any size, all axis orders, any scalar type", "why_tests_cant": "Every combination of wrong sizes at every check, and the state afterwards; tests only look at the exception.", "anchors": ["cml/mathlib/matrix/translation.tpp:matrix_translation", "cml/mathlib/matrix/rotation.tpp:matrix_rotation_align", "cml/mathlib/matrix/rotation.tpp:matrix_rotation_euler_derivatives", "cml/mathlib/matrix/transform.tpp:matrix_look_at", "cml/mathlib/matrix/transform.tpp:matrix_affine_transform", "cml/mathlib/matrix/basis.tpp:matrix_set_basis_vectors", "cml/mathlib/matrix/invert.tpp:matrix_invert_RT_only"]}
{"id": "C77", "title": "Rotation matrices in floating point stay nearly orthogonal and keep lengths", "statement": "In IEEE arithmetic with at least eight bits of precision and rounding unit u: the matrix built from a quaternion whose squared length is within d <= 1/16 of one has finite entries, each within 13u of the exact rotation, and rows orthonormal to within 5d + 53u. The matrix built from an axis of squared length within d <= 1/64 of one, with the cosine and sine the math library returns (c^2 + s^2 within e <= 1/64 of one), has the same entry error and rows orthonormal to within 3e + 6d + 53u; after normalize() the axis contributes at most 350u in all. A matrix whose rows are orthonormal to within d keeps the length of a vector to within a factor 3d + 6u, never overflowing below half the largest number, and the distance of two points to within 3d of it plus 8u of their distance from the origin and 9u of the translation. Repeated m = m * b with factors that are orthonormal to within d is within ((1+nd)(1+k))^N (L + N t) - (1+nd)^N L of the exact product, where k is the error of one product and t its underflow part.", "quantifier": "all precisions, all finite quaternions and axes near unit length, all cosines and sines the library may return, all vectors and points, matrices of any size n and any number N of products", "why_tests_cant": "The bound must hold for every rounding of every intermediate result and for any number of products; a test sees one rotation and a tolerance chosen by hand.", "anchors": ["cml/mathlib/matrix/rotation.tpp:matrix_rotation_quaternion", "cml/mathlib/matrix/rotation.tpp:matrix_rotation_axis_angle", "cml/mathlib/vector/transform.tpp:transform_vector", "cml/mathlib/vector/transform.tpp:transform_point", "cml/matrix/matrix_product.tpp:operator*", "cml/vector/writable_vector.tpp:normalize"]}
{"id": "C78", "title": "An LU result object used again and again", "statement": "An lu_pivot_result object made from a matrix may be given new matrices through its member lu, decomposed in place with lu_pivot(result) and solved with, in any order and any number of times, with every refused call caught. After any such history that stayed inside memory, putting a square matrix A and decomposing in place gives exactly the factors, order and sign of lu_pivot(A), and every lu_solve that follows answers exactly what it answers with lu_pivot(A), so it solves A x = b whenever it returns and A is regular - provided A has no more rows than the matrix the object was made from. With more rows the in-place decomposition writes outside the order array (it is never resized). Two things are not detected: solving before any decomposition reads a sign that was never set, and decomposing twice, or putting a matrix without decomposing it, makes lu_solve answer for a different system without an error.", "quantifier": "all element types, all histories of put / decompose / solve calls of any length, all matrices and vectors of any size, fixed and run-time size; solutions over all ordered fields", "why_tests_cant": "The guarantee is about what is left in the object by every earlier call: stale order entries, stale sign, earlier sizes. Tests decompose one fresh object once.", "anchors": ["cml/matrix/lu.h:lu_pivot_result", "cml/matrix/lu.tpp:lu_pivot", "cml/matrix/lu.tpp:lu_solve", "cml/matrix/detail/lu.tpp:lu_pivot_inplace"]}
{"id": "C79", "title": "Threads that share no writable matrix do not interfere", "statement": "Any number of threads run programs made of operations on run-time-size matrices (construction from a size, elements, an expression or by move, assignment of expressions with transposes, compound assignment, scaling, element lists, resize and resize_fast, element reads and writes, in-place transposition with its local copy, matrix products with their local result, move assignment, destruction, with exceptions from failed allocations and size checks), and the single accesses to elements, sizes and storage are interleaved in any order. If no matrix that some thread may write, and no memory of such a matrix, can be reached by another thread or under a second name, then for every order: no access is undefined if no thread's is when it runs alone; no two threads are ever about to touch the same location with one of them writing; every thread ends after as many turns as it needs alone, with the result or exception and with matrices of the sizes, layouts and elements that it has alone, so two orders cannot be told apart; matrices nobody may write stay equal. A thread alone has exactly the outcome of the sequential matrix operations of the container model. The condition is needed: two writers of one matrix can lose an update, reading a matrix that another thread resizes can be undefined, and reading one that another thread transposes in place can give a wrong element without anything undefined (the claims that these are safe are refuted).", "quantifier": "all numbers of threads, all programs, all interleavings of their accesses, all sizes, layouts, expressions, memory states and allocation failures", "why_tests_cant": "A stress test runs a few of astronomically many interleavings; a matrix operation has separate accesses to its sizes and its storage, and only some orders show a mix of old and new.", "anchors": ["cml/matrix/writable_matrix.tpp:writable_matrix::assign", "cml/matrix/dynamic_allocated.tpp:matrix::resize", "cml/matrix/dynamic_allocated.tpp:matrix::resize_fast", "cml/matrix/dynamic_allocated.tpp:matrix::destruct", "cml/matrix/detail/transpose.h", "cml/matrix/matrix_product.tpp"]}
{"id": "C80", "title": "What setting an object from its own elements stores", "statement": "v.set(e0, e1, ...) with some arguments referring to elements of v (or of the memory an external vector refers to): the values are stored one after another, so an argument that refers to an element stored before it delivers the new contents and any other the old contents; nothing else in memory changes. The result is what the arguments were worth before the call, for all contents, exactly when every argument that refers to an element stored before it refers to one that is stored from itself; hence a permutation of the own elements is stored correctly only if it is the identity. Assignment from an initializer list (vectors, matrices, quaternions) always stores what the arguments were worth before the call. Assignment from an array that overlaps the vector takes the contents of the array unless the vector starts inside it, and then repeats the part in front. For matrices: a row-major matrix over an array may be assigned from that array (one- or two-dimensional) and does not change; a column-major square one becomes symmetric, with the lower triangle copied up for the one-dimensional array and the upper copied down for the two-dimensional one; assignment from the transposed view of the same memory does not transpose. For quaternions: set(s, v) stores the real part first in both storage orders, set(s, imaginary(q)) changes only the real part, to the value s had. The claims that these calls read their arguments first are refuted; on a resizable vector set to another number of elements, own elements are gone when they are read (undefined).", "quantifier": "all sizes, contents, positions of the window in memory, arguments by value or by reference, layouts and storage orders", "why_tests_cant": "Tests set objects from literals or other objects; the result for own elements depends on which of all possible references are used and on the order of the stores.", "anchors": ["cml/vector/writable_vector.tpp:writable_vector::set", "cml/vector/writable_vector.tpp:writable_vector::assign", "cml/matrix/writable_matrix.tpp:writable_matrix::assign", "cml/matrix/detail/copy.h", "cml/quaternion/writable_quaternion.tpp:writable_quaternion::assign"]}
{"id": "C81", "title": "Constants and angle conversions", "statement": "Every member of constants<double> and of constants<float> is the number of its type nearest to the real number it stands for (pi, 2 pi, 1/pi, 1/(2 pi), pi/2, pi/4, e, 180/pi, pi/180 and the square roots of 2, 3, 5 and 6), although it is computed from a rounded literal by one or two further roundings; pi() lies below the real number in double and above it in float. rad(theta) of a finite floating point number never overflows and has a relative error of at most two units of roundoff (plus half the least positive number); deg(theta) likewise up to 1/64 of the range; deg(rad(theta)) differs from theta by at most four roundings. Both preserve order and sign. The angles 45, 90, 180 and 360 convert exactly to the constants and back; that conversion to radians and back always returns the angle is refuted (30 degrees, in both types). With an integer type the constants are truncated, so rad is 0 for every argument, and deg multiplies by 57 with the overflow rules of the type.", "quantifier": "all constants, all finite double and float angles, all integer types of 8 to 64 bits and their values", "why_tests_cant": "The nearest-number claim compares with transcendental real numbers; the error bounds must hold for every angle.", "anchors": ["cml/scalar/constants.h:constants", "cml/scalar/functions.h:deg", "cml/scalar/functions.h:rad"]}
{"id": "C82", "title": "Inverses and determinants of integer matrices", "statement": "For elements of int or a wider integer type, every entry of the inverse of a 2x2, 3x3 or 4x4 matrix is the quotient, truncated towards zero, of the cofactor by the determinant (for unsigned types, of their values modulo 2^bits); for a signed type and elements of absolute value at most B it is defined whenever n! B^n fits the type and the determinant is not 0, and for a singular matrix every entry is a division by zero. So a result of a signed type is the inverse exactly when the determinant is 1 or -1, and one of an unsigned type is the inverse modulo 2^bits when the determinant is 1 modulo 2^bits (refuted for the other invertible matrices). For 1x1 and for 5x5 and larger matrices inversion is refuted in general: as soon as one element is not -1, 0 or 1, the result has a row without any defined non-zero entry and is no inverse. The determinant of a matrix of size 5x5 or more is the product of the diagonal for upper triangular matrices with a positive diagonal; it divides by zero when the first column is zero except for a first element that is not positive (also for invertible matrices like -I), and it can be wrong otherwise (refuted: 2 instead of 1).", "quantifier": "all integer types of 32 bits or more, all sizes, all element values of the type (for the pivoting algorithm: with absolute value up to 2^53)", "why_tests_cant": "The claims concern every matrix of every size, and overflow, truncation and modular arithmetic in all combinations.", "anchors": ["cml/matrix/writable_matrix.h:inverse", "cml/matrix/detail/inverse.h", "cml/matrix/detail/determinant.tpp:determinant", "cml/matrix/detail/lu.tpp:lu_pivot_inplace", "cml/scalar/traits.h:default_integral_traits"]}
{"id": "C83", "title": "Infinities and NaN are not hidden", "statement": "With IEEE arithmetic of any precision, a result computed from an infinity or a NaN shows it: the dot product, length and triple product are not finite (NaN) as soon as one element is; so are the two components of a cross product, the entries of a matrix product, matrix-vector product and transformed vector or point that read the element, and all four components of a quaternion product. normalize() and inverse() of vectors and quaternions keep the component and spread a NaN to all of them. The determinant shows any element for sizes 2 to 4, and for other sizes unless the pivot search stopped with sign 0. Every entry of a 2x2 to 4x4 inverse is NaN if one element is, and an infinity reaches every entry that does not belong to its row and column; other sizes keep at least one NaN. lu followed by lu_solve shows in unknown i the elements of row i and of b; the pivoted version shows a NaN, and an infinite right-hand side, in some unknown. Refuted: the determinant of a matrix of size 5 or more can be 0 although the matrix contains NaN, the inverse of size 5 or more can have finite entries although the matrix contains NaN, and infinities on the diagonal vanish from inverses and solutions.", "quantifier": "all precisions and exponent ranges, all sizes, every element position, every value of the other elements", "why_tests_cant": "A hidden NaN is a matter of one position among all positions of all sizes, with arbitrary other values; the pivoting algorithms take data-dependent paths.", "anchors": ["cml/vector/dot.tpp", "cml/vector/cross_node.tpp", "cml/vector/writable_vector.tpp:normalize", "cml/matrix/matrix_product.tpp", "cml/mathlib/matrix/transform.tpp", "cml/quaternion/product.tpp", "cml/quaternion/writable_quaternion.tpp:inverse", "cml/matrix/detail/determinant.tpp", "cml/matrix/detail/inverse.h", "cml/matrix/lu.tpp:lu_solve"]}
{"id": "C84", "title": "Inverses of small matrices in floating point", "statement": "In IEEE arithmetic, every entry of the inverse of a 2x2, 3x3 or 4x4 matrix is one division by the computed determinant of a value within a stated rounding error of the exact cofactor. So the computed entry times the computed determinant differs from the exact cofactor by at most that error plus one rounding, and each entry of (inverse times matrix) minus identity, times the determinant, is bounded by the matching sums of these errors; all this provided the computed entries are finite. Refuted: a matrix that has an inverse need not get one (elements between 1 and 2, the computed determinant is 0 and no entry is finite), and a matrix whose inverse is representable can get the zero matrix, because the determinant overflows.", "quantifier": "all precisions and exponent ranges, sizes 2 to 4, all finite matrices whose computed entries are finite", "why_tests_cant": "Rounding and underflow differ for each of the uncountably many element combinations; a test compares with a tolerance at a few matrices, and the failing matrices are rare.", "anchors": ["cml/matrix/detail/inverse.h", "cml/matrix/detail/determinant.tpp:determinant", "cml/matrix/writable_matrix.h:inverse"]}
{"id": "C85", "title": "Euler and coordinate-axis rotations in floating point", "statement": "Let the math library return, for each of the three angles handed to it, a finite cosine and sine with c^2 + s^2 within e of 1. Then for each of the twelve Euler orders matrix_rotation_euler gives finite entries within 13 units of roundoff of the exact product of the three rotations about the named axes with these cosines and sines, its rows are orthonormal up to 4e plus 53 units of roundoff, and transforming a vector by it changes the length by at most a relative 12e plus 165 units of roundoff. matrix_rotation_world_axis and matrix_rotation_2D do not round at all: their entries are exactly those cosines, sines, zeros and ones.", "quantifier": "all precisions of at least eight bits (twelve for vector lengths), all angles, all twelve orders, row and column basis, any math library within the stated error", "why_tests_cant": "The error must hold for every triple of angles and every rounding of sine and cosine; tests compare a few angles with a tolerance.", "anchors": ["cml/mathlib/matrix/rotation.tpp:matrix_rotation_euler", "cml/mathlib/matrix/rotation.tpp:matrix_rotation_world_axis", "cml/mathlib/matrix/rotation.tpp:matrix_rotation_2D", "cml/mathlib/euler_order.h"]}
{"id": "C86", "title": "Quaternions from angles in floating point", "statement": "Let the math library return, for each half angle handed to it, a finite cosine and sine with c^2 + s^2 within e of 1. quaternion_rotation_world_axis rounds nothing: its components are exactly that cosine, that sine and zeros. quaternion_rotation_axis_angle with an axis whose squared length is within d of 1 gives finite components within 2 units of roundoff of (c, s*axis) and a squared length within e + 2d plus 10 units of roundoff of 1. quaternion_rotation_euler gives, for each of the twelve orders, finite components within 13 units of roundoff of the exact product of the three half turns and a squared length within 4e plus 65 units of roundoff of 1; vectors transformed with its matrix keep their length to a relative 60e plus 1140 units of roundoff.", "quantifier": "all precisions of at least eight bits (sixteen for vector lengths), all angles, axes, twelve Euler orders, both component orders, any math library within the stated error", "why_tests_cant": "The result must be near a unit quaternion for every angle and every rounding; tests use a few angles with a tolerance.", "anchors": ["cml/mathlib/quaternion/rotation.tpp:quaternion_rotation_world_axis", "cml/mathlib/quaternion/rotation.tpp:quaternion_rotation_axis_angle", "cml/mathlib/quaternion/rotation.tpp:quaternion_rotation_euler"]}
{"id": "C87", "title": "From a quaternion to its matrix and back in floating point", "statement": "If the entries of a matrix are finite and within h of the rotation matrix of a quaternion a whose squared length is within d of 1, quaternion_rotation_matrix returns finite components that differ from a, or from -a, by at most 5h + 5d plus 27 units of roundoff, whichever of the four branches the computed trace and diagonal select. So matrix_rotation_quaternion followed by quaternion_rotation_matrix returns the quaternion or its opposite up to 5d plus 92 units of roundoff. Refuted: the sign is kept (a quaternion with negative real part comes back negated).", "quantifier": "all precisions of at least eight bits, all near-unit quaternions, both component orders, row and column basis, correctly rounded square root", "why_tests_cant": "The branch is chosen by rounded values, so near the branch boundaries exact and computed choice differ; no finite set of quaternions covers all boundary cases.", "anchors": ["cml/mathlib/quaternion/rotation.tpp:quaternion_rotation_matrix", "cml/mathlib/matrix/rotation.tpp:matrix_rotation_quaternion"]}
{"id": "C88", "title": "look_at, aim_at and align matrices in floating point", "statement": "Let all elements be finite, let the squared lengths stay clear of overflow and underflow, and let the sine of the angle between the up (reference) vector and the direction target - position (or the aligned vector) be at least k, where k is at least 256 units of roundoff. Then matrix_look_at, matrix_rotation_aim_at and matrix_rotation_align return matrices whose nine rotation entries are finite and within 120 units of roundoff divided by k of the exact camera axes (the exact frame of the requested axis order), and whose rows are orthonormal up to 600 units of roundoff divided by k. For look_at the eye is carried to the origin up to 5 units of roundoff times the length of position. Refuted: look_at always gives a usable matrix (an up vector along the line of sight gives NaNs and no exception).", "quantifier": "all precisions of at least eight bits, all finite positions, targets, up and reference vectors in range, both handednesses, all six axis orders, with and without normalisation, correctly rounded square root", "why_tests_cant": "The error grows as the up vector approaches the line of sight, so no finite set of directions bounds it; only a proof gives the bound for every direction and every rounding.", "anchors": ["cml/mathlib/matrix/transform.tpp:matrix_look_at", "cml/mathlib/matrix/rotation.tpp:matrix_rotation_align", "cml/mathlib/matrix/rotation.tpp:matrix_rotation_aim_at", "cml/mathlib/vector/orthonormal.tpp:orthonormal_basis"]}
{"id": "C89", "title": "Inverse of a rigid transform in floating point", "statement": "Let the rows of the rotation part of an affine matrix be orthonormal up to d, with d at most 1/16. matrix_invert_RT_only returns a matrix whose rotation part is the transpose to the bit and whose translation is within 4 units of roundoff times the length of the old translation of the exact one; the translation is finite unless the old one is at the edge of the range. If a point is moved by the matrix and then by the computed inverse, it comes back to within (3d + 50 units of roundoff) times the sum of its length and the length of the translation. The same holds in the other order when the columns are orthonormal up to d as well.", "quantifier": "all precisions of at least eight bits, all matrices of any shape that holds an affine 3D map in either basis orientation, all translations and points, all finite results", "why_tests_cant": "The round trip composes two rounded maps with a rounded inverse of a matrix that is itself only nearly orthogonal; a test sees single points, a proof bounds all of them.", "anchors": ["cml/mathlib/matrix/invert.tpp:matrix_invert_RT_only", "cml/mathlib/vector/transform.tpp:transform_point"]}
{"id": "C90", "title": "rotate_vector and projections in floating point", "statement": "Let the axis be of unit length up to d and let the squares of the cosine and sine the math library returns add up to 1 up to e, both at most 1/64. rotate_vector returns finite elements, each within 34 units of roundoff times the length of the vector of the exact rotation about the axis with that cosine and sine, and changes the length of the vector by at most the fraction 9e + 18d + 60 units of roundoff. project_to_hplane, for vectors of any size k with k units of roundoff at most 1/64 and a normal of unit length up to d, is within 3k + 4 units of roundoff times the length of the vector of the exact projection, and the dot product of the result with the normal is at most 2d + 4k + 5 units of roundoff times the length of the vector.", "quantifier": "all precisions of at least eight bits, all vectors away from overflow, all nearly unit axes and normals, all angles, all math libraries with nearly unit cosine and sine", "why_tests_cant": "Rounding in the dot product is multiplied back into every element, and the bound has to hold for every vector, axis and size.", "anchors": ["cml/mathlib/vector/rotation.tpp:rotate_vector", "cml/mathlib/vector/misc.tpp:project_to_hplane"]}
{"id": "C91", "title": "Coordinate conversions in floating point give the radius back", "statement": "Let the math library return cosines and sines whose squares add up to 1 up to e, with e at most 1/64, and let the square of the radius r be clear of overflow and underflow. polar_to_cartesian followed by cartesian_to_polar gives back the absolute value of r to a relative e + 18 units of roundoff, whatever the angle and the tolerance. The same holds for the cylindrical conversions about each of the three axes, and there the height comes back to the bit. spherical_to_cartesian followed by cartesian_to_spherical gives back the absolute value of r to a relative 3e + 40 units of roundoff, for either way of measuring the latitude, provided the square of r times the sine of the inclination does not underflow. Refuted: the radius comes back for every finite radius (2^600 comes back as infinity and 2^-600 as zero in double precision, for every math library with cos 0 = 1 and sin 0 = 0).", "quantifier": "all precisions of at least eight bits, all radii in the stated range, all angles, heights, tolerances and axes, all math libraries with correctly rounded square root and nearly unit cosine and sine", "why_tests_cant": "Radii and angles range over all floating point values and the bound has to hold for each; the overflow shows only far outside the values tests use.", "anchors": ["cml/mathlib/coordinate_conversion.tpp:polar_to_cartesian", "cml/mathlib/coordinate_conversion.tpp:cartesian_to_polar", "cml/mathlib/coordinate_conversion.tpp:cylindrical_to_cartesian", "cml/mathlib/coordinate_conversion.tpp:cartesian_to_cylindrical", "cml/mathlib/coordinate_conversion.tpp:spherical_to_cartesian", "cml/mathlib/coordinate_conversion.tpp:cartesian_to_spherical"]}
{"id": "C92", "title": "quaternion_rotation_align and quaternion_rotation_aim_at in floating point", "statement": "Under the conditions of C88, with the sine k of the angle between the reference and the direction at least 2048 units of roundoff, quaternion_rotation_align and quaternion_rotation_aim_at return finite components that differ by at most 600/k + 27 units of roundoff from a unit quaternion whose rotation is exactly the frame of the requested axis order: first named axis along the direction, third perpendicular to the direction and the reference, right-handed. The squared length of the result is within 3600/k + 162 units of roundoff of 1.", "quantifier": "all precisions of at least eight bits, all six axis orders, both storage orders of the quaternion, all directions and references clear of overflow and underflow, all math libraries with correctly rounded square root", "why_tests_cant": "The conversion from the matrix branches on the computed trace and diagonal, so nearby directions take different branches; the bound has to hold across all of them.", "anchors": ["cml/mathlib/quaternion/rotation.tpp:quaternion_rotation_align", "cml/mathlib/quaternion/rotation.tpp:quaternion_rotation_aim_at"]}
{"id": "C93", "title": "Frustum planes in floating point", "statement": "Every coefficient of the six planes that extract_frustum_planes returns without normalisation is within one unit of roundoff, relative, of the plane of the matrix it was given. For any point the value of the computed plane therefore agrees in sign with the corresponding clip-volume inequality unless it is smaller than one unit of roundoff times the sum of the sizes of its terms. With normalisation, a plane whose normal has a length N with N squared between 2^(4-emax) and 2^(emax-3) and whose offset does not overflow comes out within 22 units of roundoff, relative, of the exact normalised plane, with a normal of squared length within 49 units of roundoff of 1. It is not true that normalised planes are always usable: for a projection with its far plane at infinity the normal of the far plane is all NaN and no exception is thrown.", "quantifier": "all precisions of at least eight bits, all finite 4x4 matrices clear of overflow, both depth ranges, all points, all math libraries with correctly rounded square root", "why_tests_cant": "A culling test that misjudges a side does so for particular camera and point combinations; the margin within which it may do so has to be proved for all of them.", "anchors": ["cml/mathlib/frustum.tpp:extract_frustum_planes", "cml/mathlib/frustum.tpp:extract_near_frustum_plane"]}
{"id": "C94", "title": "Angles between vectors in floating point", "statement": "For three-element vectors whose lengths multiply to a number clear of overflow and underflow, unsigned_angle returns atan2(s, c) for finite s >= 0 and c, not both zero, such that the exact angle of the pair (c, s) differs from the angle between the two vectors by an angle whose sine is at most 31 units of roundoff: this holds at all angles, including the nearly parallel and nearly opposite ones where an arc cosine would lose half the digits. signed_angle returns that same value or its negation, and the negation exactly when (v x w) . reference is negative, unless the latter is within 9 units of roundoff of zero relative to the product of the three lengths. signed_angle_2D returns atan2(s, c) of a pair whose exact angle is within 7 units of roundoff of the signed angle from the first vector to the second.", "quantifier": "all precisions of at least eight bits, all pairs of finite vectors with product of lengths in range, all reference vectors, all math libraries with correctly rounded square root (any atan2)", "why_tests_cant": "Tests sample a few angles; the hard cases are the angles near 0 and pi, where cancellation decides the accuracy.", "anchors": ["cml/mathlib/vector/angle.tpp:unsigned_angle", "cml/mathlib/vector/angle.tpp:signed_angle", "cml/mathlib/vector/angle.tpp:signed_angle_2D"]}
{"id": "C95", "title": "Axis and angle of a rotation in floating point", "statement": "For a quaternion whose imaginary part has a length M clear of overflow and underflow, quaternion_to_axis_angle returns, when the tolerance is below M by more than 16 units of roundoff, an axis each component of which is within 16 units of roundoff, relative, of the exact direction of the imaginary part, with squared length within 35 units of roundoff of 1, and twice atan2(s, w) for an s such that the exact angle of (w, s) is within 19 units of roundoff of half the rotation angle; when the tolerance is above M by 16 units of roundoff it returns zeros. For a 3x3 matrix with elements at most 9/8 in size whose skew part and trace are those of a rotation up to scale (length at least 3/2), matrix_to_axis_angle returns, when the skew part is above the tolerance, an axis within 19 units of roundoff, relative, of the direction of the skew part, of squared length within 41 units of roundoff of 1, and atan2(s, c) of a pair whose exact angle is within 29 units of roundoff of the angle of the exact pair. The quaternion need not be a unit quaternion and the matrix need not be exactly orthogonal.", "quantifier": "all precisions of at least eight bits, both storage orders, all finite quaternions and matrices in range, all tolerances, all math libraries with correctly rounded square root (any atan2)", "why_tests_cant": "An arc cosine or a missing normalisation gives the same values on the round numbers tests use; the loss of digits shows only near particular angles.", "anchors": ["cml/mathlib/quaternion/rotation.tpp:quaternion_to_axis_angle", "cml/mathlib/matrix/rotation.tpp:matrix_to_axis_angle"]}
{"id": "C96", "title": "Rotations, frames and inverses of the plane in floating point", "statement": "matrix_rotation_2D produces rows that are exactly perpendicular and exactly of the length of (cos, sin) as returned by the math library, so its only departure from a rotation is that of the library; transforming a vector with it changes the vector's length by at most 2d + 4 units of roundoff, relative, where d is that departure. The elements of transform_vector_2D and transform_point_2D are within two, respectively three, roundings of their exact values. orthonormal_basis_2D and matrix_rotation_align_2D with normalisation return two exactly perpendicular, right-handed axes, both of squared length within 37 units of roundoff of 1, the named one within 12 units of roundoff, relative, of the direction of the argument. matrix_invert_RT_only_2D transposes the linear part exactly and its translation is within 3 units of roundoff, relative to the length of the translation, of the exact one.", "quantifier": "all precisions of at least eight bits, all angles, vectors and matrices without overflow or underflow of the lengths, both axis orders, all math libraries with correctly rounded square root", "why_tests_cant": "Exact perpendicularity is a statement about every rounding; tests only see it hold on the inputs they use.", "anchors": ["cml/mathlib/matrix/rotation.tpp:matrix_rotation_2D", "cml/mathlib/matrix/rotation.tpp:matrix_rotation_align_2D", "cml/mathlib/vector/orthonormal.tpp:orthonormal_basis_2D", "cml/mathlib/vector/transform.tpp:transform_vector_2D", "cml/mathlib/vector/transform.tpp:transform_point_2D", "cml/mathlib/matrix/invert.tpp:matrix_invert_RT_only_2D"]}
{"id": "C97", "title": "Random unit vectors in floating point", "statement": "random_unit(n) returns the normalisation of the first draw it does not reject. It rejects a draw only if the exact squared length is at most 4n times the smallest positive number, so a draw clear of underflow always ends the loop. When the accepted draw has elements in [-1, 1] and a squared length clear of underflow, the result has the same size, is finite, has squared length within 12(n+1) units of roundoff of 1, and each element is within 4(n+1) units of roundoff, relative, of the exact direction. The unqualified claim that the result is a unit vector is refuted: a draw of two numbers in (0, 1] whose squared length is rounded in the subnormal range is accepted and gives a vector of squared length 5/4. In the plane, random_unit(n, d, a) turns d by the drawn angle: for d and (cos, sin) of squared length between 1/2 and 2 the result is finite, within 19 units of roundoff of the exact direction of the turned d, of squared length within 37 units of roundoff of 1, and the cosine of its angle to d is within 19 units of roundoff of the cosine of the drawn angle.", "quantifier": "all precisions (of at least eight bits for the cone), all sequences of draws of any sizes with size times unit roundoff at most 1/64, all directions, angles and math libraries with correctly rounded square root", "why_tests_cant": "Random draws never come near the subnormal range in a test run, and a unit-length assertion with a tolerance cannot tell which sequences of draws are accepted.", "anchors": ["cml/mathlib/random_unit.tpp:random_unit", "cml/mathlib/random_unit.tpp:detail::random_unit"]}
{"id": "C98", "title": "Exponential and logarithm of a quaternion in floating point", "statement": "For a finite quaternion w + v with |v| clear of overflow and underflow and finite results, exp() gives a real part within one rounding of exp(w) cos L and imaginary parts within 21 units of roundoff, relative, of exp(w) sin L times the direction of v, where L is a floating point number within 16 units of roundoff, relative, of |v|; when w = 0 and |v| is at most 8, the result has squared length within 57 units of roundoff of 1, plus the error of cos^2 + sin^2 in the math library. log() gives the logarithm of a number within 20 units of roundoff, relative, of the length, and imaginary parts within 20 units of roundoff, relative, of arccos(z) times the direction of v, where z is within 23 units of roundoff, relative, of w/|q|. Two expectations are refuted: for every quaternion with zero imaginary part (the identity, for one) both functions return NaN imaginary parts, whatever the math library; and for a unit quaternion (up to rounding) of half angle 2^-27 log() returns imaginary parts that are exactly zero, so exp(log(q)) is NaN.", "quantifier": "all precisions of at least eight bits, both storage orders, all finite quaternions in range, all math libraries with correctly rounded square root (any exp, log, sin, cos, acos)", "why_tests_cant": "Tests use quaternions of moderate angle; the arc cosine loses all digits only near the identity, and an argument of zero is a single value.", "anchors": ["cml/quaternion/writable_quaternion.tpp:exp", "cml/quaternion/writable_quaternion.tpp:log"]}
{"id": "C99", "title": "Degenerate directions in floating point", "statement": "Normalising a zero vector (of any size, with zeros of either sign) gives a vector of NaN. matrix_look_at with the eye at its own target succeeds and sets all twelve elements of the linear part and the translation to NaN, whatever the up vector and the handedness. The expectation that a degenerate view is detectable in the result (NaN, infinite, or still a rotation) is refuted: in double precision, looking from the origin at (11, 5, 3) with that same vector as up returns a finite matrix whose first column is (1, 0, 0) and makes a scalar product of at least 7/8 with the third column, because the cross product of the two parallel directions is a rounding error that is then normalised.", "quantifier": "all precisions, all sizes, all up vectors and handedness, all math libraries with correctly rounded square root", "why_tests_cant": "In exact arithmetic the degenerate case divides by zero; which parallel inputs give rounding noise instead depends on the last bits of each coordinate.", "anchors": ["cml/mathlib/matrix/transform.tpp:matrix_look_at", "cml/vector/writable_vector.tpp:normalize"]}
