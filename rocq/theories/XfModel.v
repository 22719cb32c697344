(** Affine transformations: cml/mathlib/matrix/{size_checking,basis,translation,scale,
    transform,invert,concat}.tpp, cml/mathlib/vector/transform.tpp, and the alignment
    functions of mathlib/{matrix,quaternion}/rotation.tpp.

    Matrices are those of RotModel.v; the arguments are values (arguments that refer to
    the matrix being written are modelled in AliasModel.v).  The code below
    #if 0 in transform.tpp and scale.tpp is not compiled and not modelled. *)
From Coq Require Import List Bool Arith ZArith.
From Verif Require Import Base MiscModel QuatModel RotModel VecModel.
Import ListNotations.
Open Scope nat_scope.

(** mathlib/constants.h:10-14 AxisOrientation *)
Inductive handedness : Type := left_handed | right_handed.

Section Transforms.
Context {T : Type} {Op : Ops T} {MO : MathOps T}.
Local Infix "+!" := add (at level 50, left associativity).
Local Infix "-!" := sub (at level 50, left associativity).
Local Infix "*!" := mul (at level 40, left associativity).
Local Infix "/!" := div (at level 40, left associativity).
Local Notation "-: x" := (neg x) (at level 35).

(** ** matrix/size_checking.tpp *)
(** 21-37, 105-112 *)
Definition check_affine_2D (m : mx T) : out unit :=
  match mbasis m with row_basis => check_minimum_size m 3 2 | col_basis => check_minimum_size m 2 3 end.
(** 46-62, 114-121 *)
Definition check_affine_3D (m : mx T) : out unit :=
  match mbasis m with row_basis => check_minimum_size m 4 3 | col_basis => check_minimum_size m 3 4 end.
(** 64-103, 123-130 *)
Definition check_affine (m : mx T) : out unit :=
  let M := match mbasis m with row_basis => mrows m | col_basis => mcols m end in
  let N := match mbasis m with row_basis => mcols m | col_basis => mrows m end in
  require (Nat.eqb M N || Nat.eqb M (S N)) EAffineMatrixSize.
(** matrix/size_checking.tpp check_size(m, rows, cols) and check_square *)
Definition check_mx_size (m : mx T) (r c : nat) : out unit :=
  require (Nat.eqb (mrows m) r && Nat.eqb (mcols m) c) EMatrixSize.
Definition check_mx_square (m : mx T) : out unit := require (Nat.eqb (mrows m) (mcols m)) ENonSquareMatrix.

(** ** matrix/basis.tpp *)
Definition axis_index (n : nat) (i : Z) : out nat :=
  require (Z.leb 0 i && Z.ltb i (Z.of_nat n)) EInvalidArgument ;;; Ok (Z.to_nat i).
(** 17-28, 30-53 *)
Definition matrix_set_basis_vector_2D (m : mx T) (i : Z) (v : list T) : out (mx T) :=
  check_linear_2D m ;;; check_size v 2 ;;;
  i <- axis_index 2 i ;;
  Ok (set_be (set_be m i 0 (el v 0)) i 1 (el v 1)).
Definition matrix_set_basis_vectors_2D (m : mx T) (x y : list T) : out (mx T) :=
  m <- matrix_set_basis_vector_2D m 0 x ;; matrix_set_basis_vector_2D m 1 y.
(** 55-66, 68-91 *)
Definition matrix_set_transposed_basis_vector_2D (m : mx T) (i : Z) (v : list T) : out (mx T) :=
  check_linear_2D m ;;; check_size v 2 ;;;
  i <- axis_index 2 i ;;
  Ok (set_be (set_be m 0 i (el v 0)) 1 i (el v 1)).
Definition matrix_set_transposed_basis_vectors_2D (m : mx T) (x y : list T) : out (mx T) :=
  m <- matrix_set_transposed_basis_vector_2D m 0 x ;; matrix_set_transposed_basis_vector_2D m 1 y.
(** 93-102, 129-138 *)
Definition matrix_get_basis_vector_2D (m : mx T) (i : Z) : out (list T) :=
  check_linear_2D m ;;; i <- axis_index 2 i ;; Ok [be m i 0; be m i 1].
Definition matrix_get_transposed_basis_vector_2D (m : mx T) (i : Z) : out (list T) :=
  check_linear_2D m ;;; i <- axis_index 2 i ;; Ok [be m 0 i; be m 1 i].
(** 167-180, 181-214 *)
Definition matrix_set_basis_vector (m : mx T) (i : Z) (v : list T) : out (mx T) :=
  check_linear_3D m ;;; check_size v 3 ;;;
  i <- axis_index 3 i ;;
  Ok (set_be (set_be (set_be m i 0 (el v 0)) i 1 (el v 1)) i 2 (el v 2)).
Definition matrix_set_basis_vectors (m : mx T) (x y z : list T) : out (mx T) :=
  m <- matrix_set_basis_vector m 0 x ;; m <- matrix_set_basis_vector m 1 y ;; matrix_set_basis_vector m 2 z.
(** 216-229, 230-263 *)
Definition matrix_set_transposed_basis_vector (m : mx T) (i : Z) (v : list T) : out (mx T) :=
  check_linear_3D m ;;; check_size v 3 ;;;
  i <- axis_index 3 i ;;
  Ok (set_be (set_be (set_be m 0 i (el v 0)) 1 i (el v 1)) 2 i (el v 2)).
Definition matrix_set_transposed_basis_vectors (m : mx T) (x y z : list T) : out (mx T) :=
  m <- matrix_set_transposed_basis_vector m 0 x ;; m <- matrix_set_transposed_basis_vector m 1 y ;;
  matrix_set_transposed_basis_vector m 2 z.
(** 265-274, 310-319 *)
Definition matrix_get_basis_vector (m : mx T) (i : Z) : out (list T) :=
  check_linear_3D m ;;; i <- axis_index 3 i ;; Ok [be m i 0; be m i 1; be m i 2].
Definition matrix_get_transposed_basis_vector (m : mx T) (i : Z) : out (list T) :=
  check_linear_3D m ;;; i <- axis_index 3 i ;; Ok [be m 0 i; be m 1 i; be m 2 i].
(** 359-384: row i or column i; the caller passes an index in range *)
Definition matrix_get_basis_vector_nD (m : mx T) (i : nat) : list T :=
  elems (match mbasis m with row_basis => mcols m | col_basis => mrows m end) (be m i).

(** ** matrix/translation.tpp *)
(** 51-67 *)
Definition matrix_set_translation_2D (m : mx T) (e0 e1 : T) : out (mx T) :=
  check_affine_2D m ;;; Ok (set_be (set_be m 2 0 e0) 2 1 e1).
Definition matrix_set_translation_2D_v (m : mx T) (v : list T) : out (mx T) :=
  check_size v 2 ;;; matrix_set_translation_2D m (el v 0) (el v 1).
(** 69-92 *)
Definition matrix_get_translation_2D (m : mx T) : out (list T) :=
  check_affine_2D m ;;; Ok [be m 2 0; be m 2 1].
(** 95-109 *)
Definition matrix_translation_2D (m : mx T) (e0 e1 : T) : out (mx T) := matrix_set_translation_2D (mx_identity m) e0 e1.
Definition matrix_translation_2D_v (m : mx T) (v : list T) : out (mx T) := matrix_set_translation_2D_v (mx_identity m) v.
(** 113-129 *)
Definition matrix_set_translation (m : mx T) (e0 e1 e2 : T) : out (mx T) :=
  check_affine_3D m ;;; Ok (set_be (set_be (set_be m 3 0 e0) 3 1 e1) 3 2 e2).
Definition matrix_set_translation_xy (m : mx T) (e0 e1 : T) : out (mx T) := matrix_set_translation m e0 e1 zero.
(** 131-140; vector/size_checking.tpp check_size_range *)
Definition check_size_range (v : list T) (lo hi : nat) : out unit :=
  require (Nat.leb lo (length v) && Nat.leb (length v) hi) EVectorSizeRange.
Definition matrix_set_translation_v (m : mx T) (v : list T) : out (mx T) :=
  check_size_range v 2 3 ;;;
  matrix_set_translation m (el v 0) (el v 1) (if Nat.eqb (length v) 3 then el v 2 else zero).
(** 142-167 *)
Definition matrix_get_translation (m : mx T) : out (list T) :=
  check_affine_3D m ;;; Ok [be m 3 0; be m 3 1; be m 3 2].
(** 170-193 *)
Definition matrix_translation (m : mx T) (e0 e1 e2 : T) : out (mx T) := matrix_set_translation (mx_identity m) e0 e1 e2.
Definition matrix_translation_xy (m : mx T) (e0 e1 : T) : out (mx T) := matrix_set_translation_xy (mx_identity m) e0 e1.
Definition matrix_translation_v (m : mx T) (v : list T) : out (mx T) := matrix_set_translation_v (mx_identity m) v.

(** ** matrix/scale.tpp *)
(** 17-36 *)
Definition matrix_scale_2D (m : mx T) (e0 e1 : T) : out (mx T) :=
  check_affine_2D m ;;; Ok (set_be (set_be (mx_identity m) 0 0 e0) 1 1 e1).
(** 38-59 *)
Definition matrix_uniform_scale_2D (m : mx T) (e0 : T) : out (mx T) := matrix_scale_2D m e0 e0.
Definition matrix_inverse_scale_2D (m : mx T) (e0 e1 : T) : out (mx T) := matrix_scale_2D m (one /! e0) (one /! e1).
Definition matrix_scale_2D_v (m : mx T) (v : list T) : out (mx T) := check_size v 2 ;;; matrix_scale_2D m (el v 0) (el v 1).
Definition matrix_inverse_scale_2D_v (m : mx T) (v : list T) : out (mx T) :=
  check_size v 2 ;;; matrix_inverse_scale_2D m (el v 0) (el v 1).
(** 63-84 *)
Definition matrix_scale (m : mx T) (e0 e1 e2 : T) : out (mx T) :=
  check_affine_3D m ;;; Ok (set_be (set_be (set_be (mx_identity m) 0 0 e0) 1 1 e1) 2 2 e2).
(** 86-108 *)
Definition matrix_uniform_scale (m : mx T) (e0 : T) : out (mx T) := matrix_scale m e0 e0 e0.
Definition matrix_inverse_scale (m : mx T) (e0 e1 e2 : T) : out (mx T) :=
  matrix_scale m (one /! e0) (one /! e1) (one /! e2).

Definition matrix_scale_v (m : mx T) (v : list T) : out (mx T) := check_size v 3 ;;; matrix_scale m (el v 0) (el v 1) (el v 2).
Definition matrix_inverse_scale_v (m : mx T) (v : list T) : out (mx T) :=
  check_size v 3 ;;; matrix_inverse_scale m (el v 0) (el v 1) (el v 2).

(** ** matrix/transform.tpp *)
(** 22-43 *)
Definition matrix_look_at (m : mx T) (position target up : list T) (h : handedness) : out (mx T) :=
  check_affine_3D m ;;;
  let m := mx_identity m in
  let s := match h with left_handed => one | right_handed => -: one end in
  d <- vsub target position ;; d <- vnormalize d ;;
  let z := vscale s d in
  x <- vcross3 up z ;; x <- vnormalize x ;;
  y <- vcross3 z x ;;
  m <- matrix_set_transposed_basis_vectors m x y z ;;
  px <- vdot position x ;; py <- vdot position y ;; pz <- vdot position z ;;
  matrix_set_translation m (-: px) (-: py) (-: pz).
(** 65-82.  [own] says that the linear argument is the matrix being written. *)
Definition copy_linear (m : mx T) (l : mx T -> mx T) : mx T :=
  fold_left (fun m i => fold_left (fun m j => set_be m i j (be (l m) i j)) (seq 0 3) m) (seq 0 3) m.
Definition matrix_linear_transform (m l : mx T) : out (mx T) :=
  check_linear_3D m ;;; check_linear_3D l ;;; Ok (copy_linear (mx_identity m) (fun _ => l)).
Definition matrix_linear_transform_own (m : mx T) : out (mx T) :=
  check_linear_3D m ;;; check_linear_3D m ;;; Ok (copy_linear (mx_identity m) (fun cur => cur)).
(** 86-99 *)
Definition matrix_affine_transform_axis (m : mx T) (axis : list T) (angle : T) (t : list T) (normalize : bool) : out (mx T) :=
  check_affine_3D m ;;;
  axis <- (if normalize then vnormalize axis else Ok axis) ;;
  m <- matrix_rotation_axis_angle m axis angle ;;
  matrix_set_translation_v m t.
(** 101-109 *)
Definition matrix_affine_transform (m l : mx T) (t : list T) : out (mx T) :=
  check_affine_3D m ;;; m <- matrix_linear_transform m l ;; matrix_set_translation_v m t.

(** ** matrix/rotation.tpp:46-66, 378-405 *)
Definition matrix_rotation_align_2D (m : mx T) (align : list T) (normalize : bool) (order : Z) : out (mx T) :=
  check_linear_2D m ;;;
  '(x, y) <- vorthonormal_basis_2D align normalize order ;;
  matrix_set_basis_vectors_2D (mx_identity m) x y.
Definition matrix_rotation_align (m : mx T) (align reference : list T) (normalize : bool) (order : Z) : out (mx T) :=
  '(x, y, z) <- vorthonormal_basis align reference normalize order ;;
  matrix_set_basis_vectors (mx_identity m) x y z.
Definition matrix_rotation_aim_at (m : mx T) (pos target reference : list T) (order : Z) : out (mx T) :=
  d <- vsub target pos ;; matrix_rotation_align m d reference true order.

(** ** matrix/invert.tpp *)
(** 11-25 *)
Definition matrix_invert_RT_only_2D (m : mx T) : out (mx T) :=
  check_affine_2D m ;;;
  x <- matrix_get_basis_vector_2D m 0 ;; y <- matrix_get_basis_vector_2D m 1 ;;
  m <- matrix_set_transposed_basis_vectors_2D m x y ;;
  p <- matrix_get_translation_2D m ;;
  px <- vdot p x ;; py <- vdot p y ;;
  matrix_set_translation_2D m (-: px) (-: py).
(** 27-42 *)
Definition matrix_invert_RT_only (m : mx T) : out (mx T) :=
  check_affine_3D m ;;;
  x <- matrix_get_basis_vector m 0 ;; y <- matrix_get_basis_vector m 1 ;; z <- matrix_get_basis_vector m 2 ;;
  m <- matrix_set_transposed_basis_vectors m x y z ;;
  p <- matrix_get_translation m ;;
  px <- vdot p x ;; py <- vdot p y ;; pz <- vdot p z ;;
  matrix_set_translation m (-: px) (-: py) (-: pz).
(** 44-79.  A 0x0 matrix, for which the code computes M = -1, is outside the model.
    matrix_get_basis_vector_nD returns a vector of its own (basis_vector_of_t), not a view. *)
Definition transpose_linear (M : nat) (m : mx T) : mx T :=
  fold_left (fun m i => fold_left (fun m j =>
    let e_ij := be m i j in
    let e_ji := be m j i in
    set_be (set_be m i j e_ji) j i e_ij) (seq (i + 1) (M - (i + 1))) m) (seq 0 M) m.
Definition matrix_invert_RT (m : mx T) : out (mx T) :=
  check_affine m ;;;
  let R := mrows m in
  let C := mcols m in
  let M := if Nat.ltb C R then C else if Nat.ltb R C then R else R - 1 in
  let m := transpose_linear M m in
  let t := matrix_get_basis_vector_nD m M in
  Ok (fold_left (fun m i =>
    let e := fold_left (fun e j => e +! be m j i *! el t j) (seq 1 (M - 1)) (be m 0 i *! el t 0) in
    set_be m M i (-: e)) (seq 0 M) m).

(** ** matrix/concat.tpp:14-50; matrix/matrix_product.tpp:13-36.  Both operands and the
    result have the same basis orientation (the promotion of mixed orientations is in
    PromoteModel.v). *)
Definition mx_mul (a b : mx T) : out (mx T) :=
  require (Nat.eqb (mcols a) (mrows b)) EIncompatibleMatrixInnerSize ;;;
  Ok (Mx (mrows a) (mcols b) (mbasis a) (fun i j => accumulate (mcols a) (fun k => mel a i k *! mel b k j))).
Definition matrix_concat (m1 m2 : mx T) : out (mx T) :=
  check_mx_square m1 ;;; check_mx_square m2 ;;;
  match mbasis m1 with row_basis => mx_mul m1 m2 | col_basis => mx_mul m2 m1 end.

(** ** vector/transform.tpp *)
(** 38-50 *)
Definition transform_vector_2D (m : mx T) (v : list T) : out (list T) :=
  check_minimum_size m 2 2 ;;; check_size v 2 ;;;
  Ok [be m 0 0 *! el v 0 +! be m 1 0 *! el v 1; be m 0 1 *! el v 0 +! be m 1 1 *! el v 1].
(** 52-67 *)
Definition transform_point_2D (m : mx T) (v : list T) : out (list T) :=
  check_affine_2D m ;;; check_size v 2 ;;;
  Ok [be m 0 0 *! el v 0 +! be m 1 0 *! el v 1 +! be m 2 0; be m 0 1 *! el v 0 +! be m 1 1 *! el v 1 +! be m 2 1].
(** 71-89 *)
Definition transform_vector (m : mx T) (v : list T) : out (list T) :=
  check_minimum_size m 3 3 ;;; check_size v 3 ;;;
  Ok [be m 0 0 *! el v 0 +! be m 1 0 *! el v 1 +! be m 2 0 *! el v 2;
      be m 0 1 *! el v 0 +! be m 1 1 *! el v 1 +! be m 2 1 *! el v 2;
      be m 0 2 *! el v 0 +! be m 1 2 *! el v 1 +! be m 2 2 *! el v 2].
(** 91-109 *)
Definition transform_point (m : mx T) (v : list T) : out (list T) :=
  check_affine_3D m ;;; check_size v 3 ;;;
  Ok [be m 0 0 *! el v 0 +! be m 1 0 *! el v 1 +! be m 2 0 *! el v 2 +! be m 3 0;
      be m 0 1 *! el v 0 +! be m 1 1 *! el v 1 +! be m 2 1 *! el v 2 +! be m 3 1;
      be m 0 2 *! el v 0 +! be m 1 2 *! el v 1 +! be m 2 2 *! el v 2 +! be m 3 2].
(** 17-34, 111-121 *)
Definition transform_vector_4D (m : mx T) (v : list T) : out (list T) :=
  check_mx_size m 4 4 ;;; check_size v 4 ;;;
  match mbasis m with col_basis => mx_vec m v | row_basis => vec_mx v m end.
(** 123-152 *)
Definition transform_point_4D (m : mx T) (v : list T) : out (list T) :=
  check_mx_size m 4 4 ;;; check_size v 3 ;;;
  let h i := be m 0 i *! el v 0 +! be m 1 i *! el v 1 +! be m 2 i *! el v 2 +! be m 3 i in
  Ok [h 0 /! h 3; h 1 /! h 3; h 2 /! h 3].
End Transforms.

(** ** quaternion/rotation.tpp:195-221: through a 3x3 temporary of the default basis
    (col_basis, matrix/fixed_compiled.h) *)
Definition quaternion_rotation_align {T} {Op : Ops T} {MO : MathOps T} (o : order) (q : quat T) (align reference : list T)
  (normalize : bool) (ord : Z) : out (quat T) :=
  m <- matrix_rotation_align (Mx 3 3 col_basis (fun _ _ => zero)) align reference normalize ord ;;
  quaternion_rotation_matrix o q m.
Definition quaternion_rotation_aim_at {T} {Op : Ops T} {MO : MathOps T} (o : order) (q : quat T) (pos target reference : list T)
  (ord : Z) : out (quat T) :=
  m <- matrix_rotation_aim_at (Mx 3 3 col_basis (fun _ _ => zero)) pos target reference ord ;;
  quaternion_rotation_matrix o q m.
