(** The functions of cml/mathlib/matrix/{basis,translation,scale,transform,rotation,misc}.tpp and
    writable_matrix.tpp set_row/set_col, when their arguments refer to the matrix being written.

    XfModel.v and RotModel.v give the same functions on arguments that are values.  Here an argument is
    read at the moment the code reads it.  Arguments passed by value (matrix_rotation_2D,
    matrix_rotation_euler, matrix/projection.tpp) are read before the call: RotModel.v and GeoModel.v
    apply to them as they are. *)
From Coq Require Import List Bool Arith ZArith.
From Verif Require Import Base MiscModel QuatModel RotModel VecModel XfModel.
Import ListNotations.
Open Scope nat_scope.

Section Alias.
Context {T : Type} {Op : Ops T} {MO : MathOps T}.
Local Infix "*!" := mul (at level 40, left associativity).
Local Infix "/!" := div (at level 40, left associativity).
Local Infix "+!" := add (at level 50, left associativity).
Local Infix "-!" := sub (at level 50, left associativity).
Local Notation "-: x" := (neg x) (at level 35).

(** A scalar passed as [const E&]: a value of its own, or element (i,j) of the matrix.  The caller's
    (i,j) is an element of the matrix: reading outside is not modelled. *)
Inductive sarg : Type := SVal (x : T) | SElem (i j : nat).
Definition sread (m : mx T) (a : sarg) : T := match a with SVal x => x | SElem i j => mel m i j end.

(** A vector passed as [const readable_vector<Sub>&].  [VRefs]: v[k] is a reference (scalar/traits.h:34,
    117 immutable_value = const_reference), to an element of the matrix (matrix/row_node.h:24,
    col_node.h:24, vector/subvector_node.tpp:42-46, a vector over the memory of the matrix) or elsewhere.
    [VExpr]: v[k] is computed when it is asked for and returned by value (vector/{unary,binary,scalar,cross}_node.h). *)
Inductive varg : Type := VRefs (l : list sarg) | VExpr (n : nat) (f : mx T -> nat -> T).
Definition vlen (v : varg) : nat := match v with VRefs l => length l | VExpr n _ => n end.
(** v[k] *)
Definition vget (m : mx T) (v : varg) (k : nat) : sarg :=
  match v with VRefs l => nth k l (SVal zero) | VExpr _ f => SVal (f m k) end.
(** the elements of v as they are while the matrix is m *)
Definition vread (m : mx T) (v : varg) : list T := elems (vlen v) (fun k => sread m (vget m v k)).
(** m.row(i), m.col(j), the vector of the elements (i,0), (i,1), (i,2), and a vector of its own *)
Definition VRow (m : mx T) (i : nat) : varg := VRefs (map (fun j => SElem i j) (seq 0 (mcols m))).
Definition VCol (m : mx T) (j : nat) : varg := VRefs (map (fun i => SElem i j) (seq 0 (mrows m))).
Definition VVal (v : list T) : varg := VRefs (map SVal v).

(** m.set_basis_element(i, j, a) *)
Definition put_be (m : mx T) (i j : nat) (a : sarg) : mx T := set_be m i j (sread m a).
Definition vcheck_size (v : varg) (n : nat) : out unit := require (Nat.eqb (vlen v) n) EVectorSize.

(** ** matrix/writable_matrix.tpp:112-120, 131-139; matrix/size_checking.tpp check_same_col_size,
    check_same_row_size.  The caller's row or column number is in range. *)
Definition set_row (m : mx T) (i : nat) (v : varg) : out (mx T) :=
  require (Nat.eqb (mcols m) (vlen v)) EIncompatibleMatrixColSize ;;;
  Ok (fold_left (fun m j => set_el m i j (sread m (vget m v j))) (seq 0 (mcols m)) m).
Definition set_col (m : mx T) (j : nat) (v : varg) : out (mx T) :=
  require (Nat.eqb (mrows m) (vlen v)) EIncompatibleMatrixRowSize ;;;
  Ok (fold_left (fun m i => set_el m i j (sread m (vget m v i))) (seq 0 (mrows m)) m).

(** ** matrix/basis.tpp *)
(** 167-180, 181-214 *)
Definition set_basis_vector (m : mx T) (i : Z) (v : varg) : out (mx T) :=
  check_linear_3D m ;;; vcheck_size v 3 ;;;
  i <- axis_index 3 i ;;
  let m := put_be m i 0 (vget m v 0) in
  let m := put_be m i 1 (vget m v 1) in
  Ok (put_be m i 2 (vget m v 2)).
Definition set_basis_vectors (m : mx T) (x y z : varg) : out (mx T) :=
  m <- set_basis_vector m 0 x ;; m <- set_basis_vector m 1 y ;; set_basis_vector m 2 z.
(** 216-229, 230-263 *)
Definition set_transposed_basis_vector (m : mx T) (i : Z) (v : varg) : out (mx T) :=
  check_linear_3D m ;;; vcheck_size v 3 ;;;
  i <- axis_index 3 i ;;
  let m := put_be m 0 i (vget m v 0) in
  let m := put_be m 1 i (vget m v 1) in
  Ok (put_be m 2 i (vget m v 2)).
Definition set_transposed_basis_vectors (m : mx T) (x y z : varg) : out (mx T) :=
  m <- set_transposed_basis_vector m 0 x ;; m <- set_transposed_basis_vector m 1 y ;;
  set_transposed_basis_vector m 2 z.
(** 17-28, 30-53 *)
Definition set_basis_vector_2D (m : mx T) (i : Z) (v : varg) : out (mx T) :=
  check_linear_2D m ;;; vcheck_size v 2 ;;;
  i <- axis_index 2 i ;;
  let m := put_be m i 0 (vget m v 0) in
  Ok (put_be m i 1 (vget m v 1)).
Definition set_basis_vectors_2D (m : mx T) (x y : varg) : out (mx T) :=
  m <- set_basis_vector_2D m 0 x ;; set_basis_vector_2D m 1 y.

(** ** matrix/translation.tpp *)
(** 18-46 detail::matrix_set_basis<I>(m, es...): every argument is a [const E&], read when it is stored *)
Definition set_basis_refs (m : mx T) (I : nat) (es : list sarg) : mx T :=
  fold_left (fun m je => put_be m I (fst je) (snd je)) (combine (seq 0 (length es)) es) m.
(** 51-67 *)
Definition set_translation_2D (m : mx T) (e0 e1 : sarg) : out (mx T) :=
  check_affine_2D m ;;; Ok (set_basis_refs m 2 [e0; e1]).
Definition set_translation_2D_v (m : mx T) (v : varg) : out (mx T) :=
  vcheck_size v 2 ;;; set_translation_2D m (vget m v 0) (vget m v 1).
(** 95-109 *)
Definition translation_2D (m : mx T) (e0 e1 : sarg) : out (mx T) := set_translation_2D (mx_identity m) e0 e1.
Definition translation_2D_v (m : mx T) (v : varg) : out (mx T) := set_translation_2D_v (mx_identity m) v.
(** 113-129 *)
Definition set_translation (m : mx T) (e0 e1 e2 : sarg) : out (mx T) :=
  check_affine_3D m ;;; Ok (set_basis_refs m 3 [e0; e1; e2]).
Definition set_translation_xy (m : mx T) (e0 e1 : sarg) : out (mx T) := set_translation m e0 e1 (SVal zero).
(** 131-140: the third argument is a copy, zero_type(v[2]) *)
Definition set_translation_v (m : mx T) (v : varg) : out (mx T) :=
  require (Nat.leb 2 (vlen v) && Nat.leb (vlen v) 3) EVectorSizeRange ;;;
  set_translation m (vget m v 0) (vget m v 1)
    (SVal (if Nat.eqb (vlen v) 3 then sread m (vget m v 2) else zero)).
(** 170-193 *)
Definition translation (m : mx T) (e0 e1 e2 : sarg) : out (mx T) := set_translation (mx_identity m) e0 e1 e2.
Definition translation_xy (m : mx T) (e0 e1 : sarg) : out (mx T) := set_translation_xy (mx_identity m) e0 e1.
Definition translation_v (m : mx T) (v : varg) : out (mx T) := set_translation_v (mx_identity m) v.

(** ** matrix/scale.tpp *)
(** 17-36 *)
Definition scale_2D (m : mx T) (e0 e1 : sarg) : out (mx T) :=
  check_affine_2D m ;;;
  let m := mx_identity m in
  let m := put_be m 0 0 e0 in
  Ok (put_be m 1 1 e1).
Definition scale_2D_v (m : mx T) (v : varg) : out (mx T) := vcheck_size v 2 ;;; scale_2D m (vget m v 0) (vget m v 1).
(** 38-59: the quotients are temporaries *)
Definition uniform_scale_2D (m : mx T) (e0 : sarg) : out (mx T) := scale_2D m e0 e0.
Definition inverse_scale_2D (m : mx T) (e0 e1 : sarg) : out (mx T) :=
  scale_2D m (SVal (one /! sread m e0)) (SVal (one /! sread m e1)).
Definition inverse_scale_2D_v (m : mx T) (v : varg) : out (mx T) :=
  vcheck_size v 2 ;;; inverse_scale_2D m (vget m v 0) (vget m v 1).
(** 63-84 *)
Definition scale (m : mx T) (e0 e1 e2 : sarg) : out (mx T) :=
  check_affine_3D m ;;;
  let m := mx_identity m in
  let m := put_be m 0 0 e0 in
  let m := put_be m 1 1 e1 in
  Ok (put_be m 2 2 e2).
Definition scale_v (m : mx T) (v : varg) : out (mx T) :=
  vcheck_size v 3 ;;; scale m (vget m v 0) (vget m v 1) (vget m v 2).
(** 86-108 *)
Definition uniform_scale (m : mx T) (e0 : sarg) : out (mx T) := scale m e0 e0 e0.
Definition inverse_scale (m : mx T) (e0 e1 e2 : sarg) : out (mx T) :=
  scale m (SVal (one /! sread m e0)) (SVal (one /! sread m e1)) (SVal (one /! sread m e2)).
Definition inverse_scale_v (m : mx T) (v : varg) : out (mx T) :=
  vcheck_size v 3 ;;; inverse_scale m (vget m v 0) (vget m v 1) (vget m v 2).

(** ** matrix/misc.tpp:32-58 *)
Definition skew_symmetric (m : mx T) (v : varg) : out (mx T) :=
  check_linear_3D m ;;; vcheck_size v 3 ;;;
  let m := mx_zero m in
  let m := put_be m 1 2 (vget m v 0) in
  let m := put_be m 2 1 (SVal (-: sread m (vget m v 0))) in
  let m := put_be m 2 0 (vget m v 1) in
  let m := put_be m 0 2 (SVal (-: sread m (vget m v 1))) in
  let m := put_be m 0 1 (vget m v 2) in
  Ok (put_be m 1 0 (SVal (-: sread m (vget m v 2)))).
Definition skew_symmetric_2D (m : mx T) (s : sarg) : out (mx T) :=
  check_linear_2D m ;;;
  let m := mx_zero m in
  let m := put_be m 0 1 s in
  Ok (put_be m 1 0 (SVal (-: sread m s))).

(** ** matrix/rotation.tpp *)
(** 70-97: sin and cos are taken before identity() *)
Definition rotation_world_axis (m : mx T) (axis : Z) (angle : sarg) : out (mx T) :=
  check_linear_3D m ;;;
  require (Z.leb 0 axis && Z.leb axis 2) EInvalidArgument ;;;
  '(i, j, k) <- ScalarModel.cyclic_permutation3 axis ;;
  let j := Z.to_nat j in
  let k := Z.to_nat k in
  let s := msin (sread m angle) in
  let c := mcos (sread m angle) in
  let m := mx_identity m in
  let m := put_be m j j (SVal c) in
  let m := put_be m j k (SVal s) in
  let m := put_be m k j (SVal (-: s)) in
  Ok (put_be m k k (SVal c)).
(** 119-167: sin, cos and the products are taken after identity() and before the first write *)
Definition rotation_axis_angle (m : mx T) (axis : varg) (angle : sarg) : out (mx T) :=
  check_linear_3D m ;;; vcheck_size axis 3 ;;;
  let m := mx_identity m in
  let s := msin (sread m angle) in
  let c := mcos (sread m angle) in
  let omc := one -! c in
  let a k := sread m (vget m axis k) in
  let xomc := a 0 *! omc in
  let yomc := a 1 *! omc in
  let zomc := a 2 *! omc in
  let xxomc := a 0 *! xomc in
  let yyomc := a 1 *! yomc in
  let zzomc := a 2 *! zomc in
  let xyomc := a 0 *! yomc in
  let yzomc := a 1 *! zomc in
  let zxomc := a 2 *! xomc in
  let xs := a 0 *! s in
  let ys := a 1 *! s in
  let zs := a 2 *! s in
  let m := put_be m 0 0 (SVal (xxomc +! c)) in
  let m := put_be m 0 1 (SVal (xyomc +! zs)) in
  let m := put_be m 0 2 (SVal (zxomc -! ys)) in
  let m := put_be m 1 0 (SVal (xyomc -! zs)) in
  let m := put_be m 1 1 (SVal (yyomc +! c)) in
  let m := put_be m 1 2 (SVal (yzomc +! xs)) in
  let m := put_be m 2 0 (SVal (zxomc +! ys)) in
  let m := put_be m 2 1 (SVal (yzomc -! xs)) in
  Ok (put_be m 2 2 (SVal (zzomc +! c))).
(** 46-66; mathlib/vector/orthonormal.tpp:18-79 work on temporaries that are filled after identity() *)
Definition rotation_align_2D (m : mx T) (align : varg) (normalize : bool) (order : Z) : out (mx T) :=
  check_linear_2D m ;;;
  let m := mx_identity m in
  '(x, y) <- vorthonormal_basis_2D (vread m align) normalize order ;;
  set_basis_vectors_2D m (VVal x) (VVal y).
(** 378-395 *)
Definition rotation_align (m : mx T) (align reference : varg) (normalize : bool) (order : Z) : out (mx T) :=
  let m := mx_identity m in
  '(x, y, z) <- vorthonormal_basis (vread m align) (vread m reference) normalize order ;;
  set_basis_vectors m (VVal x) (VVal y) (VVal z).
(** 397-405: target - pos is an expression *)
Definition rotation_aim_at (m : mx T) (pos target reference : varg) (order : Z) : out (mx T) :=
  require (Nat.eqb (vlen target) (vlen pos)) EIncompatibleVectorSize ;;;
  rotation_align m (VExpr (vlen target) (fun m k => sread m (vget m target k) -! sread m (vget m pos k))) reference true order.

(** ** matrix/transform.tpp *)
(** 22-43.  z, x and y are expressions: readable_vector.tpp:72-89 normalize() takes the length at once
    and divides later, as the elements are asked for. *)
Definition look_at (m : mx T) (position target up : varg) (h : handedness) : out (mx T) :=
  check_affine_3D m ;;;
  let m := mx_identity m in
  let s := match h with left_handed => one | right_handed => -: one end in
  d <- vsub (vread m target) (vread m position) ;;
  dl <- vlength d ;;
  let z m k := (sread m (vget m target k) -! sread m (vget m position k)) /! dl *! s in
  c <- vcross3 (vread m up) (elems (vlen target) (z m)) ;;
  cl <- vlength c ;;
  let u m k := sread m (vget m up k) in
  let cross3 (a b : nat -> T) k :=
    a ((k + 1) mod 3) *! b ((k + 2) mod 3) -! a ((k + 2) mod 3) *! b ((k + 1) mod 3) in
  let x m k := cross3 (u m) (z m) k /! cl in
  let y m k := cross3 (z m) (x m) k in
  m <- set_transposed_basis_vectors m (VExpr 3 x) (VExpr 3 y) (VExpr (vlen target) z) ;;
  px <- vdot (vread m position) (elems 3 (x m)) ;;
  py <- vdot (vread m position) (elems 3 (y m)) ;;
  pz <- vdot (vread m position) (elems (vlen target) (z m)) ;;
  set_translation m (SVal (-: px)) (SVal (-: py)) (SVal (-: pz)).
(** 65-82, [l] being an expression that reads the matrix (transpose(m), 2*m, ...) *)
Definition linear_transform (m : mx T) (l : mx T -> mx T) : out (mx T) :=
  check_linear_3D m ;;; check_linear_3D (l m) ;;; Ok (copy_linear (mx_identity m) l).
(** 86-99: cml::normalize(axis) is a temporary, made before the matrix is written *)
Definition affine_transform_axis (m : mx T) (axis : varg) (angle : sarg) (t : varg) (normalize : bool) : out (mx T) :=
  check_affine_3D m ;;;
  axis <- (if normalize then a <- vnormalize (vread m axis) ;; Ok (VVal a) else Ok axis) ;;
  m <- rotation_axis_angle m axis angle ;;
  set_translation_v m t.
(** 101-109 *)
Definition affine_transform (m : mx T) (l : mx T -> mx T) (t : varg) : out (mx T) :=
  check_affine_3D m ;;; m <- linear_transform m l ;; set_translation_v m t.
End Alias.
Arguments sarg : clear implicits.
Arguments varg : clear implicits.
