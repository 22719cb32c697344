(** Vector algebra: cml/vector/{dot,perp_dot,triple_product,cross_node,readable_vector,
    writable_vector,hadamard_product}, cml/mathlib/vector/{misc,angle,orthonormal}.tpp.

    A vector is the list of its elements (HeapModel.v/PropHeap.v cover storage and
    expression evaluation).  Results written through references are returned.  Value
    type promotion is not modelled: every operand has the same scalar type. *)
From Coq Require Import List Bool Arith ZArith.
From Verif Require Import Base MiscModel RotModel.
Import ListNotations.
Open Scope nat_scope.

Section Vectors.
Context {T : Type} {Op : Ops T} {MO : MathOps T}.
Local Infix "+!" := add (at level 50, left associativity).
Local Infix "-!" := sub (at level 50, left associativity).
Local Infix "*!" := mul (at level 40, left associativity).
Local Infix "/!" := div (at level 40, left associativity).
Local Notation "-: x" := (neg x) (at level 35).

(** vector/size_checking.tpp check_minimum_size, check_same_size *)
Definition check_vmin (v : list T) (n : nat) : out unit := require (Nat.leb n (length v)) EMinimumVectorSize.
Definition check_vsame (u v : list T) : out unit := require (Nat.eqb (length u) (length v)) EIncompatibleVectorSize.

(** ** Elementwise expressions (vector/unary_node.tpp, binary_node.tpp:14-22, scalar_node.tpp) *)
Definition elems (n : nat) (f : nat -> T) : list T := map f (seq 0 n).
Definition vneg (v : list T) : list T := elems (length v) (fun i => -: el v i).
Definition vadd (u v : list T) : out (list T) :=
  check_vsame u v ;;; Ok (elems (length u) (fun i => el u i +! el v i)).
Definition vsub (u v : list T) : out (list T) :=
  check_vsame u v ;;; Ok (elems (length u) (fun i => el u i -! el v i)).
(** vector/hadamard_product.h:22-40 *)
Definition vhadamard (u v : list T) : out (list T) :=
  check_vsame u v ;;; Ok (elems (length u) (fun i => el u i *! el v i)).
(** scalar_node.tpp: s * v is built with the operands of v * s (scalar_ops.h:60-120) *)
Definition vscale (s : T) (v : list T) : list T := elems (length v) (fun i => el v i *! s).
Definition vdiv (v : list T) (s : T) : list T := elems (length v) (fun i => el v i /! s).

(** ** Products *)
(** accum = x(0); for(int i = 1; i < n; ++ i) accum += x(i) *)
Definition accumulate (n : nat) (x : nat -> T) : T := fold_left (fun a i => a +! x i) (seq 1 (n - 1)) (x 0).
(** dot.tpp:14-27 *)
Definition vdot (u v : list T) : out T :=
  check_vmin u 1 ;;; check_vmin v 1 ;;; check_vsame u v ;;;
  Ok (accumulate (length u) (fun i => el u i *! el v i)).
(** perp_dot.tpp:14-23 *)
Definition vperp_dot (u v : list T) : out T :=
  check_size u 2 ;;; check_size v 2 ;;;
  Ok (el u 0 *! el v 1 -! el u 1 *! el v 0).
(** cross_node.tpp:15-24, 50-57 *)
Definition vcross3 (u v : list T) : out (list T) :=
  check_size u 3 ;;; check_size v 3 ;;;
  Ok (elems 3 (fun i =>
    let i0 := (i + 1) mod 3 in
    let i1 := (i + 2) mod 3 in
    el u i0 *! el v i1 -! el u i1 *! el v i0)).
(** triple_product.tpp:14-23 *)
Definition vtriple (a b c : list T) : out T :=
  check_size a 3 ;;; check_size b 3 ;;; check_size c 3 ;;;
  x <- vcross3 b c ;; vdot a x.
(** matrix/outer_product_node.tpp:14-53; basis as the destination *)
Definition vouter (u v : list T) (b : basis) : mx T := Mx (length u) (length v) b (fun i j => el u i *! el v j).
(** matrix/vector_product.tpp:14-35, on matrices of elements *)
Definition mx_vec (m : mx T) (v : list T) : out (list T) :=
  require (Nat.eqb (mcols m) (length v)) EIncompatibleMatrixInnerSize ;;;
  Ok (elems (mrows m) (fun i => accumulate (length v) (fun k => mel m i k *! el v k))).
(** matrix/vector_product.tpp:37-58 *)
Definition vec_mx (v : list T) (m : mx T) : out (list T) :=
  require (Nat.eqb (length v) (mrows m)) EIncompatibleMatrixInnerSize ;;;
  Ok (elems (mcols m) (fun j => accumulate (length v) (fun k => el v k *! mel m k j))).

(** ** Length *)
(** readable_vector.tpp:55-63; scalar/functions.h sqr *)
Definition vlength_squared (v : list T) : out T :=
  check_vmin v 1 ;;; Ok (accumulate (length v) (fun i => el v i *! el v i)).
(** readable_vector.tpp:65-70 *)
Definition vlength (v : list T) : out T := l <- vlength_squared v ;; Ok (msqrt l).
(** readable_vector.tpp:72-89 (expression), writable_vector.tpp:104-117 (in place):
    the length is taken once, then every element is divided by it *)
Definition vnormalize (v : list T) : out (list T) := l <- vlength v ;; Ok (vdiv v l).

(** ** mathlib/vector/misc.tpp *)
(** 14-21 *)
Definition vproject_to_vector (u v : list T) : out (list T) :=
  d <- vdot u v ;; l <- vlength_squared v ;; Ok (vscale (d /! l) v).
(** 23-30 *)
Definition vproject_to_hplane (v n : list T) : out (list T) :=
  d <- vdot v n ;; vsub v (vscale d n).
(** 32-42 *)
Definition vperp (v : list T) : out (list T) :=
  check_size v 2 ;;; Ok [-: el v 1; el v 0].
(** 44-60 *)
Definition vmanhattan (u v : list T) : out T :=
  check_vmin u 1 ;;; check_vmin v 1 ;;; check_vsame u v ;;;
  Ok (accumulate (length u) (fun i => mfabs (el u i -! el v i))).

(** ** mathlib/vector/angle.tpp *)
(** 14-23.  C++ leaves the order of the two argument evaluations open; only which
    size exception is thrown first could depend on it. *)
Definition vsigned_angle_2D (u v : list T) : out T :=
  p <- vperp_dot u v ;; d <- vdot u v ;; Ok (matan2 p d).
(** 25-33 *)
Definition vunsigned_angle_2D (u v : list T) : out T :=
  a <- vsigned_angle_2D u v ;; Ok (mfabs a).
(** 35-47 *)
Definition vsigned_angle (u v r : list T) : out T :=
  c <- vcross3 u v ;;
  l <- vlength c ;; d <- vdot u v ;;
  let angle := matan2 l d in
  cr <- vdot c r ;;
  Ok (if ltb cr zero then -: angle else angle).
(** 49-57 *)
Definition vunsigned_angle (u v : list T) : out T :=
  c <- vcross3 u v ;; l <- vlength c ;; d <- vdot u v ;; Ok (matan2 l d).

(** ** mathlib/vector/orthonormal.tpp *)
(** the temporaries axes[0..n-1]; [] stands for one not yet assigned *)
Definition put_axis (axes : list (list T)) (i : nat) (v : list T) : list (list T) :=
  firstn i axes ++ v :: skipn (S i) axes.
Definition get_axis (axes : list (list T)) (i : nat) : list T := nth i axes [].
(** assignment to a compiled<n> temporary: vector/detail/check_or_resize.h *)
Definition to_fixed (n : nat) (v : list T) : out (list T) :=
  require (Nat.eqb (length v) n) EIncompatibleVectorSize ;;; Ok v.
(** 18-46: the pair (x, y) *)
Definition vorthonormal_basis_2D (align : list T) (normalize_align : bool) (order : Z) : out (list T * list T) :=
  let '(i, j, odd) := unpack_axis2D order in
  let i := Z.to_nat i in
  let j := Z.to_nat j in
  let axes := [[]; []] in
  a <- to_fixed 2 align ;;
  a <- (if normalize_align then vnormalize a else Ok a) ;;
  let axes := put_axis axes i a in
  p <- vperp (get_axis axes i) ;;
  let axes := put_axis axes j p in
  let axes := if odd then put_axis axes j (vneg (get_axis axes j)) else axes in
  Ok (get_axis axes 0, get_axis axes 1).
(** 48-79: the triple (x, y, z) *)
Definition vorthonormal_basis (align reference : list T) (normalize_align : bool) (order : Z) : out (list T * list T * list T) :=
  let '(i, j, k, odd) := unpack_axis order in
  let i := Z.to_nat i in
  let j := Z.to_nat j in
  let k := Z.to_nat k in
  let axes := [[]; []; []] in
  a <- to_fixed 3 align ;;
  a <- (if normalize_align then vnormalize a else Ok a) ;;
  let axes := put_axis axes i a in
  c <- vcross3 (get_axis axes i) reference ;;
  c <- vnormalize c ;;
  let axes := put_axis axes k c in
  d <- vcross3 (get_axis axes k) (get_axis axes i) ;;
  let axes := put_axis axes j d in
  let axes := if odd then put_axis axes k (vneg (get_axis axes k)) else axes in
  Ok (get_axis axes 0, get_axis axes 1, get_axis axes 2).
End Vectors.
