(** What the matrix builders have already written when they throw.

    XfModel.v and RotModel.v return a matrix or an exception.  Here the same functions run statement by
    statement on the caller's matrix, and end with that matrix and an outcome.  Arguments are values
    (AliasModel.v has arguments that refer to the matrix). *)
From Coq Require Import List Bool Arith ZArith.
From Verif Require Import Base ScalarModel MiscModel QuatModel RotModel VecModel XfModel.
Import ListNotations.
Open Scope nat_scope.

Section Fail.
Context {T : Type} {Op : Ops T} {MO : MathOps T}.
Local Infix "+!" := add (at level 50, left associativity).
Local Infix "-!" := sub (at level 50, left associativity).
Local Infix "*!" := mul (at level 40, left associativity).
Local Infix "/!" := div (at level 40, left associativity).
Local Notation "-: x" := (neg x) (at level 35).

(** a statement: from the matrix before it to the matrix after it, and how it ended *)
Definition stmt (A : Type) : Type := mx T -> mx T * out A.
Definition seqs {A B : Type} (a : stmt A) (f : A -> stmt B) : stmt B := fun m =>
  match a m with
  | (m', Ok x) => f x m'
  | (m', Throw e) => (m', Throw e)
  | (m', UB) => (m', UB)
  end.
(** a check, or an expression evaluated into a temporary: the matrix is read only *)
Definition look {A : Type} (f : mx T -> out A) : stmt A := fun m => (m, f m).
(** m.identity(), m.zero() *)
Definition identity_ : stmt unit := fun m => (mx_identity m, Ok tt).
Definition zero_ : stmt unit := fun m => (mx_zero m, Ok tt).
(** m.set_basis_element(i, j, x), and several in turn *)
Definition put_ (i j : nat) (x : T) : stmt unit := fun m => (set_be m i j x, Ok tt).
Fixpoint puts_ (l : list (nat * nat * T)) : stmt unit :=
  match l with [] => fun m => (m, Ok tt) | (i, j, x) :: l => seqs (put_ i j x) (fun _ => puts_ l) end.
Local Notation "x <~ a ~; b" := (seqs a (fun x => b)) (at level 100, a at next level, right associativity).
Local Notation "' p <~ a ~; b" := (seqs a (fun p => b)) (at level 100, p pattern, a at next level, right associativity).
Local Notation "a ~; b" := (seqs a (fun _ => b)) (at level 100, right associativity).

(** ** matrix/basis.tpp *)
(** 17-28, 30-53 *)
Definition f_set_basis_vector_2D (i : Z) (v : list T) : stmt unit :=
  look check_linear_2D ~; look (fun _ => check_size v 2) ~; i <~ look (fun _ => axis_index 2 i) ~;
  put_ i 0 (el v 0) ~; put_ i 1 (el v 1).
Definition f_set_basis_vectors_2D (x y : list T) : stmt unit :=
  f_set_basis_vector_2D 0 x ~; f_set_basis_vector_2D 1 y.
(** 167-180, 181-214 *)
Definition f_set_basis_vector (i : Z) (v : list T) : stmt unit :=
  look check_linear_3D ~; look (fun _ => check_size v 3) ~; i <~ look (fun _ => axis_index 3 i) ~;
  put_ i 0 (el v 0) ~; put_ i 1 (el v 1) ~; put_ i 2 (el v 2).
Definition f_set_basis_vectors (x y z : list T) : stmt unit :=
  f_set_basis_vector 0 x ~; f_set_basis_vector 1 y ~; f_set_basis_vector 2 z.
(** 216-229, 230-263 *)
Definition f_set_transposed_basis_vector (i : Z) (v : list T) : stmt unit :=
  look check_linear_3D ~; look (fun _ => check_size v 3) ~; i <~ look (fun _ => axis_index 3 i) ~;
  put_ 0 i (el v 0) ~; put_ 1 i (el v 1) ~; put_ 2 i (el v 2).
Definition f_set_transposed_basis_vectors (x y z : list T) : stmt unit :=
  f_set_transposed_basis_vector 0 x ~; f_set_transposed_basis_vector 1 y ~; f_set_transposed_basis_vector 2 z.

(** ** matrix/translation.tpp *)
(** 51-67, 95-109 *)
Definition f_set_translation_2D (e0 e1 : T) : stmt unit := look check_affine_2D ~; put_ 2 0 e0 ~; put_ 2 1 e1.
Definition f_set_translation_2D_v (v : list T) : stmt unit :=
  look (fun _ => check_size v 2) ~; f_set_translation_2D (el v 0) (el v 1).
Definition f_translation_2D (e0 e1 : T) : stmt unit := identity_ ~; f_set_translation_2D e0 e1.
Definition f_translation_2D_v (v : list T) : stmt unit := identity_ ~; f_set_translation_2D_v v.
(** 113-140, 170-193 *)
Definition f_set_translation (e0 e1 e2 : T) : stmt unit :=
  look check_affine_3D ~; put_ 3 0 e0 ~; put_ 3 1 e1 ~; put_ 3 2 e2.
Definition f_set_translation_v (v : list T) : stmt unit :=
  look (fun _ => check_size_range v 2 3) ~;
  f_set_translation (el v 0) (el v 1) (if Nat.eqb (length v) 3 then el v 2 else zero).
Definition f_translation (e0 e1 e2 : T) : stmt unit := identity_ ~; f_set_translation e0 e1 e2.
Definition f_translation_xy (e0 e1 : T) : stmt unit := identity_ ~; f_set_translation e0 e1 zero.
Definition f_translation_v (v : list T) : stmt unit := identity_ ~; f_set_translation_v v.

(** ** matrix/scale.tpp *)
(** 17-36 *)
Definition f_scale_2D (e0 e1 : T) : stmt unit := look check_affine_2D ~; identity_ ~; put_ 0 0 e0 ~; put_ 1 1 e1.
Definition f_scale_2D_v (v : list T) : stmt unit := look (fun _ => check_size v 2) ~; f_scale_2D (el v 0) (el v 1).
(** 63-84 *)
Definition f_scale (e0 e1 e2 : T) : stmt unit :=
  look check_affine_3D ~; identity_ ~; put_ 0 0 e0 ~; put_ 1 1 e1 ~; put_ 2 2 e2.
Definition f_scale_v (v : list T) : stmt unit := look (fun _ => check_size v 3) ~; f_scale (el v 0) (el v 1) (el v 2).

(** ** matrix/misc.tpp:32-58 *)
Definition f_skew_symmetric (v : list T) : stmt unit :=
  look check_linear_3D ~; look (fun _ => check_size v 3) ~; zero_ ~;
  puts_ [(1, 2, el v 0); (2, 1, -: el v 0); (2, 0, el v 1); (0, 2, -: el v 1); (0, 1, el v 2); (1, 0, -: el v 2)].
Definition f_skew_symmetric_2D (s : T) : stmt unit :=
  look check_linear_2D ~; zero_ ~; puts_ [(0, 1, s); (1, 0, -: s)].

(** ** matrix/rotation.tpp *)
(** 22-44 *)
Definition f_rotation_2D (angle : T) : stmt unit :=
  look check_linear_2D ~; identity_ ~;
  let s := msin angle in
  let c := mcos angle in
  puts_ [(0, 0, c); (0, 1, s); (1, 0, -: s); (1, 1, c)].
(** 70-97 *)
Definition f_rotation_world_axis (axis : Z) (angle : T) : stmt unit :=
  look check_linear_3D ~; look (fun _ => require (Z.leb 0 axis && Z.leb axis 2) EInvalidArgument) ~;
  p <~ look (fun _ => cyclic_permutation3 axis) ~;
  let j := Z.to_nat (snd (fst p)) in
  let k := Z.to_nat (snd p) in
  let s := msin angle in
  let c := mcos angle in
  identity_ ~; puts_ [(j, j, c); (j, k, s); (k, j, -: s); (k, k, c)].
(** 119-167 *)
Definition f_rotation_axis_angle (axis : list T) (angle : T) : stmt unit :=
  look check_linear_3D ~; look (fun _ => check_size axis 3) ~; identity_ ~;
  let s := msin angle in
  let c := mcos angle in
  let omc := one -! c in
  let xomc := el axis 0 *! omc in
  let yomc := el axis 1 *! omc in
  let zomc := el axis 2 *! omc in
  let xxomc := el axis 0 *! xomc in
  let yyomc := el axis 1 *! yomc in
  let zzomc := el axis 2 *! zomc in
  let xyomc := el axis 0 *! yomc in
  let yzomc := el axis 1 *! zomc in
  let zxomc := el axis 2 *! xomc in
  let xs := el axis 0 *! s in
  let ys := el axis 1 *! s in
  let zs := el axis 2 *! s in
  puts_ [(0, 0, xxomc +! c); (0, 1, xyomc +! zs); (0, 2, zxomc -! ys);
         (1, 0, xyomc -! zs); (1, 1, yyomc +! c); (1, 2, yzomc +! xs);
         (2, 0, zxomc +! ys); (2, 1, yzomc -! xs); (2, 2, zzomc +! c)].
(** 240-314: the axis and the size are checked before identity(), the order after it.  The elements written
    afterwards are those of RotModel.v. *)
Definition f_rotation_euler_derivatives (axis : Z) (angle_0 angle_1 angle_2 : T) (order : Z) : stmt unit :=
  look (fun _ => require (Z.leb 0 axis && Z.leb axis 2) EInvalidArgument) ~; look check_linear_3D ~; identity_ ~;
  look (fun _ => require (negb (ea_repeat (unpack_euler order))) EInvalidArgument) ~;
  (fun m => match matrix_rotation_euler_derivatives m axis angle_0 angle_1 angle_2 order with
            | Ok m' => (m', Ok tt) | Throw e => (m, Throw e) | UB => (m, UB) end).
(** 46-66 *)
Definition f_rotation_align_2D (align : list T) (normalize : bool) (order : Z) : stmt unit :=
  look check_linear_2D ~; identity_ ~;
  p <~ look (fun _ => vorthonormal_basis_2D align normalize order) ~;
  f_set_basis_vectors_2D (fst p) (snd p).
(** 378-395: no size check of the matrix before identity() *)
Definition f_rotation_align (align reference : list T) (normalize : bool) (order : Z) : stmt unit :=
  identity_ ~;
  p <~ look (fun _ => vorthonormal_basis align reference normalize order) ~;
  f_set_basis_vectors (fst (fst p)) (snd (fst p)) (snd p).
(** 397-405: target - pos is formed (and its sizes are checked) before the call *)
Definition f_rotation_aim_at (pos target reference : list T) (order : Z) : stmt unit :=
  d <~ look (fun _ => vsub target pos) ~; f_rotation_align d reference true order.

(** ** matrix/transform.tpp *)
(** 22-43 *)
Definition f_look_at (position target up : list T) (h : handedness) : stmt unit :=
  look check_affine_3D ~; identity_ ~;
  let s := match h with left_handed => one | right_handed => -: one end in
  d <~ look (fun _ => vsub target position) ~; d <~ look (fun _ => vnormalize d) ~;
  let z := vscale s d in
  x <~ look (fun _ => vcross3 up z) ~; x <~ look (fun _ => vnormalize x) ~;
  y <~ look (fun _ => vcross3 z x) ~;
  f_set_transposed_basis_vectors x y z ~;
  px <~ look (fun _ => vdot position x) ~; py <~ look (fun _ => vdot position y) ~; pz <~ look (fun _ => vdot position z) ~;
  f_set_translation (-: px) (-: py) (-: pz).
(** 65-82: the nine elements in turn *)
Definition f_linear_transform (l : mx T) : stmt unit :=
  look check_linear_3D ~; look (fun _ => check_linear_3D l) ~; identity_ ~;
  puts_ (flat_map (fun i => map (fun j => (i, j, be l i j)) (seq 0 3)) (seq 0 3)).
(** 86-99 *)
Definition f_affine_transform_axis (axis : list T) (angle : T) (t : list T) (normalize : bool) : stmt unit :=
  look check_affine_3D ~;
  axis <~ look (fun _ => if normalize then vnormalize axis else Ok axis) ~;
  f_rotation_axis_angle axis angle ~; f_set_translation_v t.
(** 101-109 *)
Definition f_affine_transform (l : mx T) (t : list T) : stmt unit :=
  look check_affine_3D ~; f_linear_transform l ~; f_set_translation_v t.

(** ** matrix/invert.tpp:27-42 *)
Definition f_invert_RT_only : stmt unit :=
  look check_affine_3D ~;
  x <~ look (fun m => matrix_get_basis_vector m 0) ~; y <~ look (fun m => matrix_get_basis_vector m 1) ~;
  z <~ look (fun m => matrix_get_basis_vector m 2) ~;
  f_set_transposed_basis_vectors x y z ~;
  p <~ look matrix_get_translation ~;
  px <~ look (fun _ => vdot p x) ~; py <~ look (fun _ => vdot p y) ~; pz <~ look (fun _ => vdot p z) ~;
  f_set_translation (-: px) (-: py) (-: pz).

(** ** quaternion/rotation.tpp:20-36, 58-74, 75-126, 195-221 are already statement by statement in RotModel.v and XfModel.v;
    they write the quaternion only after their last check, through [qput]. *)
End Fail.
Arguments stmt : clear implicits.
