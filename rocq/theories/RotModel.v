(** Rotations: mathlib/matrix/rotation.tpp, mathlib/quaternion/rotation.tpp,
    mathlib/quaternion/basis.tpp, mathlib/vector/rotation.tpp, mathlib/matrix/misc.tpp.

    A matrix is its sizes, basis orientation and elements (PropMat.v shows that
    layout and storage are not observable, and what set_basis_element writes).
    Vectors are lists.  Results written through references are returned. *)
From Coq Require Import List Bool Arith ZArith.
From Verif Require Import Base ScalarModel MiscModel QuatModel.
Import ListNotations.
Open Scope nat_scope.

Record mx (T : Type) : Type := Mx { mrows : nat; mcols : nat; mbasis : basis; mel : nat -> nat -> T }.
Arguments Mx {T}. Arguments mrows {T}. Arguments mcols {T}. Arguments mbasis {T}. Arguments mel {T}.

Section Rotations.
Context {T : Type} {Op : Ops T} {MO : MathOps T}.
Local Infix "+!" := add (at level 50, left associativity).
Local Infix "-!" := sub (at level 50, left associativity).
Local Infix "*!" := mul (at level 40, left associativity).
Local Infix "/!" := div (at level 40, left associativity).
Local Notation "-: x" := (neg x) (at level 35).

(** matrix/readable_matrix.tpp basis_element, writable_matrix.tpp set_basis_element *)
Definition be (m : mx T) (i j : nat) : T :=
  match mbasis m with row_basis => mel m i j | col_basis => mel m j i end.
Definition set_el (m : mx T) (i j : nat) (v : T) : mx T :=
  Mx (mrows m) (mcols m) (mbasis m) (fun a b => if Nat.eqb a i && Nat.eqb b j then v else mel m a b).
Definition set_be (m : mx T) (i j : nat) (v : T) : mx T :=
  match mbasis m with row_basis => set_el m i j v | col_basis => set_el m j i v end.
(** writable_matrix.tpp:151-158, 169-176 *)
Definition mx_zero (m : mx T) : mx T := Mx (mrows m) (mcols m) (mbasis m) (fun _ _ => zero).
Definition mx_identity (m : mx T) : mx T :=
  Mx (mrows m) (mcols m) (mbasis m) (fun a b => if Nat.eqb a b then one else zero).
(** matrix/size_checking.tpp:323-349; mathlib/matrix/size_checking.tpp check_linear_2D/3D *)
Definition check_minimum_size (m : mx T) (r c : nat) : out unit :=
  require (Nat.leb r (mrows m) && Nat.leb c (mcols m)) EMinimumMatrixSize.
Definition check_linear_2D (m : mx T) := check_minimum_size m 2 2.
Definition check_linear_3D (m : mx T) := check_minimum_size m 3 3.
(** vector/size_checking.tpp check_size *)
Definition check_size (v : list T) (n : nat) : out unit := require (Nat.eqb (length v) n) EVectorSize.
Definition el (v : list T) (i : nat) : T := nth i v zero.
(** mathlib/matrix/misc.tpp:15-30.  The callers in rotation.tpp have already made the size check of
    [trace_3x3]; the functions as a user calls them are [checked_trace_2x2] and [checked_trace_3x3]. *)
Definition trace_2x2 (m : mx T) : T := mel m 0 0 +! mel m 1 1.
Definition trace_3x3 (m : mx T) : T := mel m 0 0 +! mel m 1 1 +! mel m 2 2.
Definition checked_trace_2x2 (m : mx T) : out T := check_linear_2D m ;;; Ok (trace_2x2 m).
Definition checked_trace_3x3 (m : mx T) : out T := check_linear_3D m ;;; Ok (trace_3x3 m).
(** mathlib/matrix/misc.tpp:32-47 *)
Definition matrix_skew_symmetric (m : mx T) (v : list T) : out (mx T) :=
  check_linear_3D m ;;; check_size v 3 ;;;
  let m := mx_zero m in
  let m := set_be m 1 2 (el v 0) in
  let m := set_be m 2 1 (-: el v 0) in
  let m := set_be m 2 0 (el v 1) in
  let m := set_be m 0 2 (-: el v 1) in
  let m := set_be m 0 1 (el v 2) in
  Ok (set_be m 1 0 (-: el v 2)).
(** mathlib/matrix/misc.tpp:49-58 *)
Definition matrix_skew_symmetric_2D (m : mx T) (s : T) : out (mx T) :=
  check_linear_2D m ;;;
  Ok (set_be (set_be (mx_zero m) 0 1 s) 1 0 (-: s)).

(** ** matrix/rotation.tpp *)
(** 22-44 *)
Definition matrix_rotation_2D (m : mx T) (angle : T) : out (mx T) :=
  check_linear_2D m ;;;
  let m := mx_identity m in
  let s := msin angle in
  let c := mcos angle in
  let m := set_be m 0 0 c in
  let m := set_be m 0 1 s in
  let m := set_be m 1 0 (-: s) in
  Ok (set_be m 1 1 c).
(** 70-97 *)
Definition matrix_rotation_world_axis (m : mx T) (axis : Z) (angle : T) : out (mx T) :=
  check_linear_3D m ;;;
  require (Z.leb 0 axis && Z.leb axis 2) EInvalidArgument ;;;
  '(i, j, k) <- cyclic_permutation3 axis ;;
  let j := Z.to_nat j in
  let k := Z.to_nat k in
  let s := msin angle in
  let c := mcos angle in
  let m := mx_identity m in
  let m := set_be m j j c in
  let m := set_be m j k s in
  let m := set_be m k j (-: s) in
  Ok (set_be m k k c).
(** 119-167 *)
Definition matrix_rotation_axis_angle (m : mx T) (axis : list T) (angle : T) : out (mx T) :=
  check_linear_3D m ;;; check_size axis 3 ;;;
  let m := mx_identity m in
  let s := msin angle in
  let c := mcos angle in
  let omc := one -! c in
  let xomc := el axis 0 *! omc in
  let yomc := el axis 1 *! omc in
  let zomc := el axis 2 *! omc in
  let xxomc := el axis 0 *! xomc in
  let yyomc := el axis 1 *! yomc in
  let zzomc := el axis 2 *! zomc in
  let xyomc := el axis 0 *! yomc in
  let yzomc := el axis 1 *! zomc in
  let zxomc := el axis 2 *! xomc in
  let xs := el axis 0 *! s in
  let ys := el axis 1 *! s in
  let zs := el axis 2 *! s in
  let m := set_be m 0 0 (xxomc +! c) in
  let m := set_be m 0 1 (xyomc +! zs) in
  let m := set_be m 0 2 (zxomc -! ys) in
  let m := set_be m 1 0 (xyomc -! zs) in
  let m := set_be m 1 1 (yyomc +! c) in
  let m := set_be m 1 2 (yzomc +! xs) in
  let m := set_be m 2 0 (zxomc +! ys) in
  let m := set_be m 2 1 (yzomc -! xs) in
  Ok (set_be m 2 2 (zzomc +! c)).
(** 168-229 *)
Definition matrix_rotation_euler (m : mx T) (angle_0 angle_1 angle_2 : T) (order : Z) : out (mx T) :=
  check_linear_3D m ;;;
  let m := mx_identity m in
  let a := unpack_euler order in
  let i := Z.to_nat (ea_i a) in
  let j := Z.to_nat (ea_j a) in
  let k := Z.to_nat (ea_k a) in
  let odd := ea_odd a in
  let angle_0 := if odd then -: angle_0 else angle_0 in
  let angle_1 := if odd then -: angle_1 else angle_1 in
  let angle_2 := if odd then -: angle_2 else angle_2 in
  let s0 := msin angle_0 in
  let c0 := mcos angle_0 in
  let s1 := msin angle_1 in
  let c1 := mcos angle_1 in
  let s2 := msin angle_2 in
  let c2 := mcos angle_2 in
  let s0s2 := s0 *! s2 in
  let s0c2 := s0 *! c2 in
  let c0s2 := c0 *! s2 in
  let c0c2 := c0 *! c2 in
  if ea_repeat a then
    let m := set_be m i i c1 in
    let m := set_be m i j (s1 *! s2) in
    let m := set_be m i k ((-: s1) *! c2) in
    let m := set_be m j i (s0 *! s1) in
    let m := set_be m j j ((-: c1) *! s0s2 +! c0c2) in
    let m := set_be m j k (c1 *! s0c2 +! c0s2) in
    let m := set_be m k i (c0 *! s1) in
    let m := set_be m k j ((-: c1) *! c0s2 -! s0c2) in
    Ok (set_be m k k (c1 *! c0c2 -! s0s2))
  else
    let m := set_be m i i (c1 *! c2) in
    let m := set_be m i j (c1 *! s2) in
    let m := set_be m i k (-: s1) in
    let m := set_be m j i (s1 *! s0c2 -! c0s2) in
    let m := set_be m j j (s1 *! s0s2 +! c0c2) in
    let m := set_be m j k (s0 *! c1) in
    let m := set_be m k i (s1 *! c0c2 +! s0s2) in
    let m := set_be m k j (s1 *! c0s2 -! s0c2) in
    Ok (set_be m k k (c0 *! c1)).
(** 240-314 *)
Definition matrix_rotation_euler_derivatives (m : mx T) (axis : Z) (angle_0 angle_1 angle_2 : T) (order : Z) : out (mx T) :=
  require (Z.leb 0 axis && Z.leb axis 2) EInvalidArgument ;;;
  check_linear_3D m ;;;
  let m := mx_identity m in
  let a := unpack_euler order in
  let i := Z.to_nat (ea_i a) in
  let j := Z.to_nat (ea_j a) in
  let k := Z.to_nat (ea_k a) in
  let odd := ea_odd a in
  require (negb (ea_repeat a)) EInvalidArgument ;;;
  let angle_0 := if odd then -: angle_0 else angle_0 in
  let angle_1 := if odd then -: angle_1 else angle_1 in
  let angle_2 := if odd then -: angle_2 else angle_2 in
  let s0 := msin angle_0 in
  let c0 := mcos angle_0 in
  let s1 := msin angle_1 in
  let c1 := mcos angle_1 in
  let s2 := msin angle_2 in
  let c2 := mcos angle_2 in
  let s0s2 := s0 *! s2 in
  let s0c2 := s0 *! c2 in
  let c0s2 := c0 *! s2 in
  let c0c2 := c0 *! c2 in
  if Z.eqb axis 0 then
    let m := set_be m i i zero in
    let m := set_be m i j zero in
    let m := set_be m i k zero in
    let m := set_be m j i (s1 *! c0c2 +! s0s2) in
    let m := set_be m j j (s1 *! c0s2 -! s0c2) in
    let m := set_be m j k (c0 *! c1) in
    let m := set_be m k i ((-: s1) *! s0c2 +! c0s2) in
    let m := set_be m k j ((-: s1) *! s0s2 -! c0c2) in
    Ok (set_be m k k ((-: s0) *! c1))
  else if Z.eqb axis 1 then
    let m := set_be m i i ((-: s1) *! c2) in
    let m := set_be m i j ((-: s1) *! s2) in
    let m := set_be m i k (-: c1) in
    let m := set_be m j i (c1 *! s0c2) in
    let m := set_be m j j (c1 *! s0s2) in
    let m := set_be m j k ((-: s0) *! s1) in
    let m := set_be m k i (c1 *! c0c2) in
    let m := set_be m k j (c1 *! c0s2) in
    Ok (set_be m k k ((-: c0) *! s1))
  else if Z.eqb axis 2 then
    let m := set_be m i i ((-: c1) *! s2) in
    let m := set_be m i j (c1 *! c2) in
    let m := set_be m i k zero in
    let m := set_be m j i ((-: s1) *! s0s2 -! c0c2) in
    let m := set_be m j j (s1 *! s0c2 -! c0s2) in
    let m := set_be m j k zero in
    let m := set_be m k i ((-: s1) *! c0s2 +! s0c2) in
    let m := set_be m k j (s1 *! c0c2 +! s0s2) in
    Ok (set_be m k k zero)
  else Ok m.
(** 326-374 *)
Definition matrix_rotation_quaternion (m : mx T) (o : order) (q : quat T) : out (mx T) :=
  check_linear_3D m ;;;
  let W := qget q (oW o) in
  let X := qget q (oX o) in
  let Y := qget q (oY o) in
  let Z := qget q (oZ o) in
  let x2 := X +! X in
  let y2 := Y +! Y in
  let z2 := Z +! Z in
  let xx2 := X *! x2 in
  let yy2 := Y *! y2 in
  let zz2 := Z *! z2 in
  let xy2 := X *! y2 in
  let yz2 := Y *! z2 in
  let zx2 := Z *! x2 in
  let xw2 := W *! x2 in
  let yw2 := W *! y2 in
  let zw2 := W *! z2 in
  let m := mx_identity m in
  let m := set_be m 0 0 (one -! yy2 -! zz2) in
  let m := set_be m 0 1 (xy2 +! zw2) in
  let m := set_be m 0 2 (zx2 -! yw2) in
  let m := set_be m 1 0 (xy2 -! zw2) in
  let m := set_be m 1 1 (one -! zz2 -! xx2) in
  let m := set_be m 1 2 (yz2 +! xw2) in
  let m := set_be m 2 0 (zx2 +! yw2) in
  let m := set_be m 2 1 (yz2 -! xw2) in
  Ok (set_be m 2 2 (one -! xx2 -! yy2)).
(** 409-471: returns (axis, angle) *)
Definition vput (v : list T) (i : nat) (x : T) : list T :=
  match i, v with
  | 0, a :: r => x :: r
  | 1, a :: b :: r => a :: x :: r
  | 2, a :: b :: c :: r => a :: b :: x :: r
  | _, _ => v
  end.
Definition len3 (v : list T) : T := msqrt (el v 0 *! el v 0 +! el v 1 *! el v 1 +! el v 2 *! el v 2).
Definition matrix_to_axis_angle (m : mx T) (tolerance : T) : out (list T * T) :=
  check_linear_3D m ;;;
  let axis := [be m 1 2 -! be m 2 1; be m 2 0 -! be m 0 2; be m 0 1 -! be m 1 0] in
  let l := len3 axis in
  let tmo := trace_3x3 m -! one in
  if ltb tolerance l then Ok (map (fun x => x /! l) axis, matan2 l tmo)
  else if ltb zero tmo then Ok ([zero; zero; zero], zero)
  else
    let largest := index_of_max3 (be m 0 0) (be m 1 1) (be m 2 2) in
    '(i, j, k) <- cyclic_permutation3 (Z.of_nat largest) ;;
    let i := Z.to_nat i in
    let j := Z.to_nat j in
    let k := Z.to_nat k in
    let axis := vput axis i (msqrt (be m i i -! be m j j -! be m k k +! one) /! two) in
    let s := one /! (two *! el axis i) in
    let axis := vput axis j (be m i j *! s) in
    let axis := vput axis k (be m i k *! s) in
    Ok (axis, mpi).
(** 502-561: returns the three angles *)
Definition matrix_to_euler (m : mx T) (order : Z) (tolerance : T) : out (T * T * T) :=
  check_linear_3D m ;;;
  let a := unpack_euler order in
  let i := Z.to_nat (ea_i a) in
  let j := Z.to_nat (ea_j a) in
  let k := Z.to_nat (ea_k a) in
  let angles :=
    if ea_repeat a then
      let s1 := length2 (be m j i) (be m k i) in
      let c1 := be m i i in
      let angle_1 := matan2 s1 c1 in
      if ltb tolerance s1 then
        (matan2 (be m j i) (be m k i), angle_1, matan2 (be m i j) (-: be m i k))
      else
        (zero, angle_1, sign c1 *! matan2 (-: be m k j) (be m j j))
    else
      let s1 := -: be m i k in
      let c1 := length2 (be m i i) (be m i j) in
      let angle_1 := matan2 s1 c1 in
      if ltb tolerance c1 then
        (matan2 (be m j k) (be m k k), angle_1, matan2 (be m i j) (be m i i))
      else
        (zero, angle_1, -: (sign s1 *! matan2 (-: be m k j) (be m j j))) in
  let '(a0, a1, a2) := angles in
  Ok (if ea_odd a then (-: a0, -: a1, -: a2) else (a0, a1, a2)).

(** ** quaternion/rotation.tpp *)
(** 20-36 *)
Definition quaternion_rotation_world_axis (o : order) (q : quat T) (axis : Z) (angle : T) : out (quat T) :=
  require (Z.leb 0 axis && Z.leb axis 2) EInvalidArgument ;;;
  let q := q_identity o q in
  let q := qput (oW o) (mcos (angle /! two)) q in
  Ok (qput (oX o + Z.to_nat axis) (msin (angle /! two)) q).
(** 58-74 *)
Definition quaternion_rotation_axis_angle (o : order) (q : quat T) (axis : list T) (angle : T) : out (quat T) :=
  check_size axis 3 ;;;
  q_set o (mcos (angle /! two)) (map (fun x => x *! msin (angle /! two)) axis) q.
(** 75-126 *)
Definition quarter : T := one /! (two +! two).
Definition quaternion_rotation_matrix (o : order) (q : quat T) (m : mx T) : out (quat T) :=
  check_minimum_size m 3 3 ;;;
  let tr := trace_3x3 m in
  if ltb zero tr || eqb tr zero then (* tr >= 0, false for a NaN *)
    let q := qput (oW o) (msqrt (tr +! one) /! two) q in
    let s := quarter /! qget q (oW o) in
    let q := qput (oX o) ((be m 1 2 -! be m 2 1) *! s) q in
    let q := qput (oY o) ((be m 2 0 -! be m 0 2) *! s) q in
    Ok (qput (oZ o) ((be m 0 1 -! be m 1 0) *! s) q)
  else
    let largest := index_of_max3 (be m 0 0) (be m 1 1) (be m 2 2) in
    '(i, j, k) <- cyclic_permutation3 (Z.of_nat largest) ;;
    let i := Z.to_nat i in
    let j := Z.to_nat j in
    let k := Z.to_nat k in
    let I := oX o + i in
    let J := oX o + j in
    let K := oX o + k in
    let q := qput I (msqrt (be m i i -! be m j j -! be m k k +! one) /! two) q in
    let s := quarter /! qget q I in
    let q := qput J ((be m i j +! be m j i) *! s) q in
    let q := qput K ((be m i k +! be m k i) *! s) q in
    Ok (qput (oW o) ((be m j k -! be m k j) *! s) q).
(** 128-182 *)
Definition quaternion_rotation_euler (o : order) (q : quat T) (angle_0 angle_1 angle_2 : T) (eo : Z) : quat T :=
  let a := unpack_euler eo in
  let W := oW o in
  let I := oX o + Z.to_nat (ea_i a) in
  let J := oX o + Z.to_nat (ea_j a) in
  let K := oX o + Z.to_nat (ea_k a) in
  let odd := ea_odd a in
  let angle_1 := if odd then -: angle_1 else angle_1 in
  let angle_0 := angle_0 /! two in
  let angle_1 := angle_1 /! two in
  let angle_2 := angle_2 /! two in
  let s0 := msin angle_0 in
  let c0 := mcos angle_0 in
  let s1 := msin angle_1 in
  let c1 := mcos angle_1 in
  let s2 := msin angle_2 in
  let c2 := mcos angle_2 in
  let s0s2 := s0 *! s2 in
  let s0c2 := s0 *! c2 in
  let c0s2 := c0 *! s2 in
  let c0c2 := c0 *! c2 in
  let q :=
    if ea_repeat a then
      let q := qput I (c1 *! (c0s2 +! s0c2)) q in
      let q := qput J (s1 *! (c0c2 +! s0s2)) q in
      let q := qput K (s1 *! (c0s2 -! s0c2)) q in
      qput W (c1 *! (c0c2 -! s0s2)) q
    else
      let q := qput I (c1 *! s0c2 -! s1 *! c0s2) q in
      let q := qput J (c1 *! s0s2 +! s1 *! c0c2) q in
      let q := qput K (c1 *! c0s2 -! s1 *! s0c2) q in
      qput W (c1 *! c0c2 +! s1 *! s0s2) q in
  if odd then qput J (-: qget q J) q else q.
(** 225-248 *)
Definition quaternion_to_axis_angle (o : order) (q : quat T) (tolerance : T) : list T * T :=
  let axis := [imag o (qget q) 0; imag o (qget q) 1; imag o (qget q) 2] in
  let l := len3 axis in
  if ltb tolerance l then (map (fun x => x /! l) axis, two *! matan2 l (qget q (oW o)))
  else ([zero; zero; zero], zero).
(** 280-321; the temporary is a 3x3 matrix<value_type, compiled<3,3>> (column basis
    by default, matrix/matrix.h:36-37) *)
Definition tmp33 : mx T := Mx 3 3 col_basis (fun _ _ => zero).
Definition quaternion_to_euler (o : order) (q : quat T) (eo : Z) (tolerance : T) : out (T * T * T) :=
  m <- matrix_rotation_quaternion tmp33 o q ;; matrix_to_euler m eo tolerance.
(** quaternion/basis.tpp:13-39 *)
Definition quaternion_get_basis_vector (o : order) (q : quat T) (i : Z) : out (list T) :=
  require (Z.leb 0 i && Z.leb i 2) EInvalidArgument ;;;
  let j := Z.to_nat (Z.rem (i + 1) 3) in
  let k := Z.to_nat (Z.rem (i + 2) 3) in
  let i := Z.to_nat i in
  let W := qget q (oW o) in
  let I := qget q (oX o + i) in
  let J := qget q (oX o + j) in
  let K := qget q (oX o + k) in
  let j2 := J +! J in
  let k2 := K +! K in
  let b := [zero; zero; zero] in
  let b := vput b i (one -! J *! j2 -! K *! k2) in
  let b := vput b j (I *! j2 +! W *! k2) in
  Ok (vput b k (I *! k2 -! W *! j2)).

(** ** vector/rotation.tpp:13-35 *)
Definition vcross (a b : list T) (i : nat) : T := cross3 (el a) (el b) i.
Definition rotate_vector (v n : list T) (angle : T) : out (list T) :=
  check_size v 3 ;;; check_size n 3 ;;;
  let d := dot3 (el v) (el n) in
  let par i := el n i *! d in
  let s := msin angle in
  let c := mcos angle in
  let r i := (el v i -! par i) *! c +! vcross n v i *! s +! par i in
  Ok [r 0; r 1; r 2].
End Rotations.
