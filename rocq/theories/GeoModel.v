(** Projections, frustum planes, coordinate conversions and random unit vectors:
    cml/mathlib/matrix/projection.tpp, cml/mathlib/{frustum,coordinate_conversion,
    random_unit}.tpp.

    Matrices are those of RotModel.v, vectors are lists, results written through
    references are returned.  Every operand has the same scalar type.  The code below
    #if 0 in projection.tpp and frustum.tpp is not compiled and not modelled. *)
From Coq Require Import List Bool Arith ZArith.
From Verif Require Import Base ScalarModel MiscModel RotModel VecModel XfModel.
Import ListNotations.
Open Scope nat_scope.

(** mathlib/constants.h:20-24 *)
Inductive zclip : Type := z_clip_neg_one | z_clip_zero.
(** mathlib/coordinate_conversion.h:18-22 *)
Inductive latitude_type : Type := latitude | colatitude.

Section Geometry.
Context {T : Type} {Op : Ops T} {MO : MathOps T}.
Local Infix "+!" := add (at level 50, left associativity).
Local Infix "-!" := sub (at level 50, left associativity).
Local Infix "*!" := mul (at level 40, left associativity).
Local Infix "/!" := div (at level 40, left associativity).
Local Notation "-: x" := (neg x) (at level 35).

(** ** matrix/projection.tpp *)
(** E(handedness == left_handed ? 1 : -1) *)
Definition hand_sign (h : handedness) : T := match h with left_handed => one | right_handed => -: one end.
(** 21-51 *)
Definition matrix_orthographic (m : mx T) (left right bottom top n f : T) (h : handedness) (z : zclip) : out (mx T) :=
  check_minimum_size m 4 4 ;;;
  let m := mx_identity m in
  let inv_width := one /! (right -! left) in
  let inv_height := one /! (top -! bottom) in
  let inv_depth := one /! (f -! n) in
  let s := hand_sign h in
  let m := match z with
    | z_clip_neg_one => set_be (set_be m 2 2 (s *! two *! inv_depth)) 3 2 (-: (f +! n) *! inv_depth)
    | z_clip_zero => set_be (set_be m 2 2 (s *! inv_depth)) 3 2 (-: n *! inv_depth)
    end in
  let m := set_be m 0 0 (two *! inv_width) in
  let m := set_be m 1 1 (two *! inv_height) in
  let m := set_be m 3 0 (-: (right +! left) *! inv_width) in
  Ok (set_be m 3 1 (-: (top +! bottom) *! inv_height)).
(** 53-59, 61-67 *)
Definition matrix_orthographic_LH m l r b t n f z := matrix_orthographic m l r b t n f left_handed z.
Definition matrix_orthographic_RH m l r b t n f z := matrix_orthographic m l r b t n f right_handed z.
(** 69-78 *)
Definition matrix_orthographic_wh (m : mx T) (width height n f : T) (h : handedness) (z : zclip) : out (mx T) :=
  let half_width := width /! two in
  let half_height := height /! two in
  matrix_orthographic m (-: half_width) half_width (-: half_height) half_height n f h z.
(** 80-86, 88-94 *)
Definition matrix_orthographic_wh_LH m w ht n f z := matrix_orthographic_wh m w ht n f left_handed z.
Definition matrix_orthographic_wh_RH m w ht n f z := matrix_orthographic_wh m w ht n f right_handed z.
(** 98-131 *)
Definition matrix_perspective (m : mx T) (left right bottom top n f : T) (h : handedness) (z : zclip) : out (mx T) :=
  check_minimum_size m 4 4 ;;;
  let m := mx_identity m in
  let inv_width := one /! (right -! left) in
  let inv_height := one /! (top -! bottom) in
  let inv_depth := one /! (f -! n) in
  let near2 := two *! n in
  let s := hand_sign h in
  let m := match z with
    | z_clip_neg_one =>
        let m := set_be m 2 2 (s *! (f +! n) *! inv_depth) in
        set_be m 3 2 (-: two *! f *! n *! inv_depth)
    | z_clip_zero =>
        let m := set_be m 2 2 (s *! f *! inv_depth) in
        set_be m 3 2 (-: s *! n *! be m 2 2)
    end in
  let m := set_be m 0 0 (near2 *! inv_width) in
  let m := set_be m 1 1 (near2 *! inv_height) in
  let m := set_be m 2 0 (-: s *! (right +! left) *! inv_width) in
  let m := set_be m 2 1 (-: s *! (top +! bottom) *! inv_height) in
  let m := set_be m 2 3 s in
  Ok (set_be m 3 3 zero).
(** 133-139, 141-147 *)
Definition matrix_perspective_LH m l r b t n f z := matrix_perspective m l r b t n f left_handed z.
Definition matrix_perspective_RH m l r b t n f z := matrix_perspective m l r b t n f right_handed z.
(** 149-158 *)
Definition matrix_perspective_wh (m : mx T) (width height n f : T) (h : handedness) (z : zclip) : out (mx T) :=
  let half_width := width /! two in
  let half_height := height /! two in
  matrix_perspective m (-: half_width) half_width (-: half_height) half_height n f h z.
(** 160-166, 168-174 *)
Definition matrix_perspective_wh_LH m w ht n f z := matrix_perspective_wh m w ht n f left_handed z.
Definition matrix_perspective_wh_RH m w ht n f z := matrix_perspective_wh m w ht n f right_handed z.
(** 176-186 *)
Definition matrix_perspective_xfov (m : mx T) (xfov aspect n f : T) (h : handedness) (z : zclip) : out (mx T) :=
  let width := two *! n *! mtan (xfov /! two) in
  matrix_perspective_wh m width (width /! aspect) n f h z.
(** 188-194, 196-202 *)
Definition matrix_perspective_xfov_LH m x a n f z := matrix_perspective_xfov m x a n f left_handed z.
Definition matrix_perspective_xfov_RH m x a n f z := matrix_perspective_xfov m x a n f right_handed z.
(** 204-214 *)
Definition matrix_perspective_yfov (m : mx T) (yfov aspect n f : T) (h : handedness) (z : zclip) : out (mx T) :=
  let height := two *! n *! mtan (yfov /! two) in
  matrix_perspective_wh m (height *! aspect) height n f h z.
(** 216-222, 224-230 *)
Definition matrix_perspective_yfov_LH m y a n f z := matrix_perspective_yfov m y a n f left_handed z.
Definition matrix_perspective_yfov_RH m y a n f z := matrix_perspective_yfov m y a n f right_handed z.

(** ** frustum.tpp *)
(** 84-104 *)
Definition extract_near_frustum_plane (m : mx T) (z : zclip) : out (list T) :=
  check_minimum_size m 4 4 ;;;
  Ok match z with
     | z_clip_neg_one => [be m 0 3 +! be m 0 2; be m 1 3 +! be m 1 2; be m 2 3 +! be m 2 2; be m 3 3 +! be m 3 2]
     | z_clip_zero => [be m 0 2; be m 1 2; be m 2 2; be m 3 2]
     end.
(** 72-81: the divisions of one plane *)
Definition normalize_plane (p : list T) : list T :=
  let l := length3 (el p 0) (el p 1) (el p 2) in
  [el p 0 /! l; el p 1 /! l; el p 2 /! l; el p 3 /! l].
(** 25-82: the planes in the order of the array *)
Definition extract_frustum_planes (m : mx T) (z : zclip) (normalize : bool) : out (list (list T)) :=
  near <- extract_near_frustum_plane m z ;;
  let planes :=
    [ [be m 0 3 +! be m 0 0; be m 1 3 +! be m 1 0; be m 2 3 +! be m 2 0; be m 3 3 +! be m 3 0];
      [be m 0 3 -! be m 0 0; be m 1 3 -! be m 1 0; be m 2 3 -! be m 2 0; be m 3 3 -! be m 3 0];
      [be m 0 3 +! be m 0 1; be m 1 3 +! be m 1 1; be m 2 3 +! be m 2 1; be m 3 3 +! be m 3 1];
      [be m 0 3 -! be m 0 1; be m 1 3 -! be m 1 1; be m 2 3 -! be m 2 1; be m 3 3 -! be m 3 1];
      near;
      [be m 0 3 -! be m 0 2; be m 1 3 -! be m 1 2; be m 2 3 -! be m 2 2; be m 3 3 -! be m 3 2] ] in
  Ok (if normalize then map normalize_plane planes else planes).
(** 15-23 *)
Definition extract_frustum_planes_mp (modelview projection : mx T) (z : zclip) (normalize : bool) : out (list (list T)) :=
  m <- matrix_concat modelview projection ;; extract_frustum_planes m z normalize.

(** ** coordinate_conversion.tpp *)
(** v[i] = x *)
Definition vset (v : list T) (i : nat) (x : T) : list T := elems (length v) (fun a => if Nat.eqb a i then x else el v a).
(** cml_require(0 <= axis && axis <= 2, ...); the values of i, j, k of cyclic_permutation(axis, i, j, k) *)
Definition axis_cycle (axis : Z) (v : list T) : out (nat * nat * nat) :=
  require (Z.leb 0 axis && Z.leb axis 2) EInvalidArgument ;;; check_size v 3 ;;;
  '(i, j, k) <- cyclic_permutation3 axis ;; Ok (Z.to_nat i, Z.to_nat j, Z.to_nat k).
(** 17-29 *)
Definition polar_to_cartesian (v : list T) (radius theta : T) : out (list T) :=
  check_size v 2 ;;;
  Ok (vset (vset v 0 (mcos theta *! radius)) 1 (msin theta *! radius)).
(** 31-36 *)
Definition polar_to_cartesian_1 (radius theta : T) (v : list T) := polar_to_cartesian v radius theta.
(** 38-62 *)
Definition cylindrical_to_cartesian (v : list T) (axis : Z) (radius theta height : T) : out (list T) :=
  '(i, j, k) <- axis_cycle axis v ;;
  Ok (vset (vset (vset v i height) j (mcos theta *! radius)) k (msin theta *! radius)).
(** 64-70 *)
Definition cylindrical_to_cartesian_1 (radius theta height : T) (axis : Z) (v : list T) :=
  cylindrical_to_cartesian v axis radius theta height.
(** 72-103; pi_over_2 is pi/2 *)
Definition spherical_to_cartesian (v : list T) (axis : Z) (type : latitude_type) (radius theta phi : T) : out (list T) :=
  '(i, j, k) <- axis_cycle axis v ;;
  let phi := match type with latitude => mpi /! two -! phi | colatitude => phi end in
  let sin_phi := msin phi in
  let cos_phi := mcos phi in
  let sin_phi_r := sin_phi *! radius in
  Ok (vset (vset (vset v i (cos_phi *! radius)) j (sin_phi_r *! mcos theta)) k (sin_phi_r *! msin theta)).
(** 105-111 *)
Definition spherical_to_cartesian_1 (radius theta phi : T) (axis : Z) (type : latitude_type) (v : list T) :=
  spherical_to_cartesian v axis type radius theta phi.
(** 115-130; (radius, theta) *)
Definition cartesian_to_polar (v : list T) (tolerance : T) : out (T * T) :=
  check_size v 2 ;;;
  radius <- vlength v ;;
  Ok (radius, if ltb radius tolerance then zero else matan2 (el v 1) (el v 0)).
(** 141-166; (radius, theta, height) *)
Definition cartesian_to_cylindrical (v : list T) (axis : Z) (tolerance : T) : out (T * T * T) :=
  '(i, j, k) <- axis_cycle axis v ;;
  let height := el v i in
  let radius := length2 (el v j) (el v k) in
  Ok (radius, if ltb radius tolerance then zero else matan2 (el v k) (el v j), height).
(** 186-216; (radius, theta, phi) *)
Definition cartesian_to_spherical (v : list T) (axis : Z) (type : latitude_type) (tolerance : T) : out (T * T * T) :=
  '(i, j, k) <- axis_cycle axis v ;;
  let len := length2 (el v j) (el v k) in
  let theta := if ltb len tolerance then zero else matan2 (el v k) (el v j) in
  let radius := length2 (el v i) len in
  let phi := if ltb radius tolerance then zero
             else let phi := matan2 len (el v i) in
                  match type with latitude => mpi /! two -! phi | colatitude => phi end in
  Ok (radius, theta, phi).
(** 132-139, 168-184, 218-234: the overloads without a tolerance or with another argument
    order pass sqrt_epsilon or their own tolerance on; they are the functions above. *)

(** ** random_unit.tpp *)
(** 103-108 do ... while(length == 0): [draws] are the vectors produced by the passes of the
    inner loop; the first of non-zero length ends the loop.  [None]: the loop is still
    running when the listed draws have been used. *)
Fixpoint first_draw (draws : list (list T)) : out (option (list T)) :=
  match draws with
  | [] => Ok None
  | d :: ds => l <- vlength_squared d ;; if eqb l zero then first_draw ds else Ok (Some d)
  end.
(** 89-112 random_unit(n, gen) (and 114-123): only the size of n is used *)
Definition random_unit (n : list T) (draws : list (list T)) : out (option (list T)) :=
  check_vmin n 1 ;;;
  d <- first_draw draws ;;
  match d with None => Ok None | Some d => u <- vnormalize d ;; Ok (Some u) end.
(** 17-40; theta is the value of random_real(-a, a) *)
Definition random_cone_2D (d : list T) (theta : T) : out (list T) :=
  let st := msin theta in
  let ct := mcos theta in
  vnormalize [ct *! el d 0 -! st *! el d 1; st *! el d 0 +! ct *! el d 1].
(** the same when n and d are the same vector: n[0] is overwritten before d[0] is read *)
Definition random_cone_2D_own (d : list T) (theta : T) : out (list T) :=
  let st := msin theta in
  let ct := mcos theta in
  let d := vset d 0 (ct *! el d 0 -! st *! el d 1) in
  let d := vset d 1 (st *! el d 0 +! ct *! el d 1) in
  vnormalize d.
(** 42-85.  [n] is the unit vector made by cml::random_unit(n).  n_a is an expression
    holding a reference to n; the assignment to n evaluates it element by element, so that
    element i reads n[i] before it is written. *)
Definition random_cone_nD (n d : list T) (a : T) : out (list T) :=
  cos_O <- vdot n d ;;
  let '(n, cos_O) := if ltb cos_O zero then (vneg n, -: cos_O) else (n, cos_O) in
  let O := acos_safe cos_O in
  x <- vadd (vscale (msin (O -! a)) d) (vscale (msin a) n) ;;
  let n_a := vdiv x (msin O) in
  let t := O /! (mpi /! two) in
  y <- vadd (vscale (msin ((one -! t) *! a)) d) (vscale (msin (t *! a)) n_a) ;;
  Ok (vdiv y (msin a)).
(** 125-138 random_unit(n, d, a).  [resizable]: n can be resized; otherwise the sizes must
    agree.  [fixed2]: d is a fixed-size vector of size 2.  [theta] and [draws] are what the
    random sources return.  a <= pi/2 is modelled as not pi/2 < a (the same unless a is a NaN). *)
Definition random_unit_cone (resizable fixed2 : bool) (n d : list T) (a theta : T) (draws : list (list T)) : out (option (list T)) :=
  require (ltb zero a && negb (ltb (mpi /! two) a)) EInvalidArgument ;;;
  require (resizable || Nat.eqb (length n) (length d)) EIncompatibleVectorSize ;;;
  if fixed2 then v <- random_cone_2D d theta ;; Ok (Some v)
  else u <- random_unit d draws ;;
       match u with None => Ok None | Some u => v <- random_cone_nD u d a ;; Ok (Some v) end.
End Geometry.
