(** What matrices do to vectors of R^3, independently of how they were built. *)
From Coq Require Import Reals List.
From Verif Require Import Base RInst MiscModel MiscSpec QuatModel QuatSpec RotModel.
Import ListNotations.
Open Scope R_scope.

Record vec3 : Type := V3 { vx : R; vy : R; vz : R }.
Definition dot (u v : vec3) : R := vx u * vx v + vy u * vy v + vz u * vz v.
Definition cross (u v : vec3) : vec3 :=
  V3 (vy u * vz v - vz u * vy v) (vz u * vx v - vx u * vz v) (vx u * vy v - vy u * vx v).
Definition triple (u v w : vec3) : R := dot u (cross v w).
Definition unit (u : vec3) : Prop := dot u u = 1.
Definition vlist (u : vec3) : list R := [vx u; vy u; vz u].
Definition pure (u : vec3) : ham R := Ham 0 (vx u) (vy u) (vz u).

(** The linear part of a matrix applied to a vector: M*v when basis vectors are
    columns, v*M when they are rows. *)
Definition act (m : mx R) (v : vec3) : vec3 :=
  match mbasis m with
  | col_basis =>
      V3 (mel m 0 0 * vx v + mel m 0 1 * vy v + mel m 0 2 * vz v)
         (mel m 1 0 * vx v + mel m 1 1 * vy v + mel m 1 2 * vz v)
         (mel m 2 0 * vx v + mel m 2 1 * vy v + mel m 2 2 * vz v)
  | row_basis =>
      V3 (vx v * mel m 0 0 + vy v * mel m 1 0 + vz v * mel m 2 0)
         (vx v * mel m 0 1 + vy v * mel m 1 1 + vz v * mel m 2 1)
         (vx v * mel m 0 2 + vy v * mel m 1 2 + vz v * mel m 2 2)
  end.
(** Rotations preserve lengths and angles, and orientation. *)
Definition is_rotation (m : mx R) : Prop :=
  (forall u v, dot (act m u) (act m v) = dot u v) /\
  (forall u v w, triple (act m u) (act m v) (act m w) = triple u v w).
(** [m'] has the sizes and orientation of [m] and is the identity outside the
    leading n x n block. *)
Definition frame (n : nat) (m m' : mx R) : Prop :=
  mrows m' = mrows m /\ mcols m' = mcols m /\ mbasis m' = mbasis m /\
  forall i j, (n <= i)%nat \/ (n <= j)%nat -> mel m' i j = if Nat.eqb i j then 1 else 0.
(** large enough to hold a 3D linear transformation *)
Definition holds3 (m : mx R) : Prop := (3 <= mrows m)%nat /\ (3 <= mcols m)%nat.
(** the same linear transformation *)
Definition same_action (m n : mx R) : Prop := forall v, act m v = act n v.
(** 3x3 product of the leading blocks, and transposition *)
Definition is_product (p a b : mx R) : Prop :=
  forall i j, (i < 3)%nat -> (j < 3)%nat ->
  mel p i j = mel a i 0 * mel b 0 j + mel a i 1 * mel b 1 j + mel a i 2 * mel b 2 j.
Definition is_transpose (t a : mx R) : Prop :=
  forall i j, (i < 3)%nat -> (j < 3)%nat -> mel t i j = mel a j i.

(** Frobenius-like size of the antisymmetric part: twice the sine of the rotation angle *)
Definition asymmetry (m : mx R) : R :=
  let d01 := mel m 0 1 - mel m 1 0 in
  let d02 := mel m 0 2 - mel m 2 0 in
  let d12 := mel m 1 2 - mel m 2 1 in
  sqrt (d12 * d12 + d02 * d02 + d01 * d01).

Definition unit_quat (o : order) (q : quat R) : Prop := hnorm (parts o q) = 1.
(** q * v * conjugate(q) in Hamilton's product *)
Definition sandwich (h : ham R) (v : vec3) : ham R := hmul (hmul h (pure v)) (hconj h).

(** Rotation by an angle about a unit axis (Rodrigues). *)
Definition rodrigues (n : vec3) (t : R) (v : vec3) : vec3 :=
  let d := dot n v in
  let c := cross n v in
  V3 (vx v * cos t + vx c * sin t + vx n * d * (1 - cos t))
     (vy v * cos t + vy c * sin t + vy n * d * (1 - cos t))
     (vz v * cos t + vz c * sin t + vz n * d * (1 - cos t)).
(** The cardinal axes, by number. *)
Definition cardinal (a : Z) : vec3 :=
  match a with 0%Z => V3 1 0 0 | 1%Z => V3 0 1 0 | _ => V3 0 0 1 end.
(** Gimbal lock of an Euler order: the image of the first axis is along the last one.
    The value is the sine of the angle between them, 0 exactly at gimbal lock. *)
Definition gimbal (m : mx R) (o : euler_order) : R :=
  let d := dot (act m (cardinal (nth 0 (eo_name o) 0%Z))) (cardinal (nth 2 (eo_name o) 0%Z)) in
  sqrt (1 - d * d).
