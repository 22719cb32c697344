(** View volumes, clip volumes and half spaces over the reals. *)
From Coq Require Import Reals List ZArith.
From Verif Require Import Base RInst RotModel VecSpec XfModel XfSpec GeoModel.
Import ListNotations.
Open Scope R_scope.

(** the z coordinate of a point [d] in front of the eye: the viewer looks along +z
    (left-handed) or -z (right-handed) *)
Definition ahead (h : handedness) (d : R) : R := match h with left_handed => d | right_handed => - d end.
(** clip-space depth of the near plane; that of the far plane is 1 *)
Definition clip_near (z : zclip) : R := match z with z_clip_neg_one => -1 | z_clip_zero => 0 end.
(** from a (t = 0) to b (t = 1) *)
Definition between (a b t : R) : R := a + t * (b - a).
(** The points of the view volume of an orthographic projection: u from left to right,
    v from bottom to top, w from near to far. *)
Definition box_point (l r b t n f : R) (h : handedness) (u v w : R) : list R :=
  [between l r u; between b t v; ahead h (between n f w)].
(** ... of a perspective projection: left, right, bottom and top are measured on the near
    plane; (u, v) select a ray from the eye, d is the distance along the viewing axis. *)
Definition ray_point (l r b t n : R) (h : handedness) (u v d : R) : list R :=
  [between l r u * (d / n); between b t v * (d / n); ahead h d].
(** membership *)
Definition in_box (l r b t n f : R) (h : handedness) (p : list R) : Prop :=
  l <= nth 0 p 0 <= r /\ b <= nth 1 p 0 <= t /\ n <= ahead h (nth 2 p 0) <= f.
Definition in_pyramid (l r b t n f : R) (h : handedness) (p : list R) : Prop :=
  let d := ahead h (nth 2 p 0) in
  n <= d <= f /\ l * (d / n) <= nth 0 p 0 <= r * (d / n) /\ b * (d / n) <= nth 1 p 0 <= t * (d / n).
(** the clip volume in homogeneous coordinates: -w <= x, y <= w, and -w or 0 <= z <= w *)
Definition in_clip (z : zclip) (c : list R) : Prop :=
  let w := nth 3 c 0 in
  - w <= nth 0 c 0 <= w /\ - w <= nth 1 c 0 <= w /\ clip_near z * w <= nth 2 c 0 <= w.
(** signed value of a plane [a; b; c; d] at a point *)
Definition plane_at (q p : list R) : R :=
  nth 0 q 0 * nth 0 p 0 + nth 1 q 0 * nth 1 p 0 + nth 2 q 0 * nth 2 p 0 + nth 3 q 0.
Definition inside_all (planes : list (list R)) (p : list R) : Prop := Forall (fun q => 0 <= plane_at q p) planes.
(** the normal of a plane *)
Definition has_normal (q : list R) : Prop := 0 < nth 0 q 0 * nth 0 q 0 + nth 1 q 0 * nth 1 q 0 + nth 2 q 0 * nth 2 q 0.
Definition unit_normal (q : list R) : Prop := nth 0 q 0 * nth 0 q 0 + nth 1 q 0 * nth 1 q 0 + nth 2 q 0 * nth 2 q 0 = 1.
(** clip coordinates of a point: what transform_vector_4D makes of (x, y, z, 1) when the
    matrix is 4x4 *)
Definition clip (m : mx R) (p : list R) : list R := [hom m p 0; hom m p 1; hom m p 2; hom m p 3].
(** clip-space depth after the perspective division *)
Definition depth (z : zclip) (n f d : R) : R := between (clip_near z) 1 (f * (d - n) / (d * (f - n))).
(** a symmetric view volume given by the slopes of its side planes *)
Definition in_slopes (sx sy n f : R) (h : handedness) (p : list R) : Prop :=
  let d := ahead h (nth 2 p 0) in
  n <= d <= f /\ Rabs (nth 0 p 0) <= sx * d /\ Rabs (nth 1 p 0) <= sy * d.
(** [a] along the given axis (0, 1, 2), [b] and [c] along the two axes that follow it
    cyclically *)
Definition place (axis : Z) (a b c : R) : list R :=
  match axis with 0%Z => [a; b; c] | 1%Z => [c; a; b] | _ => [b; c; a] end.
(** the point at distance r from the axis, at angle th around it, at height h *)
Definition cylinder_point (axis : Z) (r th h : R) : list R := place axis h (r * cos th) (r * sin th).
(** the point at distance r from the origin, at angle th around the axis; phi is measured
    from the axis (colatitude) or from the plane orthogonal to it (latitude) *)
Definition sphere_point (axis : Z) (type : latitude_type) (r th phi : R) : list R :=
  match type with
  | colatitude => place axis (r * cos phi) (r * sin phi * cos th) (r * sin phi * sin th)
  | latitude => place axis (r * sin phi) (r * cos phi * cos th) (r * cos phi * sin th)
  end.
Definition phi_range (type : latitude_type) (phi : R) : Prop :=
  match type with colatitude => 0 <= phi <= PI | latitude => - (PI / 2) <= phi <= PI / 2 end.
Definition phi_inside (type : latitude_type) (phi : R) : Prop :=
  match type with colatitude => 0 < phi < PI | latitude => - (PI / 2) < phi < PI / 2 end.
(** Euclidean distance *)
Definition distance (u v : list R) : R := norm (zip sub u v).

(** ** Random directions *)
(** the cone of directions up to pi/2 from an axis shrunk to those up to [a] *)
Definition opening (a O : R) : R := a * (O / (PI / 2)).
