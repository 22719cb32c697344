(** Polynomial consequences of orthogonality, by Groebner bases. *)
From Coq Require Import Reals Nsatz.
From Verif Require Import RInst RotModel RotSpec RotFacts.
Open Scope R_scope.

Lemma cross_along (u v n : vec3) : unit n -> dot u n = 0 -> dot v n = 0 ->
  let d := dot (cross u v) n in cross u v = V3 (d * vx n) (d * vy n) (d * vz n).
Proof.
  intros Un On Pn d. unfold d. apply v3_eq; unfold unit, dot, cross in *; destruct u as [a1 a2 a3], v as [b1 b2 b3], n as [c1 c2 c3]; cbn [vx vy vz] in *; clear d; nsatz.
Qed.
Lemma plane_decompose (u v n : vec3) (f : vec3 -> R) : unit n -> dot u n = 0 -> dot v n = 0 -> (f = vx \/ f = vy \/ f = vz) ->
  f u * dot u v + f (cross n u) * dot (cross u v) n = dot u u * f v.
Proof.
  intros Un On Pn F. unfold unit, dot, cross in *. destruct u as [a1 a2 a3], v as [b1 b2 b3], n as [c1 c2 c3]; cbn [vx vy vz] in *.
  destruct F as [-> | [-> | ->]]; cbn [vx vy vz]; nsatz.
Qed.
