(** Textbook vector algebra on lists, independent of the model's loops. *)
From Coq Require Import List Reals.
From Verif Require Import Base RInst.
Import ListNotations.

Section Spec.
Context {T : Type} `{Op : Ops T}.
Local Infix "+" := add. Local Infix "-" := sub. Local Infix "*" := mul.
(** u0*v0 + u1*v1 + ... *)
Fixpoint sum_prod (u v : list T) : T :=
  match u, v with
  | a :: u', b :: v' => a * b + sum_prod u' v'
  | _, _ => zero
  end.
(** elementwise combination *)
Fixpoint zip (f : T -> T -> T) (u v : list T) : list T :=
  match u, v with
  | a :: u', b :: v' => f a b :: zip f u' v'
  | _, _ => []
  end.
Definition scaled (s : T) (v : list T) : list T := map (fun x => s * x) v.
(** s*u + t*v *)
Definition comb (s : T) (u : list T) (t : T) (v : list T) : list T := zip add (scaled s u) (scaled t v).
(** determinants by Leibniz' formula *)
Definition det2 (a b c d : T) : T := a * d - b * c.
Definition det3 (a b c  d e f  g h i : T) : T :=
  a * e * i + b * f * g + c * d * h - c * e * g - b * d * i - a * f * h.
End Spec.

Open Scope R_scope.
(** Euclidean length *)
Definition norm (v : list R) : R := sqrt (sum_prod v v).
Definition orthogonal (u v : list R) : Prop := sum_prod u v = 0.
Definition unit_vector (v : list R) : Prop := sum_prod v v = 1.
(** some element is not zero *)
Definition nonzero (v : list R) : Prop := exists x, In x v /\ x <> 0.
(** rotation of the plane, counterclockwise *)
Definition rotate2 (t : R) (v : list R) : list R :=
  [cos t * nth 0 v 0 - sin t * nth 1 v 0; sin t * nth 0 v 0 + cos t * nth 1 v 0].
Definition cross_of (u v : list R) : list R :=
  let x := fun i => nth i u 0 in
  let y := fun i => nth i v 0 in
  [x 1%nat * y 2%nat - x 2%nat * y 1%nat; x 2%nat * y 0%nat - x 0%nat * y 2%nat; x 0%nat * y 1%nat - x 1%nat * y 0%nat].
