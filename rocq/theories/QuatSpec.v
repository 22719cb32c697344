(** Hamilton's quaternions w + x i + y j + z k, and what the library's
    expressions denote. *)
From Coq Require Import List Ring_theory Field_theory.
From Verif Require Import Base QuatModel.

Record ham (T : Type) : Type := Ham { hw : T; hx : T; hy : T; hz : T }.
Arguments Ham {T}. Arguments hw {T}. Arguments hx {T}. Arguments hy {T}. Arguments hz {T}.

Section Spec.
Context {T : Type} `{Op : Ops T}.
Local Infix "+" := add. Local Infix "-" := sub. Local Infix "*" := mul. Local Infix "/" := div.

(** the real and imaginary parts held by a stored quaternion *)
Definition parts_of (o : order) (g : nat -> T) : ham T := Ham (g (oW o)) (g (oX o)) (g (oY o)) (g (oZ o)).
Definition parts (o : order) (q : quat T) : ham T := parts_of o (qget q).

(** i*i = j*j = k*k = -1, ij = k = -ji, jk = i = -kj, ki = j = -ik *)
Definition hmul (p q : ham T) : ham T :=
  Ham (hw p * hw q - hx p * hx q - hy p * hy q - hz p * hz q)
      (hw p * hx q + hx p * hw q + hy p * hz q - hz p * hy q)
      (hw p * hy q + hy p * hw q + hz p * hx q - hx p * hz q)
      (hw p * hz q + hz p * hw q + hx p * hy q - hy p * hx q).
Definition hmap (f : T -> T) (p : ham T) : ham T := Ham (f (hw p)) (f (hx p)) (f (hy p)) (f (hz p)).
Definition hmap2 (f : T -> T -> T) (p q : ham T) : ham T :=
  Ham (f (hw p) (hw q)) (f (hx p) (hx q)) (f (hy p) (hy q)) (f (hz p) (hz q)).
Definition hconj (p : ham T) : ham T := Ham (hw p) (neg (hx p)) (neg (hy p)) (neg (hz p)).
Definition hnorm (p : ham T) : T := hw p * hw p + hx p * hx p + hy p * hy p + hz p * hz p.
Definition hone : ham T := Ham one zero zero zero.
Definition hscale (s : T) (p : ham T) : ham T := hmap (fun x => s * x) p.

(** the product of the library for either cross type *)
Definition hprod (c : crossing) (p q : ham T) : ham T :=
  match c with positive_cross => hmul p q | negative_cross => hmul q p end.

(** what an expression denotes when the target holds [self] *)
Fixpoint denote `{MathOps T} (c : crossing) (self : ham T) (val : quat T -> ham T) (e : qexpr) : ham T :=
  match e with
  | XSelf => self
  | XQuat q => val q
  | XNeg e => hmap neg (denote c self val e)
  | XBin QAdd a b => hmap2 add (denote c self val a) (denote c self val b)
  | XBin QSub a b => hmap2 sub (denote c self val a) (denote c self val b)
  | XScal QTimes e s => hmap (fun x => x * s) (denote c self val e)
  | XScal QOver e s => hmap (fun x => x / s) (denote c self val e)
  | XConj e => hconj (denote c self val e)
  | XInv e => let p := denote c self val e in hscale (one / hnorm p) (hconj p)
  | XNormalize e => let p := denote c self val e in hmap (fun x => x / msqrt (hnorm p)) p
  | XProd a b => hprod c (denote c self val a) (denote c self val b)
  end.
End Spec.

(** The same quaternion stored in the other order. *)
Definition to_imaginary_first {T : Type} (q : quat T) : quat T := Quat (q1 q) (q2 q) (q3 q) (q0 q).
Fixpoint in_imaginary_first {T : Type} (e : @qexpr T) : @qexpr T :=
  match e with
  | XSelf => XSelf
  | XQuat q => XQuat (to_imaginary_first q)
  | XNeg e => XNeg (in_imaginary_first e)
  | XBin op a b => XBin op (in_imaginary_first a) (in_imaginary_first b)
  | XScal op e s => XScal op (in_imaginary_first e) s
  | XConj e => XConj (in_imaginary_first e)
  | XInv e => XInv (in_imaginary_first e)
  | XNormalize e => XNormalize (in_imaginary_first e)
  | XProd a b => XProd (in_imaginary_first a) (in_imaginary_first b)
  end.
(** Field laws, with 1/x as the inverse. *)
Definition is_field (T : Type) `{Ops T} : Prop :=
  Field_theory.field_theory (zero : T) one add mul sub neg div (fun x => div one x) eq.
Definition is_ring (T : Type) `{Ops T} : Prop := Ring_theory.ring_theory (zero : T) one add mul sub neg eq.
