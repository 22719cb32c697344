(** Integer element types: the arithmetic that vectors, matrices and quaternions of
    int, unsigned, long, short, ... do.  [None] stands for undefined behaviour:
    signed overflow, or division by zero.  int has 32 bits. *)
From Coq Require Import ZArith Bool List.
From Verif Require Import Base.
Open Scope Z_scope.

(** a C++ integer type *)
Record ity := { bits : Z; signed : bool }.
Definition int_t : ity := {| bits := 32; signed := true |}.
Definition unsigned_t : ity := {| bits := 32; signed := false |}.
Definition long_t : ity := {| bits := 64; signed := true |}.
Definition short_t : ity := {| bits := 16; signed := true |}.
Definition ushort_t : ity := {| bits := 16; signed := false |}.
Definition uchar_t : ity := {| bits := 8; signed := false |}.
Definition lo (t : ity) : Z := if signed t then - 2 ^ (bits t - 1) else 0.
Definition hi (t : ity) : Z := if signed t then 2 ^ (bits t - 1) - 1 else 2 ^ bits t - 1.
Definition in_range (t : ity) (z : Z) : bool := (lo t <=? z) && (z <=? hi t).
(** conversion to t: the value of t's range that is congruent modulo 2^bits *)
Definition convert (t : ity) (z : Z) : Z := (z - lo t) mod 2 ^ bits t + lo t.
(** operands narrower than int are promoted to int *)
Definition promoted (t : ity) : ity := if bits t <? bits int_t then int_t else t.
(** cml/scalar/promotion.h:12-20 (std::common_type<T,T> is T, also for short), cml/scalar/binary_ops.h:13-21:
    [result_type(a _op_ b)]: the operation in the promoted type, then the conversion back;
    the same in cml/vector/dot.tpp:25-27.  A result of the signed promoted type outside
    its range is undefined behaviour; unsigned types wrap. *)
Definition compute (t : ity) (z : Z) : option Z :=
  if signed (promoted t) && negb (in_range (promoted t) z) then None else Some (convert t z).
Definition lift2 (t : ity) (f : Z -> Z -> Z) (a b : option Z) : option Z :=
  match a, b with Some x, Some y => compute t (f x y) | _, _ => None end.
Definition int_ops (t : ity) : Ops (option Z) := {|
  zero := Some 0; one := Some 1;
  add := lift2 t Z.add; sub := lift2 t Z.sub; mul := lift2 t Z.mul;
  div := fun a b => match b with Some 0 => None | _ => lift2 t Z.quot a b end;
  neg := fun a => match a with Some x => compute t (- x) | None => None end;
  ltb := fun a b => match a, b with Some x, Some y => Z.ltb x y | _, _ => false end;
  eqb := fun a b => match a, b with Some x, Some y => Z.eqb x y | _, _ => false end |}.
