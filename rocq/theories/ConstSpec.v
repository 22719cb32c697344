(** The real numbers that the constants stand for. *)
From Coq Require Import ZArith Reals.
From Flocq Require Import Core IEEE754.BinarySingleNaN.
From Verif Require Import IntModel FloatModel MixedModel ConstModel.
Open Scope R_scope.

Definition meaning (c : cname) : R :=
  match c with
  | Pi => PI | TwoPi => 2 * PI | InvPi => 1 / PI | InvTwoPi => 1 / (2 * PI)
  | PiOver2 => PI / 2 | PiOver4 => PI / 4 | E => exp 1
  | DegPerRad => 180 / PI | RadPerDeg => PI / 180
  | Sqrt2 => sqrt 2 | Sqrt3 => sqrt 3 | Sqrt5 => sqrt 5 | Sqrt6 => sqrt 6
  end.

(** x is finite and no other finite number of its format is as near to r. *)
Definition strictly_nearest {prec emax : Z} (x : binary_float prec emax) (r : R) : Prop :=
  is_finite x = true /\
  forall y : binary_float prec emax, is_finite y = true -> B2R y <> B2R x -> Rabs (B2R x - r) < Rabs (B2R y - r).

(** The unit roundoff of a format, and half its least positive number. *)
Definition unit (prec : Z) : R := bpow radix2 (- prec).
Definition tiny (prec emax : Z) : R := bpow radix2 (2 - emax - prec).

(** x approximates r within a relative error of k roundings, and a tiny amount j times. *)
Definition within {prec emax : Z} (k j : R) (x : binary_float prec emax) (r : R) : Prop :=
  Rabs (B2R x - r) <= k * unit prec * Rabs r + j * tiny prec emax.

(** the integer types with 8, 16, 32 or 64 bits *)
Definition usual (t : ity) : Prop := (bits t = 8 \/ bits t = 16 \/ bits t = 32 \/ bits t = 64)%Z.
