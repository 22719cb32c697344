(** IEEE-754 binary arithmetic as an instance of the scalar operations of Base.v.

    float and double are binary_float 24 128 and binary_float 53 1024 of Flocq; every
    + - * / and sqrt is rounded to nearest, ties to even (the default rounding mode,
    no excess precision and no contraction of a*b+c to a fused operation).  All NaNs
    are one value: payloads and signs of NaNs are not modelled. *)
From Coq Require Import ZArith Bool List.
From Flocq Require Import Core IEEE754.BinarySingleNaN.
From Verif Require Import Base.

Section IEEE.
Context (prec emax : Z) {Hprec : Prec_gt_0 prec} {Hmax : Prec_lt_emax prec emax}.
(** scalar/binary_ops.h:14-63, unary_ops.h: the operators of the built-in types;
    0 and 1 are value_type(0), value_type(1) *)
#[export] Instance BOps : Ops (binary_float prec emax) := {|
  zero := B754_zero false; one := Bone;
  add := Bplus mode_NE; sub := Bminus mode_NE; mul := Bmult mode_NE; div := Bdiv mode_NE;
  neg := Bopp; ltb := Bltb; eqb := Beqb |}.
(** What scalar/traits.h:119-152 relies on in <cmath>: IEEE requires std::sqrt to be correctly rounded
    and std::fabs to clear the sign.  Nothing is assumed of the other functions. *)
Definition ieee_math (MO : MathOps (binary_float prec emax)) : Prop :=
  (forall x, msqrt x = Bsqrt mode_NE x) /\ (forall x, mfabs x = Babs x).
End IEEE.

Definition double := binary_float 53 1024.
Definition single := binary_float 24 128.
#[export] Instance double_prec : Prec_gt_0 53 := eq_refl.
#[export] Instance double_emax : Prec_lt_emax 53 1024 := eq_refl.
#[export] Instance single_prec : Prec_gt_0 24 := eq_refl.
#[export] Instance single_emax : Prec_lt_emax 24 128 := eq_refl.

(** std::fmod of IEEE values (scalar/traits.h:119-152): both operands written with one
    exponent, the remainder of the mantissas is exact.  fmod(x, +-inf) = x; fmod(inf, y),
    fmod(x, 0) and NaN operands give NaN. *)
Section Fmod.
Context (prec emax : Z) {Hprec : Prec_gt_0 prec} {Hmax : Prec_lt_emax prec emax}.
Definition Bfmod (x y : binary_float prec emax) : binary_float prec emax :=
  match x, y with
  | B754_finite sx mx ex _, B754_finite sy my ey _ =>
      let e := Z.min ex ey in
      binary_normalize prec emax Hprec Hmax mode_NE
        (Z.rem (cond_Zopp sx (Z.pos mx) * 2 ^ (ex - e)) (cond_Zopp sy (Z.pos my) * 2 ^ (ey - e))) e sx
  | B754_zero _, B754_finite _ _ _ _ => x
  | B754_zero _, B754_infinity _ => x
  | B754_finite _ _ _ _, B754_infinity _ => x
  | _, _ => B754_nan
  end.
Definition ieee_fmod (MO : MathOps (binary_float prec emax)) : Prop := forall x y, mfmod x y = Bfmod x y.
End Fmod.
