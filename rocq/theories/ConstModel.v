(** cml/scalar/constants.h and the angle conversions of cml/scalar/functions.h, for every arithmetic
    type. *)
From Coq Require Import ZArith Bool List.
From Flocq Require Import Core IEEE754.BinarySingleNaN.
From Verif Require Import Base IntModel FloatModel MixedModel.
Import ListNotations.
Open Scope Z_scope.

(** A floating literal with twenty decimals: the double nearest to n / 10^20.  Eighty more bits than the
    integer part has are computed, and one that says whether anything is left. *)
Definition literal (n : Z) : double :=
  let q := n * 2 ^ 80 / 10 ^ 20 in
  let rest := if n * 2 ^ 80 mod 10 ^ 20 =? 0 then 0 else 1 in
  binary_normalize 53 1024 _ _ mode_NE (2 * q + rest) (-81) false.
Definition dbl (z : Z) : double := Bof_int 53 1024 z.

(** constants.h:9-19, where <cmath> does not define them (the usual definitions have the same digits) *)
Definition M_PI : double := literal 314159265358979323846.
Definition M_SQRT2 : double := literal 141421356237309504880.
Definition M_E : double := literal 271828182845904523536.

Inductive cname : Type :=
| Pi | TwoPi | InvPi | InvTwoPi | PiOver2 | PiOver4 | E | DegPerRad | RadPerDeg | Sqrt2 | Sqrt3 | Sqrt5 | Sqrt6.
(** constants.h:29-53: the argument of Float(...), a double *)
Definition in_double (c : cname) : double :=
  match c with
  | Pi => M_PI
  | TwoPi => mul (dbl 2) M_PI
  | InvPi => div (dbl 1) M_PI
  | InvTwoPi => div (dbl 1) (mul (dbl 2) M_PI)
  | PiOver2 => div M_PI (dbl 2)
  | PiOver4 => div M_PI (dbl 4)
  | E => M_E
  | DegPerRad => div (dbl 180) M_PI
  | RadPerDeg => div M_PI (dbl 180)
  | Sqrt2 => M_SQRT2
  | Sqrt3 => literal 173205080756887729353
  | Sqrt5 => literal 223606797749978969641
  | Sqrt6 => literal 244948974278317809820
  end.
(** constants<T>::c() *)
Definition constant (t : sty) (c : cname) : option num := cast t (ND (in_double c)).

(** functions.h:107-121: deg, rad.  The product of two T is converted back to T. *)
Definition convert_angle (c : cname) (theta : num) : option num :=
  bindo (constant (type_of theta) c) (fun k => bindo (builtin OMul theta k) (cast (type_of theta))).
Definition deg : num -> option num := convert_angle DegPerRad.
Definition rad : num -> option num := convert_angle RadPerDeg.
