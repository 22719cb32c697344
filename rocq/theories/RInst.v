(** Scalar operations instantiated with the Coq reals (exact arithmetic).
    These are what the numeric theorems quantify over; rounding is not modelled. *)
From Coq Require Import Reals ZArith.
From Coq.Reals Require Import Ratan.
From Verif Require Import Base.
Open Scope R_scope.

Definition Rltb (a b : R) : bool := if Rlt_dec a b then true else false.
Definition Reqb (a b : R) : bool := if Req_EM_T a b then true else false.

#[export] Instance ROps : Ops R := {|
  zero := 0; one := 1; add := Rplus; sub := Rminus; mul := Rmult; div := Rdiv;
  neg := Ropp; ltb := Rltb; eqb := Reqb |}.

(** truncation toward zero *)
Definition Rtrunc (x : R) : Z :=
  if Rle_dec 0 x then Int_part x else (- Int_part (- x))%Z.
(** C fmod: x - trunc(x/y)*y *)
Definition Rfmod (x y : R) : R := x - IZR (Rtrunc (x / y)) * y.

(** C atan2(y, x): the angle in (-pi, pi] of the point (x,y); atan2(0,0) = 0. *)
Definition Ratan2 (y x : R) : R :=
  if Rlt_dec 0 x then atan (y / x)
  else if Rlt_dec x 0 then
    (if Rle_dec 0 y then atan (y / x) + PI else atan (y / x) - PI)
  else if Rlt_dec 0 y then PI / 2
  else if Rlt_dec y 0 then - (PI / 2) else 0.

#[export] Instance RMath : MathOps R := {|
  mfabs := Rabs; mfmod := Rfmod; msqrt := sqrt; mcos := cos; msin := sin;
  mtan := tan; macos := acos; masin := asin; matan2 := Ratan2;
  mlog := ln; mexp := exp; mpi := PI |}.
