(** Model of cml/scalar/functions.h. *)
From Coq Require Import ZArith Bool.
From Verif Require Import Base.

Section Scalar.
Context {T : Type} {O : Ops T} {MO : MathOps T}.

(** functions.h:17-20 *)
Definition sign (value : T) : T :=
  if ltb value zero then neg one else if ltb zero value then one else zero.

(** functions.h:25-28  std::max(std::min(value, max), min) *)
Definition clamp (value min max : T) : T := std_max (std_min value max) min.

(** functions.h:32-41 *)
Definition wrap (value min max : T) : T :=
  let max := sub max min in
  let value := mfmod (sub value min) max in
  let value := if ltb value zero then add value max else value in
  add min value.

(** functions.h:46-49 *)
Definition in_range (value min max : T) : bool :=
  negb (ltb value min) && negb (ltb max value).

(** functions.h:54-57 *)
Definition map_range (value min1 max1 min2 max2 : T) : T :=
  add min2 (mul (div (sub value min1) (sub max1 min1)) (sub max2 min2)).

(** functions.h:62-65 *)
Definition acos_safe (theta : T) : T := macos (clamp theta (neg one) one).
(** functions.h:70-73 *)
Definition asin_safe (theta : T) : T := masin (clamp theta (neg one) one).
(** functions.h:78-81  sqrt(std::max(value, T(0))) *)
Definition sqrt_safe (value : T) : T := msqrt (std_max value zero).

(** functions.h:86-89, 94-97 *)
Definition sqr (value : T) : T := mul value value.
Definition cub (value : T) : T := mul (mul value value) value.
(** functions.h:102-105 *)
Definition inv_sqrt (value : T) : T := div one (msqrt value).

(** functions.h:167-194 *)
Definition length_squared2 (x y : T) : T := add (mul x x) (mul y y).
Definition length_squared3 (x y z : T) : T := add (add (mul x x) (mul y y)) (mul z z).
Definition length2 (x y : T) : T := msqrt (length_squared2 x y).
Definition length3 (x y z : T) : T := msqrt (length_squared3 x y z).

(** functions.h:254-257, 271-274 *)
Definition index_of_max2 (a b : T) : nat := if ltb b a then 0 else 1.
Definition index_of_min2 (a b : T) : nat := if ltb a b then 0 else 1.
(** functions.h:288-291, 305-308 *)
Definition index_of_max3 (a b c : T) : nat :=
  if ltb b a then (if ltb a c then 2 else 0) else (if ltb c b then 1 else 2).
Definition index_of_min3 (a b c : T) : nat :=
  if ltb a b then (if ltb c a then 2 else 0) else (if ltb b c then 1 else 2).
(** functions.h:322-329, 343-350 *)
Definition index_of_max4 (a b c d : T) : nat :=
  if ltb b a then
    (if ltb d c then (if ltb c a then 0 else 2) else (if ltb d a then 0 else 3))
  else
    (if ltb d c then (if ltb c b then 1 else 2) else (if ltb d b then 1 else 3)).
Definition index_of_min4 (a b c d : T) : nat :=
  if ltb a b then
    (if ltb c d then (if ltb a c then 0 else 2) else (if ltb a d then 0 else 3))
  else
    (if ltb c d then (if ltb b c then 1 else 2) else (if ltb b d then 1 else 3)).
(** functions.h:262-266, 279-283, 296-300, 313-317, 334-338, 355-359 *)
Definition index_of_max_abs2 (a b : T) := index_of_max2 (mfabs a) (mfabs b).
Definition index_of_min_abs2 (a b : T) := index_of_min2 (mfabs a) (mfabs b).
Definition index_of_max_abs3 (a b c : T) := index_of_max3 (mfabs a) (mfabs b) (mfabs c).
Definition index_of_min_abs3 (a b c : T) := index_of_min3 (mfabs a) (mfabs b) (mfabs c).
Definition index_of_max_abs4 (a b c d : T) :=
  index_of_max4 (mfabs a) (mfabs b) (mfabs c) (mfabs d).
Definition index_of_min_abs4 (a b c d : T) :=
  index_of_min4 (mfabs a) (mfabs b) (mfabs c) (mfabs d).

End Scalar.

(** functions.h:209-212 (i + 1) % N.  C++ % truncates: Z.rem; N = 0 is UB.  int is not bounded here: the
    overflow of i + 1 at INT_MAX is not modelled. *)
Definition next (i N : Z) : out Z :=
  if Z.eqb N 0 then UB else Ok (Z.rem (i + 1) N).
(** functions.h:216-219 *)
Definition prev (i N : Z) : Z := if Z.eqb i 0 then (N - 1)%Z else (i - 1)%Z.

(** functions.h:223-227, 231-236, 240-246 *)
Definition cyclic_permutation2 (first : Z) : out (Z * Z) :=
  j <- next first 2 ;; Ok (first, j).
Definition cyclic_permutation3 (first : Z) : out (Z * Z * Z) :=
  j <- next first 3 ;; k <- next j 3 ;; Ok (first, j, k).
Definition cyclic_permutation4 (first : Z) : out (Z * Z * Z * Z) :=
  j <- next first 4 ;; k <- next j 4 ;; l <- next k 4 ;; Ok (first, j, k, l).
