(** Specification vocabulary: orders, words, axes. *)
From Coq Require Import List ZArith Bool.
From Verif Require Import Base MiscModel.
Import ListNotations.

(** [ltb] is a strict total order. *)
Record total_order (T : Type) `{Ops T} : Prop := {
  to_irrefl : forall x : T, ltb x x = false;
  to_trans : forall x y z : T, ltb x y = true -> ltb y z = true -> ltb x z = true;
  to_total : forall x y : T, ltb x y = false -> ltb y x = false -> x = y }.

(** Lexicographic order; a proper prefix comes first. *)
Inductive lex_lt {T : Type} `{Ops T} : list T -> list T -> Prop :=
| lex_nil y r : lex_lt [] (y :: r)
| lex_head x y l r : ltb x y = true -> lex_lt (x :: l) (y :: r)
| lex_tail x l r : lex_lt l r -> lex_lt (x :: l) (x :: r).

(** an unsigned machine word of w bits *)
Definition word (w x : Z) : Prop := (0 <= x < 2 ^ w)%Z.

(** The axes an order is named after: x = 0, y = 1, z = 2. *)
Definition eo_name (o : euler_order) : list Z :=
  match o with
  | eo_xyz => [0;1;2] | eo_xyx => [0;1;0] | eo_xzy => [0;2;1] | eo_xzx => [0;2;0]
  | eo_yzx => [1;2;0] | eo_yzy => [1;2;1] | eo_yxz => [1;0;2] | eo_yxy => [1;0;1]
  | eo_zxy => [2;0;1] | eo_zxz => [2;0;2] | eo_zyx => [2;1;0] | eo_zyz => [2;1;2]
  end%Z.
Definition ao_name (o : axis_order) : Z * Z * Z :=
  match o with
  | ao_xyz => (0,1,2) | ao_xzy => (0,2,1) | ao_yzx => (1,2,0)
  | ao_yxz => (1,0,2) | ao_zxy => (2,0,1) | ao_zyx => (2,1,0)
  end%Z.
(** the sign of the permutation (i, j, k) of (0, 1, 2): +1 even, -1 odd *)
Definition perm_sign (i j k : Z) : Z := (Z.sgn (j - i) * Z.sgn (k - i) * Z.sgn (k - j))%Z.
