(** Linear algebra over an arbitrary commutative ring, field or ordered field,
    with the matrices, products, permutations and determinants of mathcomp: the
    specification side of the LU, determinant and inverse properties. *)
From mathcomp Require Import all_ssreflect all_algebra.
From Verif Require Import Base RotModel LUModel.
Set Implicit Arguments.
Unset Strict Implicit.
Unset Printing Implicit Defensive.
Import GRing.Theory Num.Theory.
Local Open Scope ring_scope.

(** exact arithmetic in a ring; [dv] and [lt] are the division and the comparison *)
Definition ring_ops (R : comRingType) (dv : R -> R -> R) (lt : R -> R -> bool) : Ops R :=
  @Build_Ops R 0 1 (fun x y => x + y) (fun x y => x - y) (fun x y => x * y) dv (fun x => - x)
    lt (fun x y => x == y).
(** exact arithmetic in a field, with any comparison; in an ordered field *)
Definition field_ops (F : fieldType) (lt : F -> F -> bool) : Ops F :=
  ring_ops (fun x y => x / y) lt.
Definition ordered_ops (F : realFieldType) : Ops F := field_ops (fun x y => x < y).

Section Views.
Variable R : ringType.
(** the n x n matrix with the given elements *)
Definition to_mx (n : nat) (M : nat -> nat -> R) : 'M[R]_n := \matrix_(i, j) M i j.
(** the unit lower triangular and the upper triangular part *)
Definition lower (n : nat) (M : nat -> nat -> R) : 'M[R]_n :=
  \matrix_(i, j) (if (j < i)%N then M i j else (i == j)%:R).
Definition upper (n : nat) (M : nat -> nat -> R) : 'M[R]_n :=
  \matrix_(i, j) (if (i <= j)%N then M i j else 0).
(** a vector as a column *)
Definition to_col (n : nat) (v : seq R) : 'cV[R]_n := \col_i nth 0 v i.
End Views.

(** the diagonal exceeds, by at least [e], the sum of the magnitudes of the other
    elements of its column (and is positive); of its row *)
Definition dominant_columns (F : realFieldType) (e : F) (n : nat) (M : nat -> nat -> F) : Prop :=
  forall j : 'I_n, \sum_(i < n | i != j) `|M i j| + e <= M j j.
Definition dominant_rows (F : realFieldType) (e : F) (n : nat) (M : nat -> nat -> F) : Prop :=
  forall i : 'I_n, \sum_(j < n | j != i) `|M i j| + e <= `|M i i|.
(** the sizes with closed formulas *)
Definition small (n : nat) : bool := n \in [:: 2; 3; 4]%N.
(** [B] is the two-sided inverse of [A] *)
Definition inverse_of (F : fieldType) (n : nat) (A B : nat -> nat -> F) : Prop :=
  to_mx n A *m to_mx n B = 1%:M /\ to_mx n B *m to_mx n A = 1%:M.
