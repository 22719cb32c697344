(** Affine maps, independently of how matrices are built and stored. *)
From Coq Require Import List Arith.
From Verif Require Import Base MiscModel RotModel.
Import ListNotations.
Open Scope nat_scope.

Section Spec.
Context {T : Type} {Op : Ops T}.
Local Infix "+!" := add (at level 50, left associativity).
Local Infix "*!" := mul (at level 40, left associativity).
(** f 0 + ... + f (n-1) *)
Fixpoint sum (n : nat) (f : nat -> T) : T :=
  match n with 0 => zero | S k => sum k f +! f k end.
(** The element of the matrix by which coordinate k of the argument enters
    coordinate i of the result: row i, column k of M when M*v is computed (basis
    vectors are columns), row k, column i when v*M is. *)
Definition coef (m : mx T) (i k : nat) : T :=
  match mbasis m with col_basis => mel m i k | row_basis => mel m k i end.
(** p -> A p and p -> A p + t in n dimensions, t being the (n+1)-st basis vector *)
Definition linear_map (n : nat) (m : mx T) (p : list T) : list T :=
  map (fun i => sum n (fun k => coef m i k *! nth k p zero)) (seq 0 n).
Definition affine_map (n : nat) (m : mx T) (p : list T) : list T :=
  map (fun i => sum n (fun k => coef m i k *! nth k p zero) +! coef m i n) (seq 0 n).
(** large enough to hold an affine map of dimension n *)
Definition holds_affine (n : nat) (m : mx T) : Prop :=
  match mbasis m with
  | row_basis => n + 1 <= mrows m /\ n <= mcols m
  | col_basis => n <= mrows m /\ n + 1 <= mcols m
  end.
Definition holds_linear (n : nat) (m : mx T) : Prop := n <= mrows m /\ n <= mcols m.
Definition same_shape (m m' : mx T) : Prop := mrows m' = mrows m /\ mcols m' = mcols m /\ mbasis m' = mbasis m.
Definition kron (i j : nat) : T := if Nat.eqb i j then one else zero.
(** A A^t = A^t A = 1 for the linear part A *)
Definition orthogonal_part (n : nat) (m : mx T) : Prop := forall i j, i < n -> j < n ->
  sum n (fun k => coef m i k *! coef m j k) = kron i j /\ sum n (fun k => coef m k i *! coef m k j) = kron i j.
(** the coefficients that make up the affine map of dimension n, and the others *)
Definition affine_entry (n i k : nat) : Prop := i < n /\ k <= n.
Definition same_elsewhere (P : nat -> nat -> Prop) (m m' : mx T) : Prop :=
  forall i k, ~ P i k -> coef m' i k = coef m i k.
(** sizes of an affine matrix of dimension n: n+1 basis vectors of n or n+1 elements *)
Definition affine_size (n : nat) (m : mx T) : Prop :=
  match mbasis m with
  | row_basis => mrows m = n + 1 /\ (mcols m = n \/ mcols m = n + 1)
  | col_basis => mcols m = n + 1 /\ (mrows m = n \/ mrows m = n + 1)
  end.
Definition square (n : nat) (m : mx T) : Prop := mrows m = n /\ mcols m = n.
(** a square matrix that takes (p, 1, 0, ...) to (p', 1, 0, ...), p of dimension n *)
Definition affine_form (n : nat) (m : mx T) : Prop :=
  forall i k, n <= i -> i < mrows m -> i < mcols m -> k <= n -> coef m i k = kron i k.
(** ... that takes (p, 0, ...) to (p', 0, ...) *)
Definition vector_form (n : nat) (m : mx T) : Prop :=
  forall i k, n <= i -> i < mrows m -> i < mcols m -> k < n -> coef m i k = zero.
(** homogeneous coordinates of dimension 3: w is the fourth *)
Definition hom (m : mx T) (p : list T) (i : nat) : T :=
  coef m i 0 *! nth 0 p zero +! coef m i 1 *! nth 1 p zero +! coef m i 2 *! nth 2 p zero +! coef m i 3.
End Spec.
