(** Integer matrices: product, identity, adjugate, inverse. *)
From Coq Require Import ZArith Arith List.
From Verif Require Import Base IntModel PropInt.
Import ListNotations.
Open Scope Z_scope.

Definition zmul (n : nat) (A B : nat -> nat -> Z) (i j : nat) : Z := zsum n (fun k => A i k * B k j).
Definition zid (i j : nat) : Z := if Nat.eqb i j then 1 else 0.
(** M without row i and column j *)
Definition zstrike (M : nat -> nat -> Z) (i j a b : nat) : Z :=
  M (if (a <? i)%nat then a else S a) (if (b <? j)%nat then b else S b).
(** entry (i, j) is the cofactor of M(j, i) *)
Definition zadj (n : nat) (M : nat -> nat -> Z) (i j : nat) : Z :=
  (-1) ^ Z.of_nat (i + j) * zdet (n - 1) (zstrike M j i).
Definition same_upto (n : nat) (A B : nat -> nat -> Z) : Prop := forall i j, (i < n)%nat -> (j < n)%nat -> A i j = B i j.
(** N is the inverse of M *)
Definition inverts (n : nat) (N M : nat -> nat -> Z) : Prop := same_upto n (zmul n N M) zid /\ same_upto n (zmul n M N) zid.
(** ... modulo m *)
Definition inverts_mod (m : Z) (n : nat) (N M : nat -> nat -> Z) : Prop :=
  forall i j, (i < n)%nat -> (j < n)%nat ->
    zmul n N M i j mod m = zid i j mod m /\ zmul n M N i j mod m = zid i j mod m.
(** int and wider types: what the outcome q of dividing a by d says *)
Definition quotient_outcome (t : ity) (q : option Z) (a d : Z) : Prop :=
  if signed t
  then (d = 0 -> q = None) /\ (forall z, q = Some z -> d <> 0 /\ z = Z.quot a d)
  else q = if d mod 2 ^ bits t =? 0 then None else Some ((a mod 2 ^ bits t) / (d mod 2 ^ bits t)).
(** f 0 * ... * f (n-1) *)
Fixpoint zprod (n : nat) (f : nat -> Z) : Z := match n with O => 1 | S n' => zprod n' f * f n' end.
