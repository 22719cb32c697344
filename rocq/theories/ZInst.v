(** Integers as scalar type (C++ integer arithmetic without overflow; / truncates). *)
From Coq Require Import ZArith Ring_theory InitialRing.
From Verif Require Import Base.
#[export] Instance ZOps : Ops Z := {|
  zero := 0%Z; one := 1%Z; add := Z.add; sub := Z.sub; mul := Z.mul; div := Z.quot;
  neg := Z.opp; ltb := Z.ltb; eqb := Z.eqb |}.
Lemma Zring : ring_theory (zero : Z) one add mul sub neg eq.
Proof. exact Zth. Qed.
