(** Construction of a cross-product node from temporaries. *)
From Coq Require Import List ZArith Bool Arith.
From Verif Require Import Base HeapModel.
Import ListNotations.

Section CrossMove.
Context {T : Type}.

(** An operand as cross() receives it: an lvalue (the node keeps a reference), or
    a dynamic temporary, whose storage the node takes over by std::move
    (dynamic_allocated.tpp:38-44 leaves the source with size 0), or a temporary of
    fixed size, which a move copies. *)
Inductive operand : Type := OLvalue (l : list T) | ODynTemp (l : list T) | OFixTemp (l : list T).
Definition op_elems (a : operand) : list T :=
  match a with OLvalue l | ODynTemp l | OFixTemp l => l end.
Definition moved_from (a : operand) : operand :=
  match a with ODynTemp _ => ODynTemp [] | _ => a end.

(** cross_node.tpp:16-25: the members are initialised by std::move(left),
    std::move(right); then the *parameters* left and right are checked. *)
Definition cross_construct_rvalue (left right : operand) : out (operand * operand) :=
  let m_left := left in
  let m_right := right in
  let left := moved_from left in
  let right := moved_from right in
  require (Nat.eqb (length (op_elems left)) 3) EVectorSize ;;;
  require (Nat.eqb (length (op_elems right)) 3) EVectorSize ;;;
  Ok (m_left, m_right).

(** binary_node.tpp:16-24 checks the members. *)
Definition binary_construct_rvalue (left right : operand) : out (operand * operand) :=
  let m_left := left in
  let m_right := right in
  require (Nat.eqb (length (op_elems m_left)) (length (op_elems m_right))) EIncompatibleVectorSize ;;;
  Ok (m_left, m_right).

(** No operand of cross() is a dynamic temporary: three-element operands are
    accepted exactly, as written. *)
Definition not_dyn (a : operand) : Prop := match a with ODynTemp _ => False | _ => True end.

Lemma cross_lvalues_l a b : not_dyn a -> not_dyn b ->
  (length (op_elems a) = 3 /\ length (op_elems b) = 3 -> cross_construct_rvalue a b = Ok (a, b)) /\
  (length (op_elems a) <> 3 \/ length (op_elems b) <> 3 ->
   cross_construct_rvalue a b = Throw EVectorSize).
Proof.
  intros Ha Hb. unfold cross_construct_rvalue.
  assert (moved_from a = a) as -> by (destruct a; simpl in *; tauto).
  assert (moved_from b = b) as -> by (destruct b; simpl in *; tauto).
  split.
  - intros [-> ->]. reflexivity.
  - intros H. destruct (Nat.eqb_spec (length (op_elems a)) 3); simpl; auto.
    destruct (Nat.eqb_spec (length (op_elems b)) 3); simpl; auto. tauto.
Qed.

Lemma cross_dyn_temp_l l b : cross_construct_rvalue (ODynTemp l) b = Throw EVectorSize.
Proof. reflexivity. Qed.
Lemma cross_dyn_temp_r l b : length (op_elems b) = 3 -> not_dyn b ->
  cross_construct_rvalue b (ODynTemp l) = Throw EVectorSize.
Proof.
  intros H Hb. unfold cross_construct_rvalue.
  assert (moved_from b = b) as -> by (destruct b; simpl in *; tauto). rewrite H. reflexivity.
Qed.
Lemma binary_temps_l a b : length (op_elems a) = length (op_elems b) ->
  binary_construct_rvalue a b = Ok (a, b).
Proof. intros H. unfold binary_construct_rvalue. rewrite H, Nat.eqb_refl. reflexivity. Qed.

End CrossMove.
Arguments operand : clear implicits.
