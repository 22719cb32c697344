(** What a call that stores several values one after another leaves in memory, when some of the
    values are given by reference to elements of the same memory. *)
From Coq Require Import List Bool Arith.
From Verif Require Import Base MatModel OwnModel.
Import ListNotations.

Section Spec.
Context {T : Type}.
Notation mem := (list T).
Implicit Types (m : mem) (slot : nat -> nat) (args : list (ref T)).

(** What argument r is worth in memory m. *)
Definition worth (r : ref T) (m : mem) : option T :=
  match r with RVal x => Some x | RMem p => nth_error m p end.
(** Position p is the slot of a value stored before the k-th. *)
Definition stored_before slot (k p : nat) : Prop := exists j, j < k /\ slot j = p.

(** The k-th value goes to position [slot k].  An argument that refers to a slot written earlier
    delivers the new contents, any other the old contents.  The rest of the memory is kept. *)
Definition lands slot args (m m' : list T) : Prop :=
  length m' = length m /\
  (forall p, (forall k, k < length args -> slot k <> p) -> nth_error m' p = nth_error m p) /\
  (forall k x, nth_error args k = Some (RVal x) -> nth_error m' (slot k) = Some x) /\
  (forall k p, nth_error args k = Some (RMem p) -> stored_before slot k p ->
               nth_error m' (slot k) = nth_error m' p) /\
  (forall k p, nth_error args k = Some (RMem p) -> ~ stored_before slot k p ->
               nth_error m' (slot k) = nth_error m p).

(** What the caller means: every slot gets what its argument was worth before the call. *)
Definition by_value slot args (m m' : list T) : Prop :=
  length m' = length m /\
  (forall p, (forall k, k < length args -> slot k <> p) -> nth_error m' p = nth_error m p) /\
  (forall k r, nth_error args k = Some r -> nth_error m' (slot k) = worth r m).

(** The arguments refer to elements that exist. *)
Definition sound_args args m : Prop := forall r, In r args -> worth r m <> None.
(** The window of a vector or matrix is in the memory. *)
Definition v_fits (v : vecw) m : Prop := vb v + vn v <= length m.
Definition m_fits (w : matw) m : Prop := wb w + wr w * wc w <= length m.
Definition m_at (w : matw) m (i j : nat) : option T := nth_error m (mpos w i j).
End Spec.
