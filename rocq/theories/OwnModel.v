(** Vectors, matrices and quaternions that are set from their own elements.

    Memory is one array of elements (a C array, the elements of an object).  A vector or
    matrix is a window of it: the whole array for a fixed vector or matrix, any part of it
    for an external one.  A source is read at the moment the code reads it.  Storage that
    can be reallocated is HeapModel.v's subject. *)
From Coq Require Import List Bool Arith.
From Verif Require Import Base MatModel QuatModel.
Import ListNotations.
Open Scope nat_scope.

Section Own.
Context {T : Type}.
Notation mem := (list T).

(** A scalar passed as [const E&]: a value of its own, or the element at position p of the
    memory.  Conversions between element types are not modelled. *)
Inductive ref : Type := RVal (x : T) | RMem (p : nat).
Definition rread (r : ref) (m : mem) : out T :=
  match r with
  | RVal x => Ok x
  | RMem p => match nth_error m p with Some x => Ok x | None => UB end
  end.
(** m_data[p] = value_type(v): vector/fixed_external.tpp, fixed_compiled.tpp,
    dynamic_external.tpp i_put; matrix likewise (matrix/fixed_external.tpp:116-124) *)
Definition poke (p : nat) (x : T) (m : mem) : out mem :=
  if p <? length m then Ok (firstn p m ++ x :: skipn (S p) m) else UB.
Definition put_ref (p : nat) (r : ref) (m : mem) : out mem := x <- rread r m ;; poke p x m.

(** The values of an initializer list are copies made by the caller before the call
    ([dcl.init.list]: each element is copy-initialized). *)
Fixpoint copies (rs : list ref) (m : mem) : out (list T) :=
  match rs with
  | [] => Ok []
  | r :: rs' => x <- rread r m ;; xs <- copies rs' m ;; Ok (x :: xs)
  end.

(** A vector of n elements starting at position b. *)
Record vecw : Type := Vecw { vb : nat; vn : nat }.
Definition vput (v : vecw) (i : nat) (r : ref) (m : mem) : out mem :=
  if i <? vn v then put_ref (vb v + i) r m else UB.
(** vector/writable_vector.tpp:16-34 *)
Fixpoint v_pack (v : vecw) (i : nat) (rs : list ref) (m : mem) : out mem :=
  match rs with
  | [] => Ok m
  | r :: rs' => m' <- vput v i r m ;; v_pack v (S i) rs' m'
  end.
(** writable_vector.tpp:230-245 set(e0, eN...), 449-457 assign_elements; the size check of a
    fixed vector is made at compile time *)
Definition v_set (v : vecw) (rs : list ref) (m : mem) : out mem :=
  _ <- require (Nat.eqb (vn v) (length rs)) EVectorSize ;; v_pack v 0 rs m.
(** writable_vector.tpp:272-279 operator=(array), 405-413 assign: an array of n elements at
    position p *)
Definition v_array (v : vecw) (p n : nat) (m : mem) : out mem :=
  _ <- require (Nat.eqb (vn v) n) EVectorSize ;;
  loop 0 n (fun i m => vput v i (RMem (p + i)) m) m.
(** writable_vector.tpp:289-296 operator=(initializer_list), 424-435 assign *)
Definition v_list (v : vecw) (rs : list ref) (m : mem) : out mem :=
  xs <- copies rs m ;;
  _ <- require (Nat.eqb (vn v) (length xs)) EVectorSize ;;
  v_pack v 0 (map RVal xs) m.

(** A rows x cols matrix starting at position b. *)
Record matw : Type := Matw { wb : nat; wr : nat; wc : nat; wl : layout }.
(** matrix/fixed_external.h:201-213 s_access *)
Definition mpos (w : matw) (i j : nat) : nat := wb w + index (wl w) (wr w) (wc w) i j.
Definition mput (w : matw) (i j : nat) (r : ref) (m : mem) : out mem :=
  if (i <? wr w) && (j <? wc w) then put_ref (mpos w i j) r m else UB.
(** matrix/writable_matrix.tpp:278-285 operator=(array), 425-436 assign: an array of n elements
    at position p; check_same_linear_size (size_checking.tpp:102-113) *)
Definition m_array (w : matw) (p n : nat) (m : mem) : out mem :=
  _ <- require (Nat.eqb (wr w * wc w) n) EIncompatibleMatrixSize ;;
  loop 0 n (fun i m => mput w (i / wc w) (i mod wc w) (RMem (p + i)) m) m.
(** matrix/detail/copy.h:11-33: the order is that of the layout of the target *)
Definition m_copy (w : matw) (src : nat -> nat -> ref) (m : mem) : out mem :=
  match wl w with
  | row_major => loop 0 (wr w) (fun i => loop 0 (wc w) (fun j => mput w i j (src i j))) m
  | col_major => loop 0 (wc w) (fun j => loop 0 (wr w) (fun i => mput w i j (src i j))) m
  end.
(** writable_matrix.tpp:296-302 operator=(array[R][C]), 438-446 assign; detail/get.h:25-30: the
    array starts at position p; check_or_resize.h:12-18 *)
Definition m_array2 (w : matw) (p r c : nat) (m : mem) : out mem :=
  _ <- require (Nat.eqb (wr w) r && Nat.eqb (wc w) c) EIncompatibleMatrixSize ;;
  m_copy w (fun i j => RMem (p + (i * c + j))) m.
(** writable_matrix.tpp:262-268 operator=(readable_matrix), 415-423 assign: another matrix over
    the same memory *)
Definition m_mat (w w2 : matw) (m : mem) : out mem :=
  _ <- require (Nat.eqb (wr w) (wr w2) && Nat.eqb (wc w) (wc w2)) EIncompatibleMatrixSize ;;
  m_copy w (fun i j => RMem (mpos w2 i j)) m.
(** writable_matrix.tpp:313-319 operator=(initializer_list), 458-470 assign *)
Definition m_list (w : matw) (rs : list ref) (m : mem) : out mem :=
  xs <- copies rs m ;;
  _ <- require (Nat.eqb (wr w * wc w) (length xs)) EIncompatibleMatrixSize ;;
  loop 0 (length xs) (fun i m =>
    match nth_error xs i with Some x => mput w (i / wc w) (i mod wc w) (RVal x) m | None => UB end) m.

(** quaternion/writable_quaternion.tpp:234-274 set(v, s) and set(s, v), 444-455 assign.  The memory
    is m_data[4]; the vector gives references to its three elements (imaginary_node.tpp:43-48, a
    vector over q.data(), a vector elsewhere). *)
Definition q_setv (o : order) (s : ref) (v : list ref) (m : mem) : out mem :=
  _ <- require (Nat.eqb (length v) 3) EVectorSize ;;
  m <- put_ref (oW o) s m ;;
  m <- put_ref (oX o) (nth 0 v (RMem 4)) m ;;
  m <- put_ref (oY o) (nth 1 v (RMem 4)) m ;;
  put_ref (oZ o) (nth 2 v (RMem 4)) m.
(** imaginary(q): imaginary_node.tpp:43-48 *)
Definition imag_refs (o : order) : list ref := [RMem (oX o); RMem (oX o + 1); RMem (oX o + 2)].
(** writable_quaternion.tpp:310-316 operator=(initializer_list), 498-512 assign *)
Definition q_list (o : order) (rs : list ref) (m : mem) : out mem :=
  xs <- copies rs m ;;
  _ <- require (Nat.eqb (length xs) 4) EQuaternionSize ;;
  let a i := match nth_error xs i with Some x => RVal x | None => RMem 4 end in
  m <- put_ref (oW o) (a (oW o)) m ;;
  m <- put_ref (oX o) (a (oX o)) m ;;
  m <- put_ref (oY o) (a (oY o)) m ;;
  put_ref (oZ o) (a (oZ o)) m.

End Own.
Arguments ref T : clear implicits.
