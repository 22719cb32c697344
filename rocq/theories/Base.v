(** Control layer shared by every model file: outcomes, exceptions, counted
    loops, scalar operations.  No proofs here. *)
From Coq Require Import List ZArith Bool Arith.
Import ListNotations.

(** Exception classes thrown by CML.
    Models: cml/vector/size_checking.h (vector_*_error),
    cml/matrix/size_checking.h:15-90 (matrix errors),
    std::invalid_argument (cml/common/exception.h cml_require uses),
    std::bad_alloc (allocator_traits::allocate). *)
Inductive exn : Type :=
| EIncompatibleVectorSize    (* cml::incompatible_vector_size_error *)
| EMinimumVectorSize         (* cml::minimum_vector_size_error *)
| EVectorSize                (* cml::vector_size_error *)
| EVectorSizeRange           (* cml::vector_size_range_error *)
| EIncompatibleMatrixSize    (* cml::incompatible_matrix_size_error *)
| EMinimumMatrixSize         (* cml::minimum_matrix_size_error *)
| EMatrixSize                (* cml::matrix_size_error *)
| EIncompatibleMatrixRowSize
| EIncompatibleMatrixColSize
| EIncompatibleMatrixInnerSize
| ENonSquareMatrix           (* cml::non_square_matrix_error *)
| EQuaternionSize            (* cml::quaternion_size_error *)
| EAffineMatrixSize          (* cml::affine_matrix_size_error *)
| EInvalidArgument           (* std::invalid_argument *)
| EBadAlloc.                 (* std::bad_alloc *)

(** Result of running a piece of C++ code: a value, a thrown exception, or
    undefined behaviour (out-of-range access, read of an indeterminate or freed
    element, signed overflow of a size). *)
Inductive out (A : Type) : Type :=
| Ok (a : A)
| Throw (e : exn)
| UB.
Arguments Ok {A} a.
Arguments Throw {A} e.
Arguments UB {A}.

Definition bind {A B : Type} (x : out A) (f : A -> out B) : out B :=
  match x with
  | Ok a => f a
  | Throw e => Throw e
  | UB => UB
  end.

Notation "x <- e ;; k" := (bind e (fun x => k))
  (at level 61, e at next level, right associativity).
Notation "' p <- e ;; k" := (bind e (fun x => match x with p => k end))
  (at level 61, p pattern, e at next level, right associativity).
Notation "e ;;; k" := (bind e (fun _ => k))
  (at level 61, right associativity).

(** cml_require(cond, e, msg): cml/common/exception.h:10-12. *)
Definition require (c : bool) (e : exn) : out unit :=
  if c then Ok tt else Throw e.

(** [for_n n i f s] runs [f i; f (i+1); ...; f (i+n-1)] threading the state: the
    C++ counted loop  for(int i = lo; i < hi; ++i). *)
Fixpoint for_n {S : Type} (n i : nat) (f : nat -> S -> out S) (s : S) : out S :=
  match n with
  | O => Ok s
  | Datatypes.S n' => s' <- f i s ;; for_n n' (Datatypes.S i) f s'
  end.

Definition loop {S : Type} (lo hi : nat) (f : nat -> S -> out S) (s : S) : out S :=
  for_n (hi - lo) lo f s.

(** for(int i = hi-1; i >= lo; --i). *)
Fixpoint for_down {S : Type} (n lo : nat) (f : nat -> S -> out S) (s : S) : out S :=
  match n with
  | O => Ok s
  | Datatypes.S n' => s' <- f (lo + n') s ;; for_down n' lo f s'
  end.

Definition loop_down {S : Type} (lo hi : nat) (f : nat -> S -> out S) (s : S) : out S :=
  for_down (hi - lo) lo f s.

(** Operations of the scalar type.  No law is assumed: a float, an integer or a
    field are all instances.  [ltb a b] is C++ [a < b]; [a > b] is [ltb b a];
    [eqb] is C++ [==]. *)
Class Ops (T : Type) : Type := {
  zero : T; one : T;
  add : T -> T -> T; sub : T -> T -> T; mul : T -> T -> T; div : T -> T -> T;
  neg : T -> T;
  ltb : T -> T -> bool; eqb : T -> T -> bool }.

(** The cmath functions used through scalar_traits<T>
    (cml/scalar/traits.h:36-99, 119-152) and constants<T>. *)
Class MathOps (T : Type) : Type := {
  mfabs : T -> T; mfmod : T -> T -> T; msqrt : T -> T;
  mcos : T -> T; msin : T -> T; mtan : T -> T;
  macos : T -> T; masin : T -> T; matan2 : T -> T -> T;
  mlog : T -> T; mexp : T -> T; mpi : T }.

(** std::min(a,b) = (b < a) ? b : a;  std::max(a,b) = (a < b) ? b : a. *)
Definition std_min {T} `{Ops T} (a b : T) : T := if ltb b a then b else a.
Definition std_max {T} `{Ops T} (a b : T) : T := if ltb a b then b else a.

(** T(2), T(3), T(4) literals are built from one. *)
Definition two {T} `{Ops T} : T := add one one.

(** Matrix layout and basis tags: cml/common/layout_tags.h, basis_tags.h. *)
Inductive layout : Type := row_major | col_major.
Inductive basis : Type := row_basis | col_basis.

(** Sequence [f 0, ..., f (n-1)] of reads, left to right. *)
Fixpoint mapO {A B : Type} (f : A -> out B) (l : list A) : out (list B) :=
  match l with
  | [] => Ok []
  | a :: l' => b <- f a ;; bs <- mapO f l' ;; Ok (b :: bs)
  end.

(** list element update used as memory write; [None] when out of range *)
Fixpoint list_put {A : Type} (l : list A) (i : nat) (x : A) : option (list A) :=
  match l, i with
  | [], _ => None
  | _ :: l', O => Some (x :: l')
  | a :: l', S i' => match list_put l' i' x with
                     | Some r => Some (a :: r)
                     | None => None
                     end
  end.
