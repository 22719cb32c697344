(** Specification vocabulary for dynamic matrices in memory: the matrix an object
    denotes, soundness of the memory, when nothing changed. *)
From Coq Require Import List ZArith Bool Arith.
From Verif Require Import Base HeapModel HeapSpec MatModel MHeapModel.
Import ListNotations.

Section MHeapSpec.
Context {T : Type}.
Notation mstate := (mstate T).
Notation hexpr := (hexpr T).

(** Object o exists. *)
Definition exists_m (s : mstate) (o : nat) : Prop :=
  exists v, nth_error (objs (heap s)) o = Some (Some v).

(** Memory cell k of the array of object o. *)
Definition lincell (s : mstate) (o k : nat) : option (cell T) :=
  match nth_error (objs (heap s)) o with
  | Some (Some v) => match oaddr v with
                     | Some (b, off) => cellat (heap s) b (off + k)
                     | None => None
                     end
  | _ => None
  end.

(** Element (i, j) of object o; [None] if indeterminate. *)
Definition element (s : mstate) (o i j : nat) : option T :=
  let d := m_dim s o in
  match lincell s o (index (dlay d) (drows d) (dcols d) i j) with
  | Some c => c
  | None => None
  end.

(** The matrix that object o denotes, as a value (MatModel.v). *)
Definition matrix_of (s : mstate) (o : nat) : fmat T :=
  let d := m_dim s o in
  FM (drows d) (dcols d) row_basis (dlay d) MDynamic (element s o).

(** Same size, layout and elements. *)
Definition same_matrix (m m' : fmat T) : Prop :=
  fr m = fr m' /\ fc m = fc m' /\ fl m = fl m' /\
  forall i j, i < fr m -> j < fc m -> fe m i j = fe m' i j.

(** Every matrix is one whole live allocation of exactly rows*cols elements (or
    nothing, with no elements), no allocation has two owners, and every live
    allocation has one. *)
Definition memory_sound (s : mstate) : Prop :=
  sound (heap s) /\ length (dims s) = length (objs (heap s)) /\
  forall o v, nth_error (objs (heap s)) o = Some (Some v) ->
    olen v = drows (m_dim s o) * dcols (m_dim s o).

(** Every matrix of s other than those in l still exists and is the same. *)
Definition kept_except (l : list nat) (s s' : mstate) : Prop :=
  forall o, exists_m s o -> ~ In o l -> exists_m s' o /\ same_matrix (matrix_of s' o) (matrix_of s o).
Definition all_kept (s s' : mstate) : Prop := kept_except [] s s'.

(** The next allocation succeeds. *)
Definition alloc_ok (s : mstate) : Prop := alloc_succeeds (heap s).

(** The call runs out of memory, and then no matrix has changed, or it returns a
    result in a state satisfying P. *)
Definition or_bad_alloc {A : Type} (s : mstate) (y : nres T A) (P : A -> mstate -> Prop) : Prop :=
  (exists s', y = NThrow EBadAlloc s' /\ ~ alloc_ok s /\ memory_sound s' /\ all_kept s s') \/
  (exists a s', y = NOk a s' /\ memory_sound s' /\ P a s').

(** The expression with every operand replaced by its value; o, the target, stays
    by name. *)
Fixpoint by_value (s : mstate) (o : nat) (e : hexpr) : mexpr T :=
  match e with
  | HObj o' => if Nat.eqb o' o then XSelf else XMat (matrix_of s o')
  | HTmp r c f => XMat (FM r c row_basis row_major MDynamic (fun i j => Some (f i j)))
  | HUn f e1 => XUn f (by_value s o e1)
  | HBin f e1 e2 => XBin f (by_value s o e1) (by_value s o e2)
  | HScal f e1 k => XScal f (by_value s o e1) k
  | HTrans e1 => XTrans (by_value s o e1)
  end.

(** o occurs in the argument of a transpose(). *)
Fixpoint under_transpose (o : nat) (e : hexpr) : Prop :=
  match e with
  | HObj _ | HTmp _ _ _ => False
  | HUn _ e1 | HScal _ e1 _ => under_transpose o e1
  | HBin _ e1 e2 => under_transpose o e1 \/ under_transpose o e2
  | HTrans e1 => In o (h_objs e1)
  end.

(** Rows and columns of the expression; [None] when an operation gets operands of
    different size. *)
Fixpoint h_shape (s : mstate) (e : hexpr) : option (nat * nat) :=
  match e with
  | HObj o => Some (drows (m_dim s o), dcols (m_dim s o))
  | HTmp r c _ => Some (r, c)
  | HUn _ e1 | HScal _ e1 _ => h_shape s e1
  | HBin _ e1 e2 =>
      match h_shape s e1, h_shape s e2 with
      | Some (r1, c1), Some (r2, c2) =>
          if Nat.eqb r1 r2 && Nat.eqb c1 c2 then Some (r1, c1) else None
      | _, _ => None
      end
  | HTrans e1 => match h_shape s e1 with Some (r, c) => Some (c, r) | None => None end
  end.

(** Element (i, j) of the mathematical value of the expression in state s. *)
Fixpoint h_val (s : mstate) (e : hexpr) (i j : nat) : option T :=
  match e with
  | HObj o => element s o i j
  | HTmp _ _ f => Some (f i j)
  | HUn f e1 => option_map f (h_val s e1 i j)
  | HScal f e1 k => option_map (fun x => f x k) (h_val s e1 i j)
  | HBin f e1 e2 => match h_val s e1 i j, h_val s e2 i j with
                    | Some x, Some y => Some (f x y)
                    | _, _ => None
                    end
  | HTrans e1 => h_val s e1 j i
  end.

(** The expression has r rows, c columns and elements F. *)
Definition denotes (s : mstate) (e : hexpr) (r c : nat) (F : nat -> nat -> T) : Prop :=
  (forall o, In o (h_objs e) -> exists_m s o) /\ h_shape s e = Some (r, c) /\
  forall i j, i < r -> j < c -> h_val s e i j = Some (F i j).

(** Object o is an r x c matrix with elements F. *)
Definition holds (s : mstate) (o r c : nat) (F : nat -> nat -> T) : Prop :=
  exists_m s o /\ drows (m_dim s o) = r /\ dcols (m_dim s o) = c /\
  forall i j, i < r -> j < c -> element s o i j = Some (F i j).

(** Calls that do not assign a matrix from its own transpose, and constructor calls
    that pass as many elements as the size they ask for. *)
Definition proper (p : mop T) : Prop :=
  match p with
  | MAssign o e | MCompound _ o e => ~ under_transpose o e
  | MElements _ r c l | MArray _ r c l =>
      (0 <= r)%Z -> (0 <= c)%Z -> Z.of_nat (length l) = (r * c)%Z
  | _ => True
  end.

(** Some live allocation belongs to no object. *)
Definition leaked (s : mstate) : Prop :=
  exists b cs, get_block (heap s) b = Some cs /\
    forall o v off, nth_error (objs (heap s)) o = Some (Some v) -> oaddr v <> Some (b, off).

End MHeapSpec.
