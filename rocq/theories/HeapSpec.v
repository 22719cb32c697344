(** Specification vocabulary for the container layer: what a vector contains,
    what an expression denotes, when two vectors share memory.  Nothing here
    mentions how the code computes. *)
From Coq Require Import List ZArith Bool Arith.
From Verif Require Import Base HeapModel.
Import ListNotations.

Section HeapSpec.
Context {T : Type}.
Notation state := (state T).
Notation vexpr := (vexpr T).

(** Contents of memory cell i of live block b. *)
Definition cellat (s : state) (b i : nat) : option (cell T) :=
  match get_block s b with Some cs => nth_error cs i | None => None end.

(** The n values stored from cell off of block b on; [None] if one of them does
    not exist or is indeterminate. *)
Fixpoint read_window (s : state) (b off n : nat) : option (list T) :=
  match n with
  | O => Some []
  | S n' => match cellat s b off, read_window s b (S off) n' with
            | Some (Some x), Some l => Some (x :: l)
            | _, _ => None
            end
  end.

(** The value of vector o: the list of its elements. *)
Definition value (s : state) (o : nat) : option (list T) :=
  match nth_error (objs s) o with
  | Some (Some v) => match oaddr v with
                     | None => match olen v with O => Some [] | _ => None end
                     | Some (b, off) => read_window s b off (olen v)
                     end
  | _ => None
  end.

(** The contents of vector o including indeterminate elements ([None]). *)
Fixpoint window_cells (s : state) (b off n : nat) : option (list (cell T)) :=
  match n with
  | O => Some []
  | S n' => match cellat s b off, window_cells s b (S off) n' with
            | Some c, Some l => Some (c :: l)
            | _, _ => None
            end
  end.
Definition contents (s : state) (o : nat) : option (list (cell T)) :=
  match nth_error (objs s) o with
  | Some (Some v) => match oaddr v with
                     | None => match olen v with O => Some [] | _ => None end
                     | Some (b, off) => window_cells s b off (olen v)
                     end
  | _ => None
  end.

(** Pointwise combination of two lists of the same length. *)
Fixpoint zip_with (f : T -> T -> T) (l1 l2 : list T) : option (list T) :=
  match l1, l2 with
  | [], [] => Some []
  | x :: l1', y :: l2' => option_map (cons (f x y)) (zip_with f l1' l2')
  | _, _ => None
  end.

Definition delete_nth (k : nat) (l : list T) : list T := firstn k l ++ skipn (S k) l.

(** The mathematical value of an expression, given the values of the vectors it
    mentions; [None] when operand sizes are wrong. *)
Fixpoint den (env : nat -> option (list T)) (e : vexpr) : option (list T) :=
  match e with
  | EObj o => env o
  | ETmp l => Some l
  | EUn f e1 => option_map (map f) (den env e1)
  | EScal f e1 k => option_map (map (fun x => f x k)) (den env e1)
  | EBin f e1 e2 => match den env e1, den env e2 with
                    | Some l1, Some l2 => zip_with f l1 l2
                    | _, _ => None
                    end
  | ECross m d e1 e2 =>
      match den env e1, den env e2 with
      | Some [a0; a1; a2], Some [b0; b1; b2] =>
          Some [d (m a1 b2) (m a2 b1); d (m a2 b0) (m a0 b2); d (m a0 b1) (m a1 b0)]
      | _, _ => None
      end
  | ESub e1 k => match den env e1 with
                 | Some l => if k <? length l then Some (delete_nth k l) else None
                 | None => None
                 end
  end.

(** Size of an expression computed from the sizes of the vectors it mentions;
    [None] if an operation gets operands of the wrong size. *)
Fixpoint shape_of (size : nat -> Z) (e : vexpr) : option Z :=
  match e with
  | EObj o => Some (size o)
  | ETmp l => Some (Z.of_nat (length l))
  | EUn _ e1 | EScal _ e1 _ => shape_of size e1
  | EBin _ e1 e2 => match shape_of size e1, shape_of size e2 with
                    | Some n1, Some n2 => if Z.eqb n1 n2 then Some n1 else None
                    | _, _ => None
                    end
  | ECross _ _ e1 e2 => match shape_of size e1, shape_of size e2 with
                        | Some n1, Some n2 => if Z.eqb n1 3 && Z.eqb n2 3 then Some 3%Z else None
                        | _, _ => None
                        end
  | ESub e1 _ => match shape_of size e1 with Some n => Some (n - 1)%Z | None => None end
  end.

(** Expressions whose i-th element depends on the i-th elements of the operands
    only: +, -, unary minus, * and / by a scalar, Hadamard products, and their
    nestings. *)
Fixpoint elementwise (e : vexpr) : Prop :=
  match e with
  | EObj _ | ETmp _ => True
  | EUn _ e1 | EScal _ e1 _ => elementwise e1
  | EBin _ e1 e2 => elementwise e1 /\ elementwise e2
  | ECross _ _ _ _ | ESub _ _ => False
  end.

(** Cell i of block b belongs to vector o. *)
Definition in_window (s : state) (o b i : nat) : Prop :=
  exists v off, nth_error (objs s) o = Some (Some v) /\ oaddr v = Some (b, off) /\
                off <= i < off + olen v.

Definition overlap (s : state) (o1 o2 : nat) : Prop :=
  exists b i, in_window s o1 b i /\ in_window s o2 b i.

(** Vector o1 shares memory with o2 and starts at a lower address. *)
Definition overlaps_from_below (s : state) (o1 o2 : nat) : Prop :=
  overlap s o1 o2 /\
  exists v1 v2 b off1 off2,
    nth_error (objs s) o1 = Some (Some v1) /\ nth_error (objs s) o2 = Some (Some v2) /\
    oaddr v1 = Some (b, off1) /\ oaddr v2 = Some (b, off2) /\ off1 < off2.

(** Vector o holds a whole allocation of its own (dynamic storage). *)
Definition owns_block (s : state) (o : nat) : Prop :=
  exists v, nth_error (objs s) o = Some (Some v) /\ okind v = KAllocated /\
  match oaddr v with
  | None => olen v = 0
  | Some (b, off) => off = 0 /\ exists cs, get_block s b = Some cs /\ length cs = olen v
  end.

(** Vector o exists and its elements are memory cells (perhaps indeterminate). *)
Definition mapped (s : state) (o : nat) : Prop :=
  exists v, nth_error (objs s) o = Some (Some v) /\
  match oaddr v with
  | None => olen v = 0
  | Some (b, off) => forall i, i < olen v -> exists c, cellat s b (off + i) = Some c
  end.

(** A scalar passed by reference: the value it refers to, and whether it refers to
    an element of vector o. *)
Definition ref_value (s : state) (r : sref T) : option T :=
  match r with
  | SVal x => Some x
  | SCell b i => match cellat s b i with Some (Some x) => Some x | _ => None end
  end.
Definition ref_inside (s : state) (r : sref T) (o : nat) : Prop :=
  match r with SVal _ => False | SCell b i => in_window s o b i end.

(** The next allocation succeeds. *)
Definition alloc_succeeds (s : state) : Prop := hd true (sched s) = true.

(** Every other vector keeps its storage, and its value unless it shares memory
    with o. *)
Definition others_kept (s s' : state) (o : nat) : Prop :=
  forall o', o' <> o -> nth_error (objs s') o' = nth_error (objs s) o' /\
                        (~ overlap s o' o -> value s' o' = value s o').

(** The same, for the vectors that exist and have their memory. *)
Definition frame (s s' : state) (o : nat) : Prop :=
  forall o', o' <> o -> mapped s o' \/ (exists l, value s o' = Some l) ->
    nth_error (objs s') o' = nth_error (objs s) o' /\
    (~ overlap s o' o -> value s' o' = value s o').

(** List with position i replaced by x. *)
Definition replace_nth (l : list T) (i : nat) (x : T) : list T :=
  firstn i l ++ x :: skipn (S i) l.

(** What scaling by the vector's own element j (value c) does: the elements after
    j are combined with the already updated element. *)
Definition self_scaled (f : T -> T -> T) (l : list T) (j : nat) (c : T) : list T :=
  map (fun x => f x c) (firstn (S j) l) ++ map (fun x => f x (f c c)) (skipn (S j) l).

(** Memory is in order: every vector holds a whole live allocation of exactly its
    size (or nothing, with size 0), no allocation has two owners, and every live
    allocation has one. *)
Definition sound (s : state) : Prop :=
  (forall o v, nth_error (objs s) o = Some (Some v) -> owns_block s o) /\
  (forall o1 o2 v1 v2 b f1 f2,
     nth_error (objs s) o1 = Some (Some v1) -> nth_error (objs s) o2 = Some (Some v2) ->
     oaddr v1 = Some (b, f1) -> oaddr v2 = Some (b, f2) -> o1 = o2) /\
  (forall b cs, get_block s b = Some cs ->
     exists o v off, nth_error (objs s) o = Some (Some v) /\ oaddr v = Some (b, off)).

(** o occurs in a subvector() argument inside e. *)
Fixpoint under_sub (o : nat) (e : vexpr) : Prop :=
  match e with
  | EObj _ | ETmp _ => False
  | EUn _ e1 | EScal _ e1 _ => under_sub o e1
  | EBin _ e1 e2 | ECross _ _ e1 e2 => under_sub o e1 \/ under_sub o e2
  | ESub e1 _ => In o (e_objs e1)
  end.

(** Calls that do not assign to a vector that occurs in a subvector() of the
    right-hand side, nor set a vector from itself plus more elements. *)
Definition no_self_sub (p : op T) : Prop :=
  match p with
  | OpAssign o e | OpCompound _ o e => ~ under_sub o e
  | OpParts o e _ => ~ In o (e_objs e)
  | _ => True
  end.

End HeapSpec.
