(** Vocabulary for threads: what a thread can reach, and when threads have nothing that one
    of them may write in common. *)
From Coq Require Import List ZArith Bool Arith.
From Verif Require Import Base HeapModel HeapSpec ConcModel.
Import ListNotations.

Section ConcSpec.
Context {T : Type}.
Notation state := (state T).

Definition live (s : state) (b : nat) : Prop := exists cs, nth_error (blocks s) b = Some (Live cs).

(** The ways of a thread to memory: a vector, or a block it has just allocated. *)
Inductive slot : Type := SName (i : nat) | SBlock (h : nat).
(** block b is the memory behind x *)
Definition reach (s : state) (e : tenv) (x : slot) (b : nat) : Prop :=
  match x with
  | SName i => exists o w v off, nth_error (names e) i = Some (o, w) /\
                 nth_error (objs s) o = Some (Some v) /\ oaddr v = Some (b, off) /\ live s b
  | SBlock h => nth_error (handles e) h = Some (Some b) /\ live s b
  end.
(** the thread may write through x *)
Definition may_write (e : tenv) (x : slot) : Prop :=
  match x with
  | SName i => exists o, nth_error (names e) i = Some (o, true)
  | SBlock h => True
  end.

(** No vector that some thread may write is known under another name, to this thread or
    any other; and no memory of such a vector is reached in another way. *)
Definition separated (es : list tenv) (s : state) : Prop :=
  (forall t t' e e' i j o w, nth_error es t = Some e -> nth_error es t' = Some e' ->
     nth_error (names e) i = Some (o, true) -> nth_error (names e') j = Some (o, w) -> t = t' /\ i = j) /\
  (forall t t' e e' x y b, nth_error es t = Some e -> nth_error es t' = Some e' ->
     may_write e x -> reach s e x b -> reach s e' y b -> t = t' /\ x = y).

(** Names stand for existing vectors (alive or not), their pointers and the thread's
    blocks for existing memory. *)
Definition meaningful (s : state) (e : tenv) : Prop :=
  (forall i o w, nth_error (names e) i = Some (o, w) -> o < length (objs s)) /\
  (forall i o w v b off, nth_error (names e) i = Some (o, w) -> nth_error (objs s) o = Some (Some v) ->
     oaddr v = Some (b, off) -> b < length (blocks s)) /\
  (forall h b, nth_error (handles e) h = Some (Some b) -> live s b).

(** ** Locations, to say what a data race is *)
Inductive loc : Type := LMembers (o : nat) | LElement (b k : nat).
(** the next access of a thread touches l; [true]: it writes l *)
Definition touches (s : state) (e : tenv) (c : cmd T) (l : loc) (wr : bool) : Prop :=
  match c with
  | CInfo i => exists o w, nth_error (names e) i = Some (o, w) /\ l = LMembers o /\ wr = false
  | CCell i k => exists o w, nth_error (names e) i = Some (o, w) /\ wr = false /\
      (l = LMembers o \/
       exists v b off, nth_error (objs s) o = Some (Some v) /\ oaddr v = Some (b, off) /\ live s b /\ l = LElement b (off + k))
  | CSet i k _ => exists o w, nth_error (names e) i = Some (o, w) /\
      (l = LMembers o /\ wr = false \/
       exists v b off, nth_error (objs s) o = Some (Some v) /\ oaddr v = Some (b, off) /\ live s b /\
         l = LElement b (off + k) /\ wr = true)
  | CAlloc _ => False
  | CFill h k _ => exists b, nth_error (handles e) h = Some (Some b) /\ live s b /\ l = LElement b k /\ wr = true
  | CFree i _ => exists o w, nth_error (names e) i = Some (o, w) /\
      (l = LMembers o /\ wr = false \/
       exists v b off k, nth_error (objs s) o = Some (Some v) /\ oaddr v = Some (b, off) /\ live s b /\
         l = LElement b k /\ wr = true)
  | CAttach i _ _ | CEnd i => exists o w, nth_error (names e) i = Some (o, w) /\ l = LMembers o /\ wr = true
  | CSwap i j => exists o w, (nth_error (names e) i = Some (o, w) \/ nth_error (names e) j = Some (o, w)) /\
      l = LMembers o /\ wr = true
  | CNew => False
  end.

(** ** Outcomes *)
(** how many accesses the thread needs alone *)
Fixpoint turns {A} (p : prog T A) (e : tenv) (s : state) : nat :=
  match p with
  | PAct c k => match exec c e s with ROk (a, e') s' => S (turns (k a) e' s') | _ => 0 end
  | _ => 0
  end.
Definition well_defined {A} (r : sres T A) : Prop :=
  match r with Undefined _ => False | _ => True end.
(** the thread has nothing left to do: it returned, or an exception left it *)
Definition ended {A} (p : prog T A) : Prop :=
  match p with PRet _ | PThrow _ => True | _ => False end.
(** the same vectors, in the same order, have the same contents *)
Definition same_vectors (e : tenv) (s : state) (e' : tenv) (s' : state) : Prop :=
  length (names e) = length (names e') /\
  forall i o w, nth_error (names e) i = Some (o, w) ->
    exists o', nth_error (names e') i = Some (o', w) /\ contents s o = contents s' o'.
(** what the thread ended with is what r ended with *)
Definition same_outcome {A} (p : prog T A) (e : tenv) (s : state) (r : sres T A) : Prop :=
  match p, r with
  | PRet a, Returns a' e' s' => a = a' /\ same_vectors e s e' s'
  | PThrow x, Throws x' e' s' => x = x' /\ same_vectors e s e' s'
  | _, _ => False
  end.
(** no thread may write vector o, or the memory it points to *)
Definition untouchable (es : list tenv) (s : state) (o : nat) : Prop :=
  o < length (objs s) /\
  (forall t e i, nth_error es t = Some e -> nth_error (names e) i <> Some (o, true)) /\
  (forall v b off, nth_error (objs s) o = Some (Some v) -> oaddr v = Some (b, off) ->
     b < length (blocks s) /\
     forall t e x, nth_error es t = Some e -> may_write e x -> ~ reach s e x b).

(** ** One thread and HeapModel.v *)
Definition obj_of (ns : list (nat * bool)) (i : nat) : nat :=
  match nth_error ns i with Some (o, _) => o | None => i end.
(** the expression with the vectors that the names stand for *)
Fixpoint resolve (ns : list (nat * bool)) (e : vexpr T) : vexpr T :=
  match e with
  | EObj i => EObj (obj_of ns i)
  | ETmp l => ETmp l
  | EUn f e1 => EUn f (resolve ns e1)
  | EBin f e1 e2 => EBin f (resolve ns e1) (resolve ns e2)
  | EScal f e1 c => EScal f (resolve ns e1) c
  | ECross m d e1 e2 => ECross m d (resolve ns e1) (resolve ns e2)
  | ESub e1 k => ESub (resolve ns e1) k
  end.
(** every name in the expression is one of the thread's *)
Fixpoint known (ns : list (nat * bool)) (e : vexpr T) : Prop :=
  match e with
  | EObj i => i < length ns
  | ETmp _ => True
  | EUn _ e1 | EScal _ e1 _ | ESub e1 _ => known ns e1
  | EBin _ e1 e2 | ECross _ _ e1 e2 => known ns e1 /\ known ns e2
  end.
Definition with_sched (s : state) (l : list bool) : state := St (blocks s) (objs s) l.
(** the thread alone has the outcome of the operation, with its own allocation outcomes *)
Definition acts_as {A} (e : tenv) (s : state) (p : prog T A) (m : M T A) : Prop :=
  match alone p e s with
  | Returns a e' s' => m (with_sched s (tsched e)) = ROk a (with_sched s' (tsched e'))
  | Throws x e' s' => m (with_sched s (tsched e)) = RThrow x (with_sched s' (tsched e'))
  | Undefined u => m (with_sched s (tsched e)) = RUB u
  end.

(** an empty vector is the only one without memory *)
Definition tidy (os : list (option vobj)) (o : nat) : Prop :=
  forall v, nth_error os o = Some (Some v) -> oaddr v = None -> olen v = 0.
End ConcSpec.
