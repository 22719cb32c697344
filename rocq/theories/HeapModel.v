(** Container layer: memory blocks, vector objects, expression templates,
    assignment, and the life cycle of vectors.

    Modelled: cml/vector/{dynamic_allocated,dynamic_external,fixed_external,
    fixed_compiled,writable_vector,binary_node,unary_node,scalar_node,cross_node,
    subvector_node}.tpp and cml/vector/detail/check_or_resize.h.

    Simplifications: every vector has the same element type, so value_type(v)
    conversions are the identity; element addresses are (block, index) pairs;
    allocate(n) returns a fresh block of n indeterminate cells and fails
    according to a schedule; compile-time size errors (static_assert) are modelled
    as the run-time exception of the same check. *)
From Coq Require Import List ZArith Bool Arith.
From Verif Require Import Base.
Import ListNotations.

(** Why an execution is undefined: touching a block that is freed, or a cell
    outside a block ([UBMem]); using the value of an indeterminate cell
    ([UBIndet]). *)
Inductive ub : Type := UBMem | UBIndet.

(** Storage kind of a vector: cml/storage/*_selector.h.  Only [KAllocated] has a
    resize() member, which is what check_or_resize dispatches on. *)
Inductive kind : Type := KCompiled | KAllocated | KExternal.

Definition resizable (k : kind) : bool :=
  match k with KAllocated => true | _ => false end.

(** m_data, m_size of a vector object. *)
Record vobj : Type := VObj {
  okind : kind;
  oaddr : option (nat * nat);   (* block and start index; None = nullptr *)
  olen : nat }.

Section Heap.
Context {T : Type}.

(** Cell of memory: [None] is indeterminate. *)
Definition cell : Type := option T.
Inductive block : Type := Live (cs : list cell) | Freed.

Record state : Type := St {
  blocks : list block;
  objs : list (option vobj);     (* None = destroyed *)
  sched : list bool }.           (* outcome of the coming allocations, true = success;
                                    exhausted = success *)

Inductive res (A : Type) : Type :=
| ROk (a : A) (s : state)
| RThrow (e : exn) (s : state)
| RUB (u : ub).
Arguments ROk {A} a s.
Arguments RThrow {A} e s.
Arguments RUB {A} u.

Definition M (A : Type) : Type := state -> res A.
Definition ret {A} (a : A) : M A := fun s => ROk a s.
Definition bindM {A B} (m : M A) (f : A -> M B) : M B := fun s =>
  match m s with
  | ROk a s' => f a s'
  | RThrow e s' => RThrow e s'
  | RUB u => RUB u
  end.
Definition throwM {A} (e : exn) : M A := fun s => RThrow e s.
Definition ubM {A} (u : ub) : M A := fun _ => RUB u.
Definition requireM (c : bool) (e : exn) : M unit := if c then ret tt else throwM e.

Fixpoint forM (n i : nat) (f : nat -> M unit) : M unit :=
  match n with
  | O => ret tt
  | S n' => bindM (f i) (fun _ => forM n' (S i) f)
  end.

(** ** Memory primitives *)

Definition get_block (s : state) (b : nat) : option (list cell) :=
  match nth_error (blocks s) b with
  | Some (Live cs) => Some cs
  | _ => None
  end.

(** Read a cell as is (element copy: indeterminacy propagates). *)
Definition rd_cell (b i : nat) : M cell := fun s =>
  match get_block s b with
  | Some cs => match nth_error cs i with
               | Some c => ROk c s
               | None => RUB UBMem
               end
  | None => RUB UBMem
  end.

(** Read a value. *)
Definition rd (b i : nat) : M T :=
  bindM (rd_cell b i) (fun c => match c with Some x => ret x | None => ubM UBIndet end).

Definition set_block (s : state) (b : nat) (bk : block) : option state :=
  match list_put (blocks s) b bk with
  | Some bs => Some (St bs (objs s) (sched s))
  | None => None
  end.

Definition wr_cell (b i : nat) (c : cell) : M unit := fun s =>
  match get_block s b with
  | Some cs =>
      match list_put cs i c with
      | Some cs' => match set_block s b (Live cs') with
                    | Some s' => ROk tt s'
                    | None => RUB UBMem
                    end
      | None => RUB UBMem
      end
  | None => RUB UBMem
  end.

(** allocator_traits::allocate(n) *)
Definition alloc (n : nat) : M nat := fun s =>
  match sched s with
  | false :: r => RThrow EBadAlloc (St (blocks s) (objs s) r)
  | _ => ROk (length (blocks s))
             (St (blocks s ++ [Live (repeat None n)]) (objs s) (tl (sched s)))
  end.

(** allocator_traits::deallocate(p, n): p must come from allocate(n) and be live;
    deallocate(nullptr, n) is a no-op (as ::operator delete). *)
Definition dealloc (p : option (nat * nat)) (n : nat) : M unit := fun s =>
  match p with
  | None => ROk tt s
  | Some (b, off) =>
      match get_block s b with
      | Some cs =>
          if Nat.eqb off 0 && Nat.eqb (length cs) n then
            match set_block s b Freed with
            | Some s' => ROk tt s'
            | None => RUB UBMem
            end
          else RUB UBMem
      | None => RUB UBMem
      end
  end.

Definition get_obj (o : nat) : M vobj := fun s =>
  match nth_error (objs s) o with
  | Some (Some v) => ROk v s
  | _ => RUB UBMem
  end.

Definition set_obj (o : nat) (v : option vobj) : M unit := fun s =>
  match list_put (objs s) o v with
  | Some os => ROk tt (St (blocks s) os (sched s))
  | None => RUB UBMem
  end.

Definition new_obj (v : vobj) : M nat := fun s =>
  ROk (length (objs s)) (St (blocks s) (objs s ++ [Some v]) (sched s)).

(** ** Element access of a vector object (i_get / i_put):
    dynamic_allocated.tpp:260-292, dynamic_external.tpp:119-151,
    fixed_compiled.tpp:97-129: m_data[i], unchecked. *)
Definition obj_get (o i : nat) : M T :=
  bindM (get_obj o) (fun v =>
  match oaddr v with
  | Some (b, off) => rd b (off + i)
  | None => ubM UBMem
  end).

Definition obj_put (o i : nat) (x : T) : M unit :=
  bindM (get_obj o) (fun v =>
  match oaddr v with
  | Some (b, off) => wr_cell b (off + i) (Some x)
  | None => ubM UBMem
  end).

(** ** Expression templates.  An operand given as an lvalue is kept by const
    reference ([EObj]: every get() reads the current memory); a temporary is kept
    by value ([ETmp]).  Scalars are kept by value (scalar_node.h:92-105). *)
Inductive vexpr : Type :=
| EObj (o : nat)
| ETmp (l : list T)
| EUn (f : T -> T) (e : vexpr)                  (* vector_unary_node *)
| EBin (f : T -> T -> T) (e1 e2 : vexpr)        (* vector_binary_node *)
| EScal (f : T -> T -> T) (e : vexpr) (k : T)   (* vector_scalar_node *)
| ECross (mulop subop : T -> T -> T) (e1 e2 : vexpr)  (* vector_cross_node *)
| ESub (e : vexpr) (skip : nat).                (* subvector_node *)

(** i_size(): binary_node.tpp:43-48, unary_node.tpp:33-38, scalar_node.tpp:37-42,
    cross_node.tpp:43-48, subvector_node.tpp:36-41 (in Z: size()-1). *)
Fixpoint e_size (e : vexpr) : M Z :=
  match e with
  | EObj o => bindM (get_obj o) (fun v => ret (Z.of_nat (olen v)))
  | ETmp l => ret (Z.of_nat (length l))
  | EUn _ e1 | EBin _ e1 _ | EScal _ e1 _ => e_size e1
  | ECross _ _ _ _ => ret 3%Z
  | ESub e1 _ => bindM (e_size e1) (fun n => ret (n - 1)%Z)
  end.

(** i_get(i): binary_node.tpp:50-55, unary_node.tpp:40-45, scalar_node.tpp:44-49,
    cross_node.tpp:50-59, subvector_node.tpp:43-48. *)
Fixpoint e_get (e : vexpr) (i : nat) : M T :=
  match e with
  | EObj o => obj_get o i
  | ETmp l => match nth_error l i with Some x => ret x | None => ubM UBMem end
  | EUn f e1 => bindM (e_get e1 i) (fun x => ret (f x))
  | EBin f e1 e2 => bindM (e_get e1 i) (fun x => bindM (e_get e2 i) (fun y => ret (f x y)))
  | EScal f e1 k => bindM (e_get e1 i) (fun x => ret (f x k))
  | ECross mulop subop e1 e2 =>
      let i0 := (i + 1) mod 3 in
      let i1 := (i + 2) mod 3 in
      bindM (e_get e1 i0) (fun a => bindM (e_get e2 i1) (fun b =>
      bindM (e_get e1 i1) (fun c => bindM (e_get e2 i0) (fun d =>
      ret (subop (mulop a b) (mulop c d))))))
  | ESub e1 skip => e_get e1 (if i <? skip then i else i + 1)
  end.

(** Construction of the nodes, bottom-up, with the checks of the constructors:
    binary_node.tpp:16-24 (check_same_size), cross_node.tpp:16-25 (check_size 3).
    Operands are lvalues or nodes here; see [cross_construct_rvalue] in
    CrossMove.v for dynamic temporaries. *)
Fixpoint e_build (e : vexpr) : M unit :=
  match e with
  | EObj o => bindM (get_obj o) (fun _ => ret tt)
  | ETmp _ => ret tt
  | EUn _ e1 | EScal _ e1 _ | ESub e1 _ => e_build e1
  | EBin _ e1 e2 =>
      bindM (e_build e1) (fun _ => bindM (e_build e2) (fun _ =>
      bindM (e_size e1) (fun n1 => bindM (e_size e2) (fun n2 =>
      requireM (Z.eqb n1 n2) EIncompatibleVectorSize))))
  | ECross _ _ e1 e2 =>
      bindM (e_build e1) (fun _ => bindM (e_build e2) (fun _ =>
      bindM (e_size e1) (fun n1 => bindM (requireM (Z.eqb n1 3) EVectorSize) (fun _ =>
      bindM (e_size e2) (fun n2 => requireM (Z.eqb n2 3) EVectorSize)))))
  end.

(** ** Dynamic storage *)

(** Does E have a trivial destructor?  [destruct] (dynamic_allocated.tpp:229-249)
    is a no-op if so; otherwise it ends the life of the elements, whose values may
    not be used afterwards. *)
Variable triv : bool.

Definition destruct_elems (p : option (nat * nat)) (n : nat) : M unit :=
  if triv then ret tt else
  match p with
  | None => ret tt
  | Some (b, off) => forM n 0 (fun i => wr_cell b (off + i) None)
  end.

(** dynamic_allocated.tpp:134-173 *)
Definition resize (o : nat) (n : Z) : M unit :=
  bindM (requireM (Z.leb 0 n) EInvalidArgument) (fun _ =>
  bindM (get_obj o) (fun v =>
  if Z.eqb n (Z.of_nat (olen v)) then ret tt else
  let n' := Z.to_nat n in
  bindM (alloc n') (fun copy =>
  bindM (destruct_elems (oaddr v) (olen v)) (fun _ =>
  bindM (match oaddr v with
         | None => ret tt
         | Some (b, off) =>
             bindM (forM (Nat.min (olen v) n') 0 (fun i =>
                      bindM (rd_cell b (off + i)) (fun c => wr_cell copy i c))) (fun _ =>
             dealloc (oaddr v) (olen v))
         end) (fun _ =>
  set_obj o (Some (VObj (okind v) (Some (copy, 0)) n'))))))).

(** dynamic_allocated.tpp:175-206 *)
Definition resize_fast (o : nat) (n : Z) : M unit :=
  bindM (requireM (Z.leb 0 n) EInvalidArgument) (fun _ =>
  bindM (get_obj o) (fun v =>
  if Z.eqb n (Z.of_nat (olen v)) then ret tt else
  let n' := Z.to_nat n in
  bindM (alloc n') (fun copy =>
  bindM (destruct_elems (oaddr v) (olen v)) (fun _ =>
  bindM (dealloc (oaddr v) (olen v)) (fun _ =>
  set_obj o (Some (VObj (okind v) (Some (copy, 0)) n'))))))).

(** detail/check_or_resize.h:13-32, 79-96: resizable targets are resized, all
    others are checked (check_same_size). *)
Definition check_or_resize (o : nat) (n : Z) (e : exn) : M unit :=
  bindM (get_obj o) (fun v =>
  if resizable (okind v) then resize o n
  else requireM (Z.eqb (Z.of_nat (olen v)) n) e).

(** writable_vector.tpp:394-402  assign(readable_vector) *)
Definition assign (o : nat) (e : vexpr) : M unit :=
  bindM (e_build e) (fun _ =>
  bindM (e_size e) (fun n =>
  bindM (check_or_resize o n EIncompatibleVectorSize) (fun _ =>
  bindM (get_obj o) (fun v =>
  forM (olen v) 0 (fun i => bindM (e_get e i) (fun x => obj_put o i x)))))).

(** writable_vector.tpp:306-316, 327-337  operator+=, operator-= *)
Definition compound (op : T -> T -> T) (o : nat) (e : vexpr) : M unit :=
  bindM (e_build e) (fun _ =>
  bindM (e_size e) (fun n =>
  bindM (check_or_resize o n EIncompatibleVectorSize) (fun _ =>
  bindM (get_obj o) (fun v =>
  forM (olen v) 0 (fun i =>
    bindM (obj_get o i) (fun x => bindM (e_get e i) (fun y => obj_put o i (op x y)))))))).

(** A scalar argument passed by const reference: either to a value that is not
    an element of any container, or to a cell of memory. *)
Inductive sref : Type := SVal (x : T) | SCell (b i : nat).
Definition sread (r : sref) : M T :=
  match r with SVal x => ret x | SCell b i => rd b i end.

(** writable_vector.tpp:348-358, 370-380  operator*=, operator/= : the reference
    is re-read for every element. *)
Definition scale (op : T -> T -> T) (o : nat) (r : sref) : M unit :=
  bindM (get_obj o) (fun v =>
  forM (olen v) 0 (fun i =>
    bindM (obj_get o i) (fun x => bindM (sread r) (fun k => obj_put o i (op x k))))).

(** writable_vector.tpp:119-125, 214-220  zero(), fill(v) *)
Definition fill (o : nat) (r : sref) : M unit :=
  bindM (get_obj o) (fun v =>
  forM (olen v) 0 (fun i => bindM (sread r) (fun k => obj_put o i k))).

(** writable_vector.tpp:135-140  cardinal(i): zero().put(i, 1); the index is not
    checked. *)
Definition cardinal (zero_ one_ : T) (o i : nat) : M unit :=
  bindM (fill o (SVal zero_)) (fun _ => obj_put o i one_).

(** writable_vector.tpp:150-160, 171-181  minimize, maximize (check_same_size, also
    for dynamic vectors). *)
Definition pairwise (op : T -> T -> T) (o : nat) (e : vexpr) : M unit :=
  bindM (e_build e) (fun _ =>
  bindM (get_obj o) (fun v =>
  bindM (e_size e) (fun n =>
  bindM (requireM (Z.eqb (Z.of_nat (olen v)) n) EIncompatibleVectorSize) (fun _ =>
  forM (olen v) 0 (fun i =>
    bindM (obj_get o i) (fun x => bindM (e_get e i) (fun y => obj_put o i (op x y)))))))).

(** writable_vector.tpp:16-51: put(i, e0), put(i+1, e1), ...; each element is a
    const reference read when it is stored. *)
Fixpoint put_elements (o i : nat) (rs : list sref) : M unit :=
  match rs with
  | [] => ret tt
  | r :: rs' =>
      bindM (sread r) (fun x => bindM (obj_put o i x) (fun _ => put_elements o (S i) rs'))
  end.

(** writable_vector.tpp:448-457 (set, element constructors), 424-435
    (initializer_list), 404-413 (arrays): check_or_resize to the count, then store
    in order. *)
Definition assign_elements (o : nat) (rs : list sref) : M unit :=
  bindM (check_or_resize o (Z.of_nat (length rs)) EVectorSize) (fun _ =>
  put_elements o 0 rs).

(** writable_vector.tpp:437-446  assign(sub, eN...) *)
Definition assign_parts (o : nat) (e : vexpr) (rs : list sref) : M unit :=
  bindM (e_build e) (fun _ =>
  bindM (e_size e) (fun n =>
  bindM (check_or_resize o (n + Z.of_nat (length rs)) EVectorSize) (fun _ =>
  bindM (e_size e) (fun n1 =>
  bindM (forM (Z.to_nat n1) 0 (fun i => bindM (e_get e i) (fun x => obj_put o i x))) (fun _ =>
  bindM (e_size e) (fun n2 =>
  if Z.ltb n2 0 then ubM UBMem else put_elements o (Z.to_nat n2) rs)))))).

(** writable_vector.tpp:415-422  assign(pointer): reads size() elements from the
    address. *)
Definition assign_pointer (o : nat) (b off : nat) : M unit :=
  bindM (get_obj o) (fun v =>
  forM (olen v) 0 (fun i => bindM (rd b (off + i)) (fun x => obj_put o i x))).

(** ** Life cycle of dynamically allocated vectors *)

(** dynamic_allocated.tpp:15-19 *)
Definition ctor_default : M nat := new_obj (VObj KAllocated None 0).

(** A constructor that throws does not create an object; [ctor] removes the slot
    again (the destructor is not run for a partially constructed object). *)
Definition drop_last (s : state) : state :=
  St (blocks s) (removelast (objs s)) (sched s).
Definition ctor (body : nat -> M unit) : M nat := fun s =>
  match ctor_default s with
  | ROk o s1 => match body o s1 with
                | ROk _ s2 => ROk o s2
                | RThrow e s2 => RThrow e (drop_last s2)
                | RUB u => RUB u
                end
  | RThrow e s1 => RThrow e s1
  | RUB u => RUB u
  end.

(** dynamic_allocated.tpp:21-28 *)
Definition ctor_size (n : Z) : M nat := ctor (fun o => resize_fast o n).
(** dynamic_allocated.tpp:30-36, 46-53 *)
Definition ctor_expr (e : vexpr) : M nat := ctor (fun o => assign o e).
(** dynamic_allocated.tpp:84-91 *)
Definition ctor_list (l : list T) : M nat := ctor (fun o => assign_elements o (map SVal l)).

(** dynamic_allocated.tpp:215-225  operator=(vector&&): swap *)
Definition move_assign (o1 o2 : nat) : M unit :=
  bindM (get_obj o1) (fun v1 => bindM (get_obj o2) (fun v2 =>
  bindM (set_obj o1 (Some (VObj (okind v1) (oaddr v2) (olen v2)))) (fun _ =>
  set_obj o2 (Some (VObj (okind v2) (oaddr v1) (olen v1)))))).

(** dynamic_allocated.tpp:38-44 *)
Definition ctor_move (o : nat) : M nat := ctor (fun o' => move_assign o' o).

(** dynamic_allocated.tpp:93-102 *)
Definition dtor (o : nat) : M unit :=
  bindM (get_obj o) (fun v =>
  bindM (destruct_elems (oaddr v) (olen v)) (fun _ =>
  bindM (dealloc (oaddr v) (olen v)) (fun _ =>
  set_obj o None))).

(** dynamic_external.tpp:97-106  operator=(vector&&) of external vectors: takes the
    pointer and nulls the source (no self check). *)
Definition ext_move_assign (o1 o2 : nat) : M unit :=
  bindM (get_obj o1) (fun v1 => bindM (get_obj o2) (fun v2 =>
  bindM (set_obj o1 (Some (VObj (okind v1) (oaddr v2) (olen v2)))) (fun _ =>
  set_obj o2 (Some (VObj (okind v2) None 0))))).

(** ** Histories of API calls on dynamic vectors *)
Inductive op : Type :=
| OpDefault
| OpSize (n : Z)
| OpList (l : list T)
| OpExpr (e : vexpr)              (* construct from an expression; copy = EObj o *)
| OpMoveCtor (o : nat)
| OpAssign (o : nat) (e : vexpr)
| OpCompound (f : T -> T -> T) (o : nat) (e : vexpr)
| OpScale (f : T -> T -> T) (o : nat) (k : T)
| OpScaleElem (f : T -> T -> T) (o : nat) (o' i : nat)  (* scalar is o'[i] by reference *)
| OpFill (o : nat) (k : T)         (* fill(k), zero() *)
| OpPairwise (f : T -> T -> T) (o : nat) (e : vexpr)   (* minimize, maximize *)
| OpParts (o : nat) (e : vexpr) (l : list T)           (* set(sub, eN...) *)
| OpSet (o : nat) (l : list T)
| OpMoveAssign (o1 o2 : nat)
| OpResize (o : nat) (n : Z)
| OpResizeFast (o : nat) (n : Z)
| OpPut (o i : nat) (x : T)
| OpDestroy (o : nat).

(** objects an expression mentions *)
Fixpoint e_objs (e : vexpr) : list nat :=
  match e with
  | EObj o => [o]
  | ETmp _ => []
  | EUn _ e1 | EScal _ e1 _ | ESub e1 _ => e_objs e1
  | EBin _ e1 e2 | ECross _ _ e1 e2 => e_objs e1 ++ e_objs e2
  end.

Definition alive (s : state) (o : nat) : bool :=
  match nth_error (objs s) o with Some (Some _) => true | _ => false end.
Definition size_of (s : state) (o : nat) : nat :=
  match nth_error (objs s) o with Some (Some v) => olen v | _ => 0 end.

(** size() of an expression as a function of the object table *)
Fixpoint esz (s : state) (e : vexpr) : Z :=
  match e with
  | EObj o => Z.of_nat (size_of s o)
  | ETmp l => Z.of_nat (length l)
  | EUn _ e1 | EBin _ e1 _ | EScal _ e1 _ => esz s e1
  | ECross _ _ _ _ => 3
  | ESub e1 _ => esz s e1 - 1
  end.

Definition void {A} (m : M A) : M unit := bindM m (fun _ => ret tt).

(** One API call.  Calls that no C++ program can make without misusing the
    language (naming a dead object, writing past the end, indexing past the end to
    get a scalar, a subvector of an empty vector as part) are skipped. *)
Definition step (p : op) : M unit := fun s =>
  match p with
  | OpDefault => void ctor_default s
  | OpSize n => void (ctor_size n) s
  | OpList l => void (ctor_list l) s
  | OpExpr e => if forallb (alive s) (e_objs e) then void (ctor_expr e) s else ret tt s
  | OpMoveCtor o => if alive s o then void (ctor_move o) s else ret tt s
  | OpAssign o e =>
      if alive s o && forallb (alive s) (e_objs e) then assign o e s else ret tt s
  | OpCompound f o e =>
      if alive s o && forallb (alive s) (e_objs e) then compound f o e s else ret tt s
  | OpScale f o k => if alive s o then scale f o (SVal k) s else ret tt s
  | OpScaleElem f o o' i =>
      if alive s o && alive s o' && (i <? size_of s o') then
        match nth_error (objs s) o' with
        | Some (Some v) => match oaddr v with
                           | Some (b, off) => scale f o (SCell b (off + i)) s
                           | None => ret tt s
                           end
        | _ => ret tt s
        end
      else ret tt s
  | OpFill o k => if alive s o then fill o (SVal k) s else ret tt s
  | OpPairwise f o e =>
      if alive s o && forallb (alive s) (e_objs e) then pairwise f o e s else ret tt s
  | OpParts o e l =>
      if alive s o && forallb (alive s) (e_objs e) && Z.leb 0 (esz s e) then assign_parts o e (map SVal l) s else ret tt s
  | OpSet o l => if alive s o then assign_elements o (map SVal l) s else ret tt s
  | OpMoveAssign o1 o2 => if alive s o1 && alive s o2 then move_assign o1 o2 s else ret tt s
  | OpResize o n => if alive s o then resize o n s else ret tt s
  | OpResizeFast o n => if alive s o then resize_fast o n s else ret tt s
  | OpPut o i x => if alive s o && (i <? size_of s o) then obj_put o i x s else ret tt s
  | OpDestroy o => if alive s o then dtor o s else ret tt s
  end.

(** A history: exceptions are caught by the client, who goes on. *)
Fixpoint run (h : list op) (s : state) : res unit :=
  match h with
  | [] => ROk tt s
  | p :: h' => match step p s with
               | ROk _ s' => run h' s'
               | RThrow _ s' => run h' s'
               | RUB u => RUB u
               end
  end.

Definition init (sch : list bool) : state := St [] [] sch.

End Heap.

Arguments cell : clear implicits.
Arguments block : clear implicits.
Arguments state : clear implicits.
Arguments res : clear implicits.
Arguments vexpr : clear implicits.
Arguments sref : clear implicits.
Arguments op : clear implicits.
Arguments M : clear implicits.
Arguments ROk {T A} a s.
Arguments RThrow {T A} e s.
Arguments RUB {T A} u.
