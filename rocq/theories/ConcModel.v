(** Threads that use vectors at the same time.  The library has no mutable static or
    global data, so a thread can only reach a vector through a name it was given; this file
    writes the operations of HeapModel.v as sequences of single memory accesses, and
    interleaves the accesses of any number of threads in any order.

    Modelled: the operations of cml/vector/{writable_vector,dynamic_allocated}.tpp that
    HeapModel.v models, access by access.  Simplifications: memory is sequentially
    consistent; an access reads the members of a vector and one element in one step (the
    members are written by no other thread); whether an allocation fails is decided per
    thread. *)
From Coq Require Import List ZArith Bool Arith.
From Verif Require Import Base HeapModel.
Import ListNotations.

Section Conc.
Context {T : Type}.
Notation state := (state T).
Notation cell := (cell T).

(** One access.  Vectors are named by their position among the vectors the thread
    knows; [h] names a block the thread allocated and has not attached yet. *)
Inductive cmd : Type :=
| CInfo (i : nat)                  (* okind and m_size *)
| CCell (i k : nat)                (* load m_data[k] *)
| CSet (i k : nat) (c : cell)      (* store to m_data[k]; None ends the life of the element *)
| CAlloc (n : nat)                 (* allocate(n) *)
| CFill (h k : nat) (c : cell)     (* store to the new block *)
| CFree (i n : nat)                (* deallocate(m_data, n) *)
| CAttach (i h n : nat)            (* m_data = block; m_size = n *)
| CSwap (i j : nat)                (* operator=(vector&&) *)
| CNew                             (* a local vector *)
| CEnd (i : nat).                  (* the end of its life *)
Definition ans (c : cmd) : Type :=
  match c with
  | CInfo _ => kind * nat
  | CCell _ _ => cell
  | CAlloc _ => option nat          (* None: allocate threw *)
  | CNew => nat
  | _ => unit
  end.

(** What a thread knows: its vectors, whether it may write each of them (a const
    reference may not), its blocks, and the outcomes of its coming allocations. *)
Record tenv : Type := TE {
  names : list (nat * bool);
  handles : list (option nat);
  tsched : list bool }.

Definition named (e : tenv) (i : nat) : M T nat := fun s =>
  match nth_error (names e) i with Some (o, _) => ROk o s | None => RUB UBMem end.
(** calls that change a vector do not compile for a const reference *)
Definition writable (e : tenv) (i : nat) : M T nat := fun s =>
  match nth_error (names e) i with Some (o, true) => ROk o s | _ => RUB UBMem end.
Definition handle (e : tenv) (h : nat) : M T nat := fun s =>
  match nth_error (handles e) h with Some (Some b) => ROk b s | _ => RUB UBMem end.
Definition release (l : list (option nat)) (h : nat) : list (option nat) :=
  match list_put l h None with Some l' => l' | None => l end.

Definition exec (c : cmd) (e : tenv) : M T (ans c * tenv) :=
  match c with
  | CInfo i => bindM (named e i) (fun o => bindM (get_obj o) (fun v => ret ((okind v, olen v), e)))
  | CCell i k => bindM (named e i) (fun o => bindM (get_obj o) (fun v =>
      match oaddr v with
      | Some (b, off) => bindM (rd_cell b (off + k)) (fun c => ret (c, e))
      | None => ubM UBMem
      end))
  | CSet i k c => bindM (writable e i) (fun o => bindM (get_obj o) (fun v =>
      match oaddr v with
      | Some (b, off) => bindM (wr_cell b (off + k) c) (fun _ => ret (tt, e))
      | None => ubM UBMem
      end))
  | CAlloc n => fun s =>
      match tsched e with
      | false :: r => ROk (None, TE (names e) (handles e) r) s
      | _ => ROk (Some (length (handles e)), TE (names e) (handles e ++ [Some (length (blocks s))]) (tl (tsched e)))
                 (St (blocks s ++ [Live (repeat None n)]) (objs s) (sched s))
      end
  | CFill h k c => bindM (handle e h) (fun b => bindM (wr_cell b k c) (fun _ => ret (tt, e)))
  | CFree i n => bindM (writable e i) (fun o => bindM (get_obj o) (fun v =>
      bindM (dealloc (oaddr v) n) (fun _ => ret (tt, e))))
  | CAttach i h n => bindM (writable e i) (fun o => bindM (handle e h) (fun b => bindM (get_obj o) (fun v =>
      bindM (set_obj o (Some (VObj (okind v) (Some (b, 0)) n))) (fun _ =>
      ret (tt, TE (names e) (release (handles e) h) (tsched e))))))
  | CSwap i j => bindM (writable e i) (fun o1 => bindM (writable e j) (fun o2 =>
      bindM (move_assign o1 o2) (fun _ => ret (tt, e))))
  | CNew => bindM (new_obj (VObj KAllocated None 0)) (fun o =>
      ret (length (names e), TE (names e ++ [(o, true)]) (handles e) (tsched e)))
  | CEnd i => bindM (writable e i) (fun o => bindM (get_obj o) (fun _ =>
      bindM (set_obj o None) (fun _ => ret (tt, e))))
  end.

(** A program: a tree of accesses. *)
Inductive prog (A : Type) : Type :=
| PRet (a : A)
| PThrow (e : exn)
| PUB (u : ub)
| PAct (c : cmd) (k : ans c -> prog A).
Arguments PRet {A} a.
Arguments PThrow {A} e.
Arguments PUB {A} u.
Arguments PAct {A} c k.
Fixpoint pbind {A B} (p : prog A) (f : A -> prog B) : prog B :=
  match p with
  | PRet a => f a
  | PThrow e => PThrow e
  | PUB u => PUB u
  | PAct c k => PAct c (fun x => pbind (k x) f)
  end.
(** try { p } catch(...) { h } *)
Fixpoint pcatch {A} (p : prog A) (h : exn -> prog A) : prog A :=
  match p with
  | PRet a => PRet a
  | PThrow e => h e
  | PUB u => PUB u
  | PAct c k => PAct c (fun x => pcatch (k x) h)
  end.
Definition act (c : cmd) : prog (ans c) := PAct c (fun x => PRet x).
Definition prequire (c : bool) (e : exn) : prog unit := if c then PRet tt else PThrow e.
Fixpoint pfor (n i : nat) (f : nat -> prog unit) : prog unit :=
  match n with
  | O => PRet tt
  | S n' => pbind (f i) (fun _ => pfor n' (S i) f)
  end.

(** ** The operations as programs; vectors are names *)
(** HeapModel.obj_get, obj_put *)
Definition t_get (i k : nat) : prog T :=
  pbind (act (CCell i k)) (fun c : cell => match c with Some x => PRet x | None => PUB UBIndet end).
Definition t_put (i k : nat) (x : T) : prog unit := act (CSet i k (Some x)).
(** HeapModel.e_size, e_get, e_build: binary_node.tpp, unary_node.tpp, scalar_node.tpp,
    cross_node.tpp, subvector_node.tpp (the lines are cited there) *)
Fixpoint t_size (e : vexpr T) : prog Z :=
  match e with
  | EObj i => pbind (act (CInfo i)) (fun v => PRet (Z.of_nat (snd v)))
  | ETmp l => PRet (Z.of_nat (length l))
  | EUn _ e1 | EBin _ e1 _ | EScal _ e1 _ => t_size e1
  | ECross _ _ _ _ => PRet 3%Z
  | ESub e1 _ => pbind (t_size e1) (fun n => PRet (n - 1)%Z)
  end.
Fixpoint t_read (e : vexpr T) (k : nat) : prog T :=
  match e with
  | EObj i => t_get i k
  | ETmp l => match nth_error l k with Some x => PRet x | None => PUB UBMem end
  | EUn f e1 => pbind (t_read e1 k) (fun x => PRet (f x))
  | EBin f e1 e2 => pbind (t_read e1 k) (fun x => pbind (t_read e2 k) (fun y => PRet (f x y)))
  | EScal f e1 c => pbind (t_read e1 k) (fun x => PRet (f x c))
  | ECross mulop subop e1 e2 =>
      let i0 := (k + 1) mod 3 in
      let i1 := (k + 2) mod 3 in
      pbind (t_read e1 i0) (fun a => pbind (t_read e2 i1) (fun b =>
      pbind (t_read e1 i1) (fun c => pbind (t_read e2 i0) (fun d =>
      PRet (subop (mulop a b) (mulop c d))))))
  | ESub e1 skip => t_read e1 (if k <? skip then k else k + 1)
  end.
Fixpoint t_build (e : vexpr T) : prog unit :=
  match e with
  | EObj i => pbind (act (CInfo i)) (fun _ => PRet tt)
  | ETmp _ => PRet tt
  | EUn _ e1 | EScal _ e1 _ | ESub e1 _ => t_build e1
  | EBin _ e1 e2 =>
      pbind (t_build e1) (fun _ => pbind (t_build e2) (fun _ =>
      pbind (t_size e1) (fun n1 => pbind (t_size e2) (fun n2 =>
      prequire (Z.eqb n1 n2) EIncompatibleVectorSize))))
  | ECross _ _ e1 e2 =>
      pbind (t_build e1) (fun _ => pbind (t_build e2) (fun _ =>
      pbind (t_size e1) (fun n1 => pbind (prequire (Z.eqb n1 3) EVectorSize) (fun _ =>
      pbind (t_size e2) (fun n2 => prequire (Z.eqb n2 3) EVectorSize)))))
  end.
Variable triv : bool.
(** HeapModel.destruct_elems; m_data is null exactly when no element was allocated, which
    the loop of dynamic_allocated.tpp:229-249 runs zero times for *)
Definition t_destruct (i n : nat) : prog unit :=
  if triv then PRet tt else pfor n 0 (fun k => act (CSet i k None)).
(** allocate, which throws bad_alloc *)
Definition t_alloc (n : nat) : prog nat :=
  pbind (act (CAlloc n)) (fun r => match r with Some h => PRet h | None => PThrow EBadAlloc end).
(** dynamic_allocated.tpp:134-173 *)
Definition t_resize (i : nat) (n : Z) : prog unit :=
  pbind (prequire (Z.leb 0 n) EInvalidArgument) (fun _ =>
  pbind (act (CInfo i)) (fun v =>
  if Z.eqb n (Z.of_nat (snd v)) then PRet tt else
  let n' := Z.to_nat n in
  pbind (t_alloc n') (fun h =>
  pbind (t_destruct i (snd v)) (fun _ =>
  pbind (pfor (Nat.min (snd v) n') 0 (fun k =>
           pbind (act (CCell i k)) (fun c => act (CFill h k c)))) (fun _ =>
  pbind (act (CFree i (snd v))) (fun _ =>
  act (CAttach i h n'))))))).
(** dynamic_allocated.tpp:175-206 *)
Definition t_resize_fast (i : nat) (n : Z) : prog unit :=
  pbind (prequire (Z.leb 0 n) EInvalidArgument) (fun _ =>
  pbind (act (CInfo i)) (fun v =>
  if Z.eqb n (Z.of_nat (snd v)) then PRet tt else
  let n' := Z.to_nat n in
  pbind (t_alloc n') (fun h =>
  pbind (t_destruct i (snd v)) (fun _ =>
  pbind (act (CFree i (snd v))) (fun _ =>
  act (CAttach i h n')))))).
(** detail/check_or_resize.h:13-32, 79-96 *)
Definition t_check_or_resize (i : nat) (n : Z) (e : exn) : prog unit :=
  pbind (act (CInfo i)) (fun v =>
  if resizable (fst v) then t_resize i n
  else prequire (Z.eqb (Z.of_nat (snd v)) n) e).
(** writable_vector.tpp:394-402 *)
Definition t_assign (i : nat) (e : vexpr T) : prog unit :=
  pbind (t_build e) (fun _ =>
  pbind (t_size e) (fun n =>
  pbind (t_check_or_resize i n EIncompatibleVectorSize) (fun _ =>
  pbind (act (CInfo i)) (fun v =>
  pfor (snd v) 0 (fun k => pbind (t_read e k) (fun x => t_put i k x)))))).
(** writable_vector.tpp:306-316, 327-337 *)
Definition t_compound (op : T -> T -> T) (i : nat) (e : vexpr T) : prog unit :=
  pbind (t_build e) (fun _ =>
  pbind (t_size e) (fun n =>
  pbind (t_check_or_resize i n EIncompatibleVectorSize) (fun _ =>
  pbind (act (CInfo i)) (fun v =>
  pfor (snd v) 0 (fun k =>
    pbind (t_get i k) (fun x => pbind (t_read e k) (fun y => t_put i k (op x y)))))))).
(** writable_vector.tpp:348-358, 370-380, with a scalar of the thread's own *)
Definition t_scale (op : T -> T -> T) (i : nat) (c : T) : prog unit :=
  pbind (act (CInfo i)) (fun v =>
  pfor (snd v) 0 (fun k => pbind (t_get i k) (fun x => t_put i k (op x c)))).
(** writable_vector.tpp:119-125, 214-220 *)
Definition t_fill (i : nat) (c : T) : prog unit :=
  pbind (act (CInfo i)) (fun v => pfor (snd v) 0 (fun k => t_put i k c)).
(** writable_vector.tpp:150-160, 171-181 *)
Definition t_pairwise (op : T -> T -> T) (i : nat) (e : vexpr T) : prog unit :=
  pbind (t_build e) (fun _ =>
  pbind (act (CInfo i)) (fun v =>
  pbind (t_size e) (fun n =>
  pbind (prequire (Z.eqb (Z.of_nat (snd v)) n) EIncompatibleVectorSize) (fun _ =>
  pfor (snd v) 0 (fun k =>
    pbind (t_get i k) (fun x => pbind (t_read e k) (fun y => t_put i k (op x y)))))))).
(** writable_vector.tpp:16-51, 404-413, 424-435, 448-457, with values of the thread's own *)
Fixpoint t_put_list (i k : nat) (l : list T) : prog unit :=
  match l with
  | [] => PRet tt
  | x :: l' => pbind (t_put i k x) (fun _ => t_put_list i (S k) l')
  end.
Definition t_set (i : nat) (l : list T) : prog unit :=
  pbind (t_check_or_resize i (Z.of_nat (length l)) EVectorSize) (fun _ => t_put_list i 0 l).
(** dynamic_allocated.tpp:215-225 *)
Definition t_move_assign (i j : nat) : prog unit := act (CSwap i j).
(** dynamic_allocated.tpp:93-102 *)
Definition t_dtor (i : nat) : prog unit :=
  pbind (act (CInfo i)) (fun v =>
  pbind (t_destruct i (snd v)) (fun _ =>
  pbind (act (CFree i (snd v))) (fun _ => act (CEnd i)))).
(** dynamic_allocated.tpp:15-91: the constructors of local vectors; if the body throws,
    the vector does not come into being (its slot stays, dead) and the exception goes on *)
Definition t_ctor (body : nat -> prog unit) : prog nat :=
  pbind (act CNew) (fun i =>
  pbind (pcatch (body i) (fun x => pbind (act (CEnd i)) (fun _ => PThrow x))) (fun _ => PRet i)).

(** ** One thread alone *)
Inductive sres (A : Type) : Type :=
| Returns (a : A) (e : tenv) (s : state)
| Throws (x : exn) (e : tenv) (s : state)
| Undefined (u : ub).
Arguments Returns {A} a e s.
Arguments Throws {A} x e s.
Arguments Undefined {A} u.
Fixpoint alone {A} (p : prog A) (e : tenv) (s : state) : sres A :=
  match p with
  | PRet a => Returns a e s
  | PThrow x => Throws x e s
  | PUB u => Undefined u
  | PAct c k =>
      match exec c e s with
      | ROk (a, e') s' => alone (k a) e' s'
      | RThrow x s' => Throws x e s'
      | RUB u => Undefined u
      end
  end.

(** ** Threads together *)
Record config (A : Type) : Type := Config { threads : list (prog A * tenv); shared : state }.
Arguments Config {A} threads shared.
Arguments threads {A} c.
Arguments shared {A} c.
(** One access of thread t; [None] if it is undefined.  Threads that have ended, and
    numbers that are no thread, do nothing. *)
Definition tick {A} (t : nat) (g : config A) : option (config A) :=
  match nth_error (threads g) t with
  | Some (PAct c k, e) =>
      match exec c e (shared g) with
      | ROk (a, e') s' =>
          match list_put (threads g) t (k a, e') with
          | Some ts => Some (Config ts s')
          | None => None
          end
      | _ => None
      end
  | Some (PUB _, _) => None
  | _ => Some g
  end.
(** the accesses happen in the given order of threads *)
Fixpoint together {A} (order : list nat) (g : config A) : option (config A) :=
  match order with
  | [] => Some g
  | t :: r => match tick t g with Some g' => together r g' | None => None end
  end.
End Conc.
Arguments cmd : clear implicits.
Arguments ans {T} c.
Arguments prog : clear implicits.
Arguments sres : clear implicits.
Arguments config : clear implicits.
Arguments PRet {T A} a.
Arguments PThrow {T A} e.
Arguments PUB {T A} u.
Arguments PAct {T A} c k.
Arguments Returns {T A} a e s.
Arguments Throws {T A} x e s.
Arguments Undefined {T A} u.
Arguments Config {T A} threads shared.
Arguments threads {T A} c.
Arguments shared {T A} c.
