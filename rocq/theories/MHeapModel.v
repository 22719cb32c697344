(** Life cycle of dynamically allocated matrices: memory blocks, matrix objects,
    element access through the layout, expression templates with operands kept by
    reference, assignment, in-place transpose, products, destruction.

    Modelled: cml/matrix/dynamic_allocated.{h,tpp}, cml/matrix/writable_matrix.tpp,
    cml/matrix/detail/{check_or_resize,copy,apply,generate,get,resize,transpose}.h,
    cml/matrix/matrix_product.tpp, cml/matrix/size_checking.tpp:102-139.

    Memory is that of HeapModel.v.  A matrix object is m_data (the [oaddr] of a
    [vobj]) together with m_rows, m_cols and its layout (a [dim]); the code has no
    size member, it multiplies m_rows by m_cols wherever it needs the number of
    elements, and so does the model ([olen] is written but never read here).

    Simplifications: one element type; the products rows * cols do not overflow
    int; allocate(n) fails according to a schedule. *)
From Coq Require Import List ZArith Bool Arith.
From Verif Require Import Base HeapModel MatModel.
Import ListNotations.

(** m_rows, m_cols (dynamic_allocated.h:296-299) and the Layout parameter. *)
Record dim : Type := Dim { drows : nat; dcols : nat; dlay : layout }.

Definition layout_eqb (l1 l2 : layout) : bool :=
  match l1, l2 with row_major, row_major | col_major, col_major => true | _, _ => false end.

Section MHeap.
Context {T : Type}.

(** Entry o of [dims] belongs to object o of [heap]. *)
Record mstate : Type := MSt { heap : state T; dims : list dim }.

Inductive nres (A : Type) : Type :=
| NOk (a : A) (s : mstate)
| NThrow (e : exn) (s : mstate)
| NUB (u : ub).
Arguments NOk {A} a s.
Arguments NThrow {A} e s.
Arguments NUB {A} u.

Definition N (A : Type) : Type := mstate -> nres A.
Definition retN {A} (a : A) : N A := fun s => NOk a s.
Definition bindN {A B} (m : N A) (f : A -> N B) : N B := fun s =>
  match m s with
  | NOk a s' => f a s'
  | NThrow e s' => NThrow e s'
  | NUB u => NUB u
  end.
Definition requireN (c : bool) (e : exn) : N unit := fun s => if c then NOk tt s else NThrow e s.
Definition ubN {A} (u : ub) : N A := fun _ => NUB u.
Definition lift {A} (m : M T A) : N A := fun s =>
  match m (heap s) with
  | ROk a h => NOk a (MSt h (dims s))
  | RThrow e h => NThrow e (MSt h (dims s))
  | RUB u => NUB u
  end.

(** for(int i = lo; ...; n iterations) *)
Fixpoint forN (n i : nat) (f : nat -> N unit) : N unit :=
  match n with
  | O => retN tt
  | S n' => bindN (f i) (fun _ => forN n' (S i) f)
  end.

(** m_rows and m_cols of object o *)
Definition get_dim (o : nat) : N dim := fun s =>
  match nth_error (dims s) o with Some d => NOk d s | None => NUB UBMem end.
Definition set_dim (o r c : nat) : N unit := fun s =>
  match nth_error (dims s) o with
  | Some d => match list_put (dims s) o (Dim r c (dlay d)) with
              | Some ds => NOk tt (MSt (heap s) ds)
              | None => NUB UBMem
              end
  | None => NUB UBMem
  end.

(** ** Element access: i_get, i_put (dynamic_allocated.tpp:297-331) through s_access
    (dynamic_allocated.h:275-287); nothing is checked. *)
Definition h_get (o i j : nat) : N T :=
  bindN (get_dim o) (fun d => lift (obj_get o (index (dlay d) (drows d) (dcols d) i j))).
Definition h_put (o i j : nat) (x : T) : N unit :=
  bindN (get_dim o) (fun d => lift (obj_put o (index (dlay d) (drows d) (dcols d) i j) x)).

(** ** Expression nodes: an operand given as an lvalue is kept by reference
    ([HObj]); a temporary ([HTmp]) or a C array is its own r x c table of values. *)
Inductive hexpr : Type :=
| HObj (o : nat)
| HTmp (r c : nat) (f : nat -> nat -> T)
| HUn (f : T -> T) (e : hexpr)                 (* matrix_unary_node *)
| HBin (f : T -> T -> T) (e1 e2 : hexpr)       (* matrix_binary_node *)
| HScal (f : T -> T -> T) (e : hexpr) (k : T)  (* matrix_scalar_node *)
| HTrans (e : hexpr).                          (* matrix_transpose_node *)

(** rows(), cols(): binary_node.tpp:43-55, scalar_node.tpp:35-47,
    transpose_node.tpp:32-44 *)
Fixpoint h_dims (e : hexpr) : N (nat * nat) :=
  match e with
  | HObj o => bindN (get_dim o) (fun d => retN (drows d, dcols d))
  | HTmp r c _ => retN (r, c)
  | HUn _ e1 | HBin _ e1 _ | HScal _ e1 _ => h_dims e1
  | HTrans e1 => bindN (h_dims e1) (fun p => retN (snd p, fst p))
  end.

(** get(i,j): binary_node.tpp:57-62, scalar_node.tpp:49-55, transpose_node.tpp:46-51 *)
Fixpoint h_read (e : hexpr) (i j : nat) : N T :=
  match e with
  | HObj o => h_get o i j
  | HTmp r c f => if (i <? r) && (j <? c) then retN (f i j) else ubN UBMem
  | HUn f e1 => bindN (h_read e1 i j) (fun x => retN (f x))
  | HBin f e1 e2 => bindN (h_read e1 i j) (fun x => bindN (h_read e2 i j) (fun y => retN (f x y)))
  | HScal f e1 k => bindN (h_read e1 i j) (fun x => retN (f x k))
  | HTrans e1 => h_read e1 j i
  end.

(** Construction of the nodes: binary_node.tpp:15-24 check_same_size
    (size_checking.tpp:157-168). *)
Fixpoint h_build (e : hexpr) : N unit :=
  match e with
  | HObj o => bindN (get_dim o) (fun _ => retN tt)
  | HTmp _ _ _ => retN tt
  | HUn _ e1 | HScal _ e1 _ | HTrans e1 => h_build e1
  | HBin _ e1 e2 =>
      bindN (h_build e1) (fun _ => bindN (h_build e2) (fun _ =>
      bindN (h_dims e1) (fun p => bindN (h_dims e2) (fun q =>
      requireN (Nat.eqb (fst p) (fst q) && Nat.eqb (snd p) (snd q)) EIncompatibleMatrixSize))))
  end.

(** ** Storage *)

(** is_trivially_destructible<E> *)
Variable triv : bool.

(** dynamic_allocated.tpp:146-193 *)
Definition h_resize (o : nat) (rows cols : Z) : N unit :=
  bindN (requireN (Z.leb 0 rows) EInvalidArgument) (fun _ =>
  bindN (requireN (Z.leb 0 cols) EInvalidArgument) (fun _ =>
  let r := Z.to_nat rows in let c := Z.to_nat cols in
  bindN (get_dim o) (fun d =>
  let n_old := drows d * dcols d in
  let n_new := r * c in
  if Nat.eqb n_new n_old then set_dim o r c else
  bindN (lift (get_obj o)) (fun v =>
  bindN (lift (alloc n_new)) (fun copy =>
  bindN (lift (destruct_elems triv (oaddr v) n_old)) (fun _ =>
  bindN (lift (match oaddr v with
               | None => ret tt
               | Some (b, off) =>
                   bindM (forM (Nat.min n_old n_new) 0 (fun i =>
                            bindM (rd_cell b (off + i)) (fun x => wr_cell copy i x))) (fun _ =>
                   dealloc (oaddr v) n_old)
               end)) (fun _ =>
  bindN (lift (set_obj o (Some (VObj (okind v) (Some (copy, 0)) n_new)))) (fun _ =>
  set_dim o r c)))))))).

(** dynamic_allocated.tpp:195-232 *)
Definition h_resize_fast (o : nat) (rows cols : Z) : N unit :=
  bindN (requireN (Z.leb 0 rows) EInvalidArgument) (fun _ =>
  bindN (requireN (Z.leb 0 cols) EInvalidArgument) (fun _ =>
  let r := Z.to_nat rows in let c := Z.to_nat cols in
  bindN (get_dim o) (fun d =>
  let n_old := drows d * dcols d in
  let n_new := r * c in
  if Nat.eqb n_new n_old then set_dim o r c else
  bindN (lift (get_obj o)) (fun v =>
  bindN (lift (alloc n_new)) (fun copy =>
  bindN (lift (destruct_elems triv (oaddr v) n_old)) (fun _ =>
  bindN (lift (dealloc (oaddr v) n_old)) (fun _ =>
  bindN (lift (set_obj o (Some (VObj (okind v) (Some (copy, 0)) n_new)))) (fun _ =>
  set_dim o r c)))))))).

(** The element loops of detail/{copy,apply,generate}.h, in the order of the
    target's layout; rows() and cols() do not change during the loop. *)
Definition h_each (o : nat) (f : nat -> nat -> N unit) : N unit :=
  bindN (get_dim o) (fun d =>
  match dlay d with
  | row_major => forN (drows d) 0 (fun i => forN (dcols d) 0 (fun j => f i j))
  | col_major => forN (dcols d) 0 (fun j => forN (drows d) 0 (fun i => f i j))
  end).

(** writable_matrix.tpp:415-423 with detail/check_or_resize.h:20-27: a dynamic
    matrix has resize(), so it takes the size of the right-hand side. *)
Definition h_assign (o : nat) (e : hexpr) : N unit :=
  bindN (h_build e) (fun _ =>
  bindN (h_dims e) (fun p =>
  bindN (h_resize o (Z.of_nat (fst p)) (Z.of_nat (snd p))) (fun _ =>
  h_each o (fun i j => bindN (h_read e i j) (fun x => h_put o i j x))))).

(** writable_matrix.tpp:329-337, 348-356  operator+=, operator-= *)
Definition h_compound (op : T -> T -> T) (o : nat) (e : hexpr) : N unit :=
  bindN (h_build e) (fun _ =>
  bindN (h_dims e) (fun p =>
  bindN (h_resize o (Z.of_nat (fst p)) (Z.of_nat (snd p))) (fun _ =>
  h_each o (fun i j =>
    bindN (h_get o i j) (fun x => bindN (h_read e i j) (fun y => h_put o i j (op x y))))))).

(** writable_matrix.tpp:368-377, 390-399  operator*=, operator/= by a scalar that is
    not an element of a matrix *)
Definition h_scale (op : T -> T -> T) (o : nat) (k : T) : N unit :=
  h_each o (fun i j => bindN (h_get o i j) (fun x => h_put o i j (op x k))).

(** writable_matrix.tpp:151-158, 169-176, 210-217 (zero, identity, fill) through
    detail/generate.h *)
Definition h_generate (o : nat) (f : nat -> nat -> T) : N unit :=
  h_each o (fun i j => h_put o i j (f i j)).

(** put(k / cols, k % cols, l[k]) for successive k (division by zero is
    undefined) *)
Fixpoint h_put_list (o cols k : nat) (l : list T) : N unit :=
  match l with
  | [] => retN tt
  | x :: l' => if Nat.eqb cols 0 then ubN UBMem else
               bindN (h_put o (k / cols) (k mod cols) x) (fun _ => h_put_list o cols (S k) l')
  end.
(** writable_matrix.tpp:425-436, 458-470 (arrays, initializer lists), 473-485 and
    24-50 (element lists), with the exceptions of check_same_linear_size and
    check_linear_size (size_checking.tpp:102-139). *)
Definition h_assign_list (ex : exn) (o : nat) (l : list T) : N unit :=
  bindN (get_dim o) (fun d =>
  bindN (requireN (Nat.eqb (drows d * dcols d) (length l)) ex) (fun _ =>
  h_put_list o (dcols d) 0 l)).

(** ** Constructors and destructor *)

(** dynamic_allocated.tpp:17-23 *)
Definition h_default (l : layout) : N nat := fun s =>
  NOk (length (objs (heap s)))
      (MSt (St (blocks (heap s)) (objs (heap s) ++ [Some (VObj KAllocated None 0)]) (sched (heap s)))
           (dims s ++ [Dim 0 0 l])).

(** A constructor whose body throws creates no object, and its destructor is not
    run. *)
Definition h_ctor (l : layout) (body : nat -> N unit) : N nat := fun s =>
  match h_default l s with
  | NOk o s1 => match body o s1 with
                | NOk _ s2 => NOk o s2
                | NThrow e s2 => NThrow e (MSt (drop_last (heap s2)) (removelast (dims s2)))
                | NUB u => NUB u
                end
  | NThrow e s1 => NThrow e s1
  | NUB u => NUB u
  end.

(** dynamic_allocated.tpp:25-32  matrix(rows, cols) *)
Definition h_ctor_size (l : layout) (rows cols : Z) : N nat :=
  h_ctor l (fun o => h_resize_fast o rows cols).
(** dynamic_allocated.tpp:34-41, 52-60, 72-80: copies, expressions, C arrays *)
Definition h_ctor_expr (l : layout) (e : hexpr) : N nat := h_ctor l (fun o => h_assign o e).
(** dynamic_allocated.h:155-164  matrix(rows, cols, e0, eN...) *)
Definition h_ctor_elements (l : layout) (rows cols : Z) (es : list T) : N nat :=
  h_ctor l (fun o => bindN (h_resize_fast o rows cols) (fun _ => h_assign_list EMatrixSize o es)).
(** dynamic_allocated.tpp:62-70  matrix(rows, cols, array) *)
Definition h_ctor_array (l : layout) (rows cols : Z) (a : list T) : N nat :=
  h_ctor l (fun o => bindN (h_resize_fast o rows cols) (fun _ =>
                     h_assign_list EIncompatibleMatrixSize o a)).

(** dynamic_allocated.tpp:241-251  operator=(matrix&&): swap.  Both matrices have
    the same type, hence the same layout. *)
Definition h_move_assign (o1 o2 : nat) : N unit :=
  bindN (lift (get_obj o1)) (fun v1 => bindN (lift (get_obj o2)) (fun v2 =>
  bindN (get_dim o1) (fun d1 => bindN (get_dim o2) (fun d2 =>
  bindN (lift (set_obj o1 (Some (VObj (okind v1) (oaddr v2) (olen v2))))) (fun _ =>
  bindN (lift (set_obj o2 (Some (VObj (okind v2) (oaddr v1) (olen v1))))) (fun _ =>
  bindN (set_dim o1 (drows d2) (dcols d2)) (fun _ =>
  set_dim o2 (drows d1) (dcols d1)))))))).
(** dynamic_allocated.tpp:43-50 *)
Definition h_ctor_move (l : layout) (o : nat) : N nat := h_ctor l (fun o' => h_move_assign o' o).

(** dynamic_allocated.tpp:104-114 *)
Definition h_dtor (o : nat) : N unit :=
  bindN (get_dim o) (fun d =>
  let n := drows d * dcols d in
  bindN (lift (get_obj o)) (fun v =>
  bindN (lift (destruct_elems triv (oaddr v) n)) (fun _ =>
  bindN (lift (dealloc (oaddr v) n)) (fun _ =>
  lift (set_obj o None))))).

(** A local object t: its destructor runs when [body] returns and when it throws. *)
Definition with_local (mk : N nat) (body : nat -> N unit) : N unit :=
  bindN mk (fun t s =>
    match body t s with
    | NOk _ s1 => h_dtor t s1
    | NThrow e s1 => match h_dtor t s1 with
                     | NOk _ s2 => NThrow e s2
                     | NThrow e' s2 => NThrow e' s2
                     | NUB u => NUB u
                     end
    | NUB u => NUB u
    end).

(** detail/transpose.h:26-33: temporary_of_t<Sub> T(M); M = cml::transpose(T) *)
Definition h_transpose (o : nat) : N unit :=
  bindN (get_dim o) (fun d =>
  with_local (h_ctor_expr (dlay d) (HObj o)) (fun t => h_assign o (HTrans (HObj t)))).

Context {O : Ops T}.

(** matrix_product.tpp:13-36: the result object is built, sized and filled,
    then returned without a copy; a throw inside destroys it. *)
Fixpoint h_inner (o1 o2 i j : nat) (n k : nat) (acc : T) : N T :=
  match n with
  | 0 => retN acc
  | S n' => bindN (h_get o1 i k) (fun x => bindN (h_get o2 k j) (fun y =>
            h_inner o1 o2 i j n' (S k) (add acc (mul x y))))
  end.
Definition h_product (l : layout) (o1 o2 : nat) : N nat :=
  bindN (get_dim o1) (fun d1 => bindN (get_dim o2) (fun d2 =>
  bindN (requireN (Nat.eqb (dcols d1) (drows d2)) EIncompatibleMatrixInnerSize) (fun _ =>
  bindN (h_default l) (fun t s =>
    match bindN (h_resize t (Z.of_nat (drows d1)) (Z.of_nat (dcols d2))) (fun _ =>
          forN (drows d1) 0 (fun i => forN (dcols d2) 0 (fun j =>
            bindN (h_get o1 i 0) (fun x => bindN (h_get o2 0 j) (fun y =>
            bindN (h_inner o1 o2 i j (dcols d1 - 1) 1 (mul x y)) (fun m =>
            h_put t i j m)))))) s with
    | NOk _ s1 => NOk t s1
    | NThrow e s1 => match h_dtor t s1 with
                     | NOk _ s2 => NThrow e s2
                     | NThrow e' s2 => NThrow e' s2
                     | NUB u => NUB u
                     end
    | NUB u => NUB u
    end)))).

(** ** Histories of API calls *)
Inductive mop : Type :=
| MDefault (l : layout)
| MSize (l : layout) (r c : Z)
| MElements (l : layout) (r c : Z) (es : list T)
| MArray (l : layout) (r c : Z) (a : list T)
| MExpr (l : layout) (e : hexpr)       (* copies, expressions *)
| MMoveCtor (o : nat)
| MProduct (l : layout) (o1 o2 : nat)  (* a new matrix holding o1 * o2 *)
| MAssign (o : nat) (e : hexpr)
| MCompound (f : T -> T -> T) (o : nat) (e : hexpr)
| MScale (f : T -> T -> T) (o : nat) (k : T)
| MGenerate (o : nat) (f : nat -> nat -> T)   (* zero, identity, fill *)
| MList (o : nat) (l : list T)         (* = array, = { ... } *)
| MTranspose (o : nat)
| MMoveAssign (o1 o2 : nat)
| MResize (o : nat) (r c : Z)
| MResizeFast (o : nat) (r c : Z)
| MPut (o i j : nat) (x : T)
| MDestroy (o : nat).

Fixpoint h_objs (e : hexpr) : list nat :=
  match e with
  | HObj o => [o]
  | HTmp _ _ _ => []
  | HUn _ e1 | HScal _ e1 _ | HTrans e1 => h_objs e1
  | HBin _ e1 e2 => h_objs e1 ++ h_objs e2
  end.

Definition m_alive (s : mstate) (o : nat) : bool := alive (heap s) o.
Definition m_dim (s : mstate) (o : nat) : dim := nth o (dims s) (Dim 0 0 row_major).
Definition voidN {A} (m : N A) : N unit := bindN m (fun _ => retN tt).

(** One API call.  Calls that name a dead object, put outside the matrix, multiply
    matrices without inner elements (matrix_product.tpp:29 reads sub1(i,0)
    unconditionally) or move between matrices of different types are skipped. *)
Definition m_step (p : mop) : N unit := fun s =>
  match p with
  | MDefault l => voidN (h_default l) s
  | MSize l r c => voidN (h_ctor_size l r c) s
  | MElements l r c es => voidN (h_ctor_elements l r c es) s
  | MArray l r c a => voidN (h_ctor_array l r c a) s
  | MExpr l e => if forallb (m_alive s) (h_objs e) then voidN (h_ctor_expr l e) s else retN tt s
  | MMoveCtor o => if m_alive s o then voidN (h_ctor_move (dlay (m_dim s o)) o) s else retN tt s
  | MProduct l o1 o2 =>
      if m_alive s o1 && m_alive s o2 && negb (Nat.eqb (dcols (m_dim s o1)) 0)
      then voidN (h_product l o1 o2) s else retN tt s
  | MAssign o e =>
      if m_alive s o && forallb (m_alive s) (h_objs e) then h_assign o e s else retN tt s
  | MCompound f o e =>
      if m_alive s o && forallb (m_alive s) (h_objs e) then h_compound f o e s else retN tt s
  | MScale f o k => if m_alive s o then h_scale f o k s else retN tt s
  | MGenerate o f => if m_alive s o then h_generate o f s else retN tt s
  | MList o l => if m_alive s o then h_assign_list EIncompatibleMatrixSize o l s else retN tt s
  | MTranspose o => if m_alive s o then h_transpose o s else retN tt s
  | MMoveAssign o1 o2 =>
      if m_alive s o1 && m_alive s o2 && layout_eqb (dlay (m_dim s o1)) (dlay (m_dim s o2))
      then h_move_assign o1 o2 s else retN tt s
  | MResize o r c => if m_alive s o then h_resize o r c s else retN tt s
  | MResizeFast o r c => if m_alive s o then h_resize_fast o r c s else retN tt s
  | MPut o i j x =>
      if m_alive s o && (i <? drows (m_dim s o)) && (j <? dcols (m_dim s o))
      then h_put o i j x s else retN tt s
  | MDestroy o => if m_alive s o then h_dtor o s else retN tt s
  end.

(** Exceptions are caught by the client, who goes on. *)
Fixpoint m_run (h : list mop) (s : mstate) : nres unit :=
  match h with
  | [] => NOk tt s
  | p :: h' => match m_step p s with
               | NOk _ s' => m_run h' s'
               | NThrow _ s' => m_run h' s'
               | NUB u => NUB u
               end
  end.

Definition m_init (sch : list bool) : mstate := MSt (init sch) [].

End MHeap.

Arguments mstate : clear implicits.
Arguments nres : clear implicits.
Arguments hexpr : clear implicits.
Arguments mop : clear implicits.
Arguments N : clear implicits.
Arguments NOk {T A} a s.
Arguments NThrow {T A} e s.
Arguments NUB {T A} u.
