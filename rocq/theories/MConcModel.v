(** Threads that use dynamic matrices at the same time: the operations of MHeapModel.v
    written as sequences of single accesses, and the accesses of any number of threads
    interleaved in any order.

    Modelled: the operations of cml/matrix/{writable_matrix,dynamic_allocated,
    matrix_product}.tpp and detail/{check_or_resize,copy,apply,generate,resize,transpose}.h
    that MHeapModel.v models, access by access.  Memory accesses are those of ConcModel.v,
    with the simplifications stated there; m_rows and m_cols are read together. *)
From Coq Require Import List ZArith Bool Arith.
From Verif Require Import Base HeapModel MatModel MHeapModel ConcModel.
Import ListNotations.

Section MConc.
Context {T : Type}.
Notation mstate := (mstate T).

(** One access.  Matrices are named by their position among the matrices the thread
    knows. *)
Inductive mcmd : Type :=
| MMem (c : cmd T)            (* m_data, elements, allocation (not CNew) *)
| MDims (i : nat)             (* load m_rows and m_cols *)
| MSetDims (i r c : nat)      (* store m_rows and m_cols *)
| MNew (l : layout).          (* a local matrix *)
Definition mans (c : mcmd) : Type :=
  match c with
  | MMem c => ans c
  | MDims _ => dim
  | MSetDims _ _ _ => unit
  | MNew _ => nat
  end.
Definition mexec (c : mcmd) (e : tenv) : N T (mans c * tenv) :=
  match c with
  | MMem CNew => ubN UBMem
  | MMem c => lift (exec c e)
  | MDims i => bindN (lift (named e i)) (fun o => bindN (get_dim o) (fun d => retN (d, e)))
  | MSetDims i r c => bindN (lift (writable e i)) (fun o => bindN (set_dim o r c) (fun _ => retN (tt, e)))
  | MNew l => bindN (h_default l) (fun o =>
      retN (length (names e), TE (names e ++ [(o, true)]) (handles e) (tsched e)))
  end.

(** A program: a tree of accesses. *)
Inductive mprog (A : Type) : Type :=
| QRet (a : A)
| QThrow (e : exn)
| QUB (u : ub)
| QAct (c : mcmd) (k : mans c -> mprog A).
Arguments QRet {A} a.
Arguments QThrow {A} e.
Arguments QUB {A} u.
Arguments QAct {A} c k.
Fixpoint qbind {A B} (p : mprog A) (f : A -> mprog B) : mprog B :=
  match p with
  | QRet a => f a
  | QThrow e => QThrow e
  | QUB u => QUB u
  | QAct c k => QAct c (fun x => qbind (k x) f)
  end.
(** try { p } catch(...) { h } *)
Fixpoint qcatch {A} (p : mprog A) (h : exn -> mprog A) : mprog A :=
  match p with
  | QRet a => QRet a
  | QThrow e => h e
  | QUB u => QUB u
  | QAct c k => QAct c (fun x => qcatch (k x) h)
  end.
Definition qact (c : mcmd) : mprog (mans c) := QAct c (fun x => QRet x).
Definition qrequire (c : bool) (e : exn) : mprog unit := if c then QRet tt else QThrow e.
Fixpoint qfor (n i : nat) (f : nat -> mprog unit) : mprog unit :=
  match n with
  | O => QRet tt
  | S n' => qbind (f i) (fun _ => qfor n' (S i) f)
  end.
(** accesses to memory only *)
Fixpoint mem {A} (p : prog T A) : mprog A :=
  match p with
  | PRet a => QRet a
  | PThrow e => QThrow e
  | PUB u => QUB u
  | PAct c k => QAct (MMem c) (fun x => mem (k x))
  end.

(** ** The operations as programs; matrices are names *)
(** MHeapModel.h_get, h_put: dynamic_allocated.tpp:297-331 *)
Definition q_get (i r c : nat) : mprog T :=
  qbind (qact (MDims i)) (fun d : dim => mem (t_get i (index (dlay d) (drows d) (dcols d) r c))).
Definition q_put (i r c : nat) (x : T) : mprog unit :=
  qbind (qact (MDims i)) (fun d : dim => mem (t_put i (index (dlay d) (drows d) (dcols d) r c) x)).
(** MHeapModel.h_dims, h_read, h_build: binary_node.tpp, scalar_node.tpp,
    transpose_node.tpp (the lines are cited there) *)
Fixpoint q_dims (e : hexpr T) : mprog (nat * nat) :=
  match e with
  | HObj i => qbind (qact (MDims i)) (fun d : dim => QRet (drows d, dcols d))
  | HTmp r c _ => QRet (r, c)
  | HUn _ e1 | HBin _ e1 _ | HScal _ e1 _ => q_dims e1
  | HTrans e1 => qbind (q_dims e1) (fun p => QRet (snd p, fst p))
  end.
Fixpoint q_read (e : hexpr T) (i j : nat) : mprog T :=
  match e with
  | HObj o => q_get o i j
  | HTmp r c f => if (i <? r) && (j <? c) then QRet (f i j) else QUB UBMem
  | HUn f e1 => qbind (q_read e1 i j) (fun x => QRet (f x))
  | HBin f e1 e2 => qbind (q_read e1 i j) (fun x => qbind (q_read e2 i j) (fun y => QRet (f x y)))
  | HScal f e1 k => qbind (q_read e1 i j) (fun x => QRet (f x k))
  | HTrans e1 => q_read e1 j i
  end.
Fixpoint q_build (e : hexpr T) : mprog unit :=
  match e with
  | HObj i => qbind (qact (MDims i)) (fun _ => QRet tt)
  | HTmp _ _ _ => QRet tt
  | HUn _ e1 | HScal _ e1 _ | HTrans e1 => q_build e1
  | HBin _ e1 e2 =>
      qbind (q_build e1) (fun _ => qbind (q_build e2) (fun _ =>
      qbind (q_dims e1) (fun p => qbind (q_dims e2) (fun q =>
      qrequire (Nat.eqb (fst p) (fst q) && Nat.eqb (snd p) (snd q)) EIncompatibleMatrixSize))))
  end.

Variable triv : bool.
(** dynamic_allocated.tpp:146-193 *)
Definition q_resize (i : nat) (rows cols : Z) : mprog unit :=
  qbind (qrequire (Z.leb 0 rows) EInvalidArgument) (fun _ =>
  qbind (qrequire (Z.leb 0 cols) EInvalidArgument) (fun _ =>
  let r := Z.to_nat rows in let c := Z.to_nat cols in
  qbind (qact (MDims i)) (fun d : dim =>
  let n_old := drows d * dcols d in
  let n_new := r * c in
  if Nat.eqb n_new n_old then qact (MSetDims i r c) else
  qbind (mem (pbind (act (CInfo i)) (fun _ =>
              pbind (t_alloc n_new) (fun h =>
              pbind (t_destruct triv i n_old) (fun _ =>
              pbind (pfor (Nat.min n_old n_new) 0 (fun k =>
                       pbind (act (CCell i k)) (fun x => act (CFill h k x)))) (fun _ =>
              pbind (act (CFree i n_old)) (fun _ =>
              act (CAttach i h n_new)))))))) (fun _ =>
  qact (MSetDims i r c))))).
(** dynamic_allocated.tpp:195-232 *)
Definition q_resize_fast (i : nat) (rows cols : Z) : mprog unit :=
  qbind (qrequire (Z.leb 0 rows) EInvalidArgument) (fun _ =>
  qbind (qrequire (Z.leb 0 cols) EInvalidArgument) (fun _ =>
  let r := Z.to_nat rows in let c := Z.to_nat cols in
  qbind (qact (MDims i)) (fun d : dim =>
  let n_old := drows d * dcols d in
  let n_new := r * c in
  if Nat.eqb n_new n_old then qact (MSetDims i r c) else
  qbind (mem (pbind (act (CInfo i)) (fun _ =>
              pbind (t_alloc n_new) (fun h =>
              pbind (t_destruct triv i n_old) (fun _ =>
              pbind (act (CFree i n_old)) (fun _ =>
              act (CAttach i h n_new))))))) (fun _ =>
  qact (MSetDims i r c))))).
(** The element loops of detail/{copy,apply,generate}.h *)
Definition q_each (i : nat) (f : nat -> nat -> mprog unit) : mprog unit :=
  qbind (qact (MDims i)) (fun d : dim =>
  match dlay d with
  | row_major => qfor (drows d) 0 (fun r => qfor (dcols d) 0 (fun c => f r c))
  | col_major => qfor (dcols d) 0 (fun c => qfor (drows d) 0 (fun r => f r c))
  end).
(** writable_matrix.tpp:415-423 with detail/check_or_resize.h:20-27 *)
Definition q_assign (i : nat) (e : hexpr T) : mprog unit :=
  qbind (q_build e) (fun _ =>
  qbind (q_dims e) (fun p =>
  qbind (q_resize i (Z.of_nat (fst p)) (Z.of_nat (snd p))) (fun _ =>
  q_each i (fun r c => qbind (q_read e r c) (fun x => q_put i r c x))))).
(** writable_matrix.tpp:329-337, 348-356 *)
Definition q_compound (op : T -> T -> T) (i : nat) (e : hexpr T) : mprog unit :=
  qbind (q_build e) (fun _ =>
  qbind (q_dims e) (fun p =>
  qbind (q_resize i (Z.of_nat (fst p)) (Z.of_nat (snd p))) (fun _ =>
  q_each i (fun r c =>
    qbind (q_get i r c) (fun x => qbind (q_read e r c) (fun y => q_put i r c (op x y))))))).
(** writable_matrix.tpp:368-377, 390-399, with a scalar of the thread's own *)
Definition q_scale (op : T -> T -> T) (i : nat) (k : T) : mprog unit :=
  q_each i (fun r c => qbind (q_get i r c) (fun x => q_put i r c (op x k))).
(** writable_matrix.tpp:151-158, 169-176, 210-217 (zero, identity, fill) *)
Definition q_generate (i : nat) (f : nat -> nat -> T) : mprog unit :=
  q_each i (fun r c => q_put i r c (f r c)).
(** writable_matrix.tpp:425-436, 458-470, 473-485, with values of the thread's own *)
Fixpoint q_put_list (i cols k : nat) (l : list T) : mprog unit :=
  match l with
  | [] => QRet tt
  | x :: l' => if Nat.eqb cols 0 then QUB UBMem else
               qbind (q_put i (k / cols) (k mod cols) x) (fun _ => q_put_list i cols (S k) l')
  end.
Definition q_list (ex : exn) (i : nat) (l : list T) : mprog unit :=
  qbind (qact (MDims i)) (fun d : dim =>
  qbind (qrequire (Nat.eqb (drows d * dcols d) (length l)) ex) (fun _ =>
  q_put_list i (dcols d) 0 l)).
(** dynamic_allocated.tpp:241-251: the members are swapped *)
Definition q_move_assign (i j : nat) : mprog unit :=
  qbind (mem (pbind (act (CInfo i)) (fun _ => pbind (act (CInfo j)) (fun _ => PRet tt)))) (fun _ =>
  qbind (qact (MDims i)) (fun d1 : dim => qbind (qact (MDims j)) (fun d2 : dim =>
  qbind (qact (MMem (CSwap i j))) (fun _ =>
  qbind (qact (MSetDims i (drows d2) (dcols d2))) (fun _ =>
  qact (MSetDims j (drows d1) (dcols d1))))))).
(** dynamic_allocated.tpp:104-114 *)
Definition q_dtor (i : nat) : mprog unit :=
  qbind (qact (MDims i)) (fun d : dim =>
  mem (pbind (act (CInfo i)) (fun _ =>
       pbind (t_destruct triv i (drows d * dcols d)) (fun _ =>
       pbind (act (CFree i (drows d * dcols d))) (fun _ => act (CEnd i)))))).
(** dynamic_allocated.tpp:17-80, dynamic_allocated.h:155-164: the constructors of local
    matrices; if the body throws, the matrix does not come into being (its slot stays,
    dead) and the exception goes on *)
Definition q_ctor (l : layout) (body : nat -> mprog unit) : mprog nat :=
  qbind (qact (MNew l)) (fun i =>
  qbind (qcatch (body i) (fun x => qbind (qact (MMem (CEnd i))) (fun _ => QThrow x))) (fun _ => QRet i)).
(** a local matrix i whose life is the rest of the block: its destructor runs when the
    block returns and when it throws *)
Definition q_scope (i : nat) (body : mprog unit) : mprog unit :=
  qbind (qcatch body (fun x => qbind (q_dtor i) (fun _ => QThrow x))) (fun _ => q_dtor i).
(** detail/transpose.h:26-33 *)
Definition q_transpose (i : nat) : mprog unit :=
  qbind (qact (MDims i)) (fun d : dim =>
  qbind (q_ctor (dlay d) (fun t => q_assign t (HObj i))) (fun t =>
  q_scope t (q_assign i (HTrans (HObj t))))).

Context {O : Ops T}.
(** matrix_product.tpp:13-36 *)
Fixpoint q_inner (i1 i2 r c : nat) (n k : nat) (acc : T) : mprog T :=
  match n with
  | 0 => QRet acc
  | S n' => qbind (q_get i1 r k) (fun x => qbind (q_get i2 k c) (fun y =>
            q_inner i1 i2 r c n' (S k) (add acc (mul x y))))
  end.
Definition q_product (l : layout) (i1 i2 : nat) : mprog nat :=
  qbind (qact (MDims i1)) (fun d1 : dim => qbind (qact (MDims i2)) (fun d2 : dim =>
  qbind (qrequire (Nat.eqb (dcols d1) (drows d2)) EIncompatibleMatrixInnerSize) (fun _ =>
  qbind (qact (MNew l)) (fun t =>
  qbind (qcatch
    (qbind (q_resize t (Z.of_nat (drows d1)) (Z.of_nat (dcols d2))) (fun _ =>
     qfor (drows d1) 0 (fun r => qfor (dcols d2) 0 (fun c =>
       qbind (q_get i1 r 0) (fun x => qbind (q_get i2 0 c) (fun y =>
       qbind (q_inner i1 i2 r c (dcols d1 - 1) 1 (mul x y)) (fun m => q_put t r c m)))))))
    (fun x => qbind (q_dtor t) (fun _ => QThrow x))) (fun _ => QRet t))))).

(** ** One thread alone *)
Inductive mres (A : Type) : Type :=
| MReturns (a : A) (e : tenv) (s : mstate)
| MThrows (x : exn) (e : tenv) (s : mstate)
| MUndefined (u : ub).
Arguments MReturns {A} a e s.
Arguments MThrows {A} x e s.
Arguments MUndefined {A} u.
Fixpoint malone {A} (p : mprog A) (e : tenv) (s : mstate) : mres A :=
  match p with
  | QRet a => MReturns a e s
  | QThrow x => MThrows x e s
  | QUB u => MUndefined u
  | QAct c k =>
      match mexec c e s with
      | NOk (a, e') s' => malone (k a) e' s'
      | NThrow x s' => MThrows x e s'
      | NUB u => MUndefined u
      end
  end.

(** ** Threads together *)
Record mconfig (A : Type) : Type := MConfig { mthreads : list (mprog A * tenv); mshared : mstate }.
Arguments MConfig {A} mthreads mshared.
Arguments mthreads {A} m.
Arguments mshared {A} m.
(** One access of thread t; [None] if it is undefined. *)
Definition mtick {A} (t : nat) (g : mconfig A) : option (mconfig A) :=
  match nth_error (mthreads g) t with
  | Some (QAct c k, e) =>
      match mexec c e (mshared g) with
      | NOk (a, e') s' =>
          match list_put (mthreads g) t (k a, e') with
          | Some ts => Some (MConfig ts s')
          | None => None
          end
      | _ => None
      end
  | Some (QUB _, _) => None
  | _ => Some g
  end.
(** the accesses happen in the given order of threads *)
Fixpoint mtogether {A} (order : list nat) (g : mconfig A) : option (mconfig A) :=
  match order with
  | [] => Some g
  | t :: r => match mtick t g with Some g' => mtogether r g' | None => None end
  end.
End MConc.
Arguments mcmd : clear implicits.
Arguments mans {T} c.
Arguments mprog : clear implicits.
Arguments mres : clear implicits.
Arguments mconfig : clear implicits.
Arguments QRet {T A} a.
Arguments QThrow {T A} e.
Arguments QUB {T A} u.
Arguments QAct {T A} c k.
Arguments MReturns {T A} a e s.
Arguments MThrows {T A} x e s.
Arguments MUndefined {T A} u.
Arguments MConfig {T A} mthreads mshared.
Arguments mthreads {T A} m.
Arguments mshared {T A} m.
