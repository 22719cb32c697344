(** Vocabulary for threads that use matrices: what a thread can reach is said in
    ConcSpec.v; here what its matrices are, and what the outcome of a thread is. *)
From Coq Require Import List ZArith Bool Arith.
From Verif Require Import Base HeapModel HeapSpec MatModel MHeapModel MHeapSpec ConcModel ConcSpec MConcModel.
Import ListNotations.

Section MConcSpec.
Context {T : Type}.
Notation mstate := (mstate T).

(** ** Locations: those of ConcSpec.v (the members of a matrix count as one), touched by the
    next access of a thread; [true]: it is written *)
Definition mtouches (s : mstate) (e : tenv) (c : mcmd T) (l : loc) (wr : bool) : Prop :=
  match c with
  | MMem c => touches (heap s) e c l wr
  | MDims i => exists o w, nth_error (names e) i = Some (o, w) /\ l = LMembers o /\ wr = false
  | MSetDims i _ _ => exists o w, nth_error (names e) i = Some (o, w) /\ l = LMembers o /\ wr = true
  | MNew _ => False
  end.

(** ** Outcomes *)
Fixpoint mturns {A} (p : mprog T A) (e : tenv) (s : mstate) : nat :=
  match p with
  | QAct c k => match mexec c e s with NOk (a, e') s' => S (mturns (k a) e' s') | _ => 0 end
  | _ => 0
  end.
Definition mwell_defined {A} (r : mres T A) : Prop :=
  match r with MUndefined _ => False | _ => True end.
Definition mended {A} (p : mprog T A) : Prop :=
  match p with QRet _ | QThrow _ => True | _ => False end.
(** o in s is alive exactly when o' in s' is, and has the same size, layout and elements *)
Definition equal_matrix (s : mstate) (o : nat) (s' : mstate) (o' : nat) : Prop :=
  (exists_m s o <-> exists_m s' o') /\ same_matrix (matrix_of s o) (matrix_of s' o').
(** the same matrices, in the same order *)
Definition same_matrices (e : tenv) (s : mstate) (e' : tenv) (s' : mstate) : Prop :=
  length (names e) = length (names e') /\
  forall i o w, nth_error (names e) i = Some (o, w) ->
    exists o', nth_error (names e') i = Some (o', w) /\ equal_matrix s o s' o'.
Definition msame_outcome {A} (p : mprog T A) (e : tenv) (s : mstate) (r : mres T A) : Prop :=
  match p, r with
  | QRet a, MReturns a' e' s' => a = a' /\ same_matrices e s e' s'
  | QThrow x, MThrows x' e' s' => x = x' /\ same_matrices e s e' s'
  | _, _ => False
  end.

(** ** One thread and MHeapModel.v *)
(** the expression with the matrices that the names stand for *)
Fixpoint mresolve (ns : list (nat * bool)) (e : hexpr T) : hexpr T :=
  match e with
  | HObj i => HObj (obj_of ns i)
  | HTmp r c f => HTmp r c f
  | HUn f e1 => HUn f (mresolve ns e1)
  | HBin f e1 e2 => HBin f (mresolve ns e1) (mresolve ns e2)
  | HScal f e1 k => HScal f (mresolve ns e1) k
  | HTrans e1 => HTrans (mresolve ns e1)
  end.
Fixpoint mknown (ns : list (nat * bool)) (e : hexpr T) : Prop :=
  match e with
  | HObj i => i < length ns
  | HTmp _ _ _ => True
  | HUn _ e1 | HScal _ e1 _ | HTrans e1 => mknown ns e1
  | HBin _ e1 e2 => mknown ns e1 /\ mknown ns e2
  end.
Definition mwith_sched (s : mstate) (l : list bool) : mstate := MSt (with_sched (heap s) l) (dims s).
(** the thread alone has the outcome of the operation, with its own allocation outcomes *)
Definition macts_as {A} (e : tenv) (s : mstate) (p : mprog T A) (m : N T A) : Prop :=
  match malone p e s with
  | MReturns a e' s' => m (mwith_sched s (tsched e)) = NOk a (mwith_sched s' (tsched e'))
  | MThrows x e' s' => m (mwith_sched s (tsched e)) = NThrow x (mwith_sched s' (tsched e'))
  | MUndefined u => m (mwith_sched s (tsched e)) = NUB u
  end.
(** an empty matrix is the only one without memory *)
Definition mtidy (s : mstate) (o : nat) : Prop :=
  forall v, nth_error (objs (heap s)) o = Some (Some v) -> oaddr v = None ->
    drows (m_dim s o) * dcols (m_dim s o) = 0.
End MConcSpec.
