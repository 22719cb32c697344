(** An lu_pivot_result object used as a workspace: constructed from a matrix, given
    new matrices through its public member lu, decomposed in place, and solved with:
    cml/matrix/lu.h:18-58, lu.tpp:25-32 and 91-140.

    Elements and functions as in LUModel.v.  Accesses outside an array are UB: the
    order array, the elements of lu and of b are all read unchecked.  The members
    order and sign are public too; writing them directly is not modelled. *)
From Coq Require Import List Bool Arith.
From Verif Require Import Base RotModel LUModel.
Import ListNotations.
Open Scope nat_scope.

Section Workspace.
Context {T : Type} {Op : Ops T}.
Context (fabs : T -> T) (eps : T).

(** lu.h:26-40, 43-57.  [ws_dyn]: the matrix type is of run-time size.  [ws_sign] is
    None until a decomposition has set it: the constructors leave it uninitialised. *)
Record workspace : Type :=
  WS { ws_dyn : bool; ws_lu : mx T; ws_order : list nat; ws_sign : option sign }.
(** lu.h:36-39, 53-56: order() and order(M.rows()) are both zero-initialised *)
Definition ws_make (dyn : bool) (m : mx T) : workspace := WS dyn m (repeat 0 (mrows m)) None.

(** ws.lu = A: dynamic_allocated.tpp:236-242, detail/check_or_resize.h:12-27; a matrix of
    run-time size takes the size of A, any other throws when A has another size.  The
    assigned matrix keeps its own basis. *)
Definition ws_put (w : workspace) (A : mx T) : out workspace :=
  require (ws_dyn w || (Nat.eqb (mrows (ws_lu w)) (mrows A) && Nat.eqb (mcols (ws_lu w)) (mcols A)))
    EIncompatibleMatrixSize ;;;
  Ok (WS (ws_dyn w) (Mx (mrows A) (mcols A) (mbasis (ws_lu w)) (mel A)) (ws_order w) (ws_sign w)).

(** lu.tpp:25-32: order[i] is written for every i < rows() (detail/lu.tpp:46) and
    never resized; its entries from rows() on stay as they are *)
Definition ws_decompose (w : workspace) : out workspace :=
  let m := ws_lu w in
  require (Nat.eqb (mrows m) (mcols m)) ENonSquareMatrix ;;;
  if Nat.ltb (length (ws_order w)) (mrows m) then UB else
  let '(A, order, s) := lu_pivot_inplace fabs eps (mrows m) (mel m) in
  Ok (WS (ws_dyn w) (Mx (mrows m) (mcols m) (mbasis m) A)
     (map order (seq 0 (mrows m)) ++ skipn (mrows m) (ws_order w)) (Some s)).

(** lu.tpp:102-140, lu_solve(ws, x, b): the vector x after the call.  UB: a sign never
    set, a row of lu, an entry of order or an element of b that does not exist *)
Definition ws_solve (w : workspace) (x b : list T) : out (list T) :=
  require (Nat.eqb (mcols (ws_lu w)) (length x)) EIncompatibleMatrixInnerSize ;;;
  require (Nat.eqb (mcols (ws_lu w)) (length b)) EIncompatibleMatrixInnerSize ;;;
  match ws_sign w with
  | None => UB
  | Some s =>
    require (match s with sgn_zero => false | _ => true end) EInvalidArgument ;;;
    let N := length b in
    if Nat.ltb (mrows (ws_lu w)) N || Nat.ltb (length (ws_order w)) N
       || negb (forallb (fun k => Nat.ltb k N) (firstn N (ws_order w))) then UB else
    let LU := mel (ws_lu w) in
    let y := forward N LU (fun i => el b (nth i (ws_order w) 0)) in
    Ok (map (backward N LU y (el x)) (seq 0 N))
  end.

(** A caller's history: exceptions are caught and the object used again.  A refused
    call leaves the object as it was: the size checks come before any write. *)
Inductive ws_call : Type := Put (A : mx T) | Decompose | Solve (x b : list T).
Inductive ws_answer : Type := Done | Refused (e : exn) | Solution (r : list T).
Definition ws_step (w : workspace) (c : ws_call) : option (workspace * ws_answer) :=
  match c with
  | Put A => match ws_put w A with Ok w' => Some (w', Done) | Throw e => Some (w, Refused e) | UB => None end
  | Decompose => match ws_decompose w with Ok w' => Some (w', Done) | Throw e => Some (w, Refused e) | UB => None end
  | Solve x b => match ws_solve w x b with Ok r => Some (w, Solution r) | Throw e => Some (w, Refused e) | UB => None end
  end.
Fixpoint ws_run (w : workspace) (cs : list ws_call) : option (workspace * list ws_answer) :=
  match cs with
  | [] => Some (w, [])
  | c :: cs => match ws_step w c with
    | None => None
    | Some (w', a) => match ws_run w' cs with None => None | Some (w'', l) => Some (w'', a :: l) end
    end
  end.
End Workspace.
