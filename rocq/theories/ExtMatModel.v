(** Life cycle of external matrices: cml/matrix/{dynamic_external,fixed_external}.{h,tpp}.
    An external matrix is a pointer with rows and columns; it never allocates or frees.
    Memory, objects, element access and expressions are those of MHeapModel.v: the
    element access of external matrices (dynamic_external.h:224-238, fixed_external.h:200-214)
    is the same as that of allocated ones. *)
From Coq Require Import List ZArith Bool Arith.
From Verif Require Import Base HeapModel MatModel MHeapModel.
Import ListNotations.

Section ExternalMatrix.
Context {T : Type}.
Notation N := (N T).

(** a new object with the given members *)
Definition xm_object (l : layout) (p : option (nat * nat)) (r c : nat) : N nat := fun s =>
  NOk (length (objs (heap s)))
      (MSt (St (blocks (heap s)) (objs (heap s) ++ [Some (VObj KExternal p (r * c))]) (sched (heap s)))
           (dims s ++ [Dim r c l])).
(** dynamic_external.tpp:13-19 matrix(); 21-39 matrix(pointer, int, int), matrix(int, int, pointer):
    a constructor that throws leaves no object *)
Definition xm_default (l : layout) : N nat := xm_object l None 0 0.
Definition xm_new (l : layout) (p : option (nat * nat)) (rows cols : Z) : N nat :=
  bindN (requireN (Z.leb 0 rows) EInvalidArgument) (fun _ =>
  bindN (requireN (Z.leb 0 cols) EInvalidArgument) (fun _ =>
  xm_object l p (Z.to_nat rows) (Z.to_nat cols))).
(** dynamic_external.tpp:41-47 matrix(Other (&array)[N1][N2]) *)
Definition xm_array (l : layout) (p : nat * nat) (n1 n2 : nat) : N nat :=
  match l with
  | row_major => xm_object l (Some p) n1 n2
  | col_major => xm_object l (Some p) n2 n1
  end.
(** dynamic_external.tpp:112-123 operator=(matrix&&), member by member *)
Definition xm_move_assign (o1 o2 : nat) : N unit :=
  bindN (lift (get_obj o2)) (fun v2 =>
  bindN (lift (get_obj o1)) (fun v1 =>
  bindN (lift (set_obj o1 (Some (VObj (okind v1) (oaddr v2) (olen v2))))) (fun _ =>
  bindN (get_dim o2) (fun d2 =>
  bindN (set_dim o1 (drows d2) (dcols d2)) (fun _ =>
  bindN (lift (get_obj o2)) (fun w2 =>
  bindN (lift (set_obj o2 (Some (VObj (okind w2) None 0)))) (fun _ =>
  set_dim o2 0 0))))))).
(** dynamic_external.tpp:49-53: the members are not initialised before the assignment *)
Definition xm_move_ctor (l : layout) (o : nat) : N nat :=
  bindN (xm_object l None 0 0) (fun o' => bindN (xm_move_assign o' o) (fun _ => retN o')).
(** dynamic_external.tpp:85-94 with size_checking.tpp:130-139 *)
Definition xm_resize (o : nat) (rows cols : Z) : N unit :=
  bindN (requireN (Z.leb 0 rows) EInvalidArgument) (fun _ =>
  bindN (requireN (Z.leb 0 cols) EInvalidArgument) (fun _ =>
  bindN (get_dim o) (fun d =>
  bindN (requireN (Nat.eqb (drows d * dcols d) (Z.to_nat rows * Z.to_nat cols)) EMatrixSize) (fun _ =>
  set_dim o (Z.to_nat rows) (Z.to_nat cols))))).
(** dynamic_external.tpp:96-102 *)
Definition xm_reset (o : nat) : N unit :=
  bindN (lift (get_obj o)) (fun v =>
  bindN (set_dim o 0 0) (fun _ => lift (set_obj o (Some (VObj (okind v) None 0))))).

(** fixed_external.tpp:13-27: matrix(), matrix(pointer), matrix(array&); the size is that of the type *)
Definition xf_new (l : layout) (p : option (nat * nat)) (r c : nat) : N nat := xm_object l p r c.
(** fixed_external.tpp:73-80 operator=(matrix&&) *)
Definition xf_move_assign (o1 o2 : nat) : N unit :=
  bindN (lift (get_obj o2)) (fun v2 =>
  bindN (lift (get_obj o1)) (fun v1 =>
  bindN (lift (set_obj o1 (Some (VObj (okind v1) (oaddr v2) (olen v1))))) (fun _ =>
  bindN (lift (get_obj o2)) (fun w2 =>
  lift (set_obj o2 (Some (VObj (okind w2) None (olen w2)))))))).
(** fixed_external.tpp:29-33 *)
Definition xf_move_ctor (l : layout) (r c o : nat) : N nat :=
  bindN (xm_object l None r c) (fun o' => bindN (xf_move_assign o' o) (fun _ => retN o')).

(** Assignment of expressions: writable_matrix.tpp:415-423 (operator=(const matrix&) is the
    same, dynamic_external.tpp:104-110, fixed_external.tpp:65-71).  detail/check_or_resize.h:20-27
    reshapes a dynamic external matrix; 12-18 compares the sizes of a fixed one. *)
Definition x_copy (o : nat) (e : hexpr T) : N unit :=
  h_each o (fun i j => bindN (h_read e i j) (fun x => h_put o i j x)).
Definition xm_assign (o : nat) (e : hexpr T) : N unit :=
  bindN (h_build e) (fun _ => bindN (h_dims e) (fun p =>
  bindN (xm_resize o (Z.of_nat (fst p)) (Z.of_nat (snd p))) (fun _ => x_copy o e))).
Definition xf_assign (o : nat) (e : hexpr T) : N unit :=
  bindN (h_build e) (fun _ => bindN (h_dims e) (fun p => bindN (get_dim o) (fun d =>
  bindN (requireN (Nat.eqb (drows d) (fst p) && Nat.eqb (dcols d) (snd p)) EIncompatibleMatrixSize) (fun _ => x_copy o e)))).
(** writable_matrix.tpp:329-337, 348-356  operator+=, operator-= *)
Definition xm_compound (op : T -> T -> T) (o : nat) (e : hexpr T) : N unit :=
  bindN (h_build e) (fun _ => bindN (h_dims e) (fun p =>
  bindN (xm_resize o (Z.of_nat (fst p)) (Z.of_nat (snd p))) (fun _ =>
  h_each o (fun i j => bindN (h_get o i j) (fun x => bindN (h_read e i j) (fun y => h_put o i j (op x y))))))).
(** writable_matrix.tpp:368-377, 390-399  operator*=, operator/= by a scalar that is not an
    element of a matrix *)
Definition xm_scale (op : T -> T -> T) (o : nat) (k : T) : N unit :=
  h_each o (fun i j => bindN (h_get o i j) (fun x => h_put o i j (op x k))).
End ExternalMatrix.
