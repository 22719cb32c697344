(** Matrices: linear storage, element access, expression nodes, assignment,
    products, accessors.

    Two views.  [mat] is the storage as it is: dimensions, layout and a linear
    array of cells (Section Storage).  [fmat] is the same with the cells addressed
    by (row, column); all algorithms are modelled over [fmat], which MatProofs.v
    shows to be indistinguishable from [mat] for every program of get, put and
    resize.  A cell [None] is indeterminate.  Matrix objects own their storage
    here (windows into shared memory: HeapModel.v), so an expression can interfere
    with its target only by mentioning it ([XSelf]). *)
From Coq Require Import List ZArith Bool Arith.
From Verif Require Import Base.
Import ListNotations.

(** storage kinds: fixed_compiled/fixed_external; dynamic_allocated;
    dynamic_external (resize() may change the shape, not the element count). *)
Inductive mkind : Type := MFixed | MDynamic | MExternal.

(** s_access: dynamic_allocated.h:275-287, dynamic_external.h:225-237,
    fixed_external.h:201-213; fixed_compiled.h:218-230 indexes a 2-D array whose
    extents are (Rows, Cols) or (Cols, Rows) by layout (234-237), the same linear
    position. *)
Definition index (l : layout) (rows cols i j : nat) : nat :=
  match l with row_major => i * cols + j | col_major => j * rows + i end.
(** The element stored at linear position k (inverse of [index]). *)
Definition unindex (l : layout) (rows cols k : nat) : nat * nat :=
  match l with row_major => (k / cols, k mod cols) | col_major => (k mod rows, k / rows) end.

Section Storage.
Context {T : Type}.

Record mat : Type := Mat {
  mr : nat; mc : nat; mb : basis; ml : layout; mk : mkind; md : list (option T) }.

(** i_get(i,j) (dynamic_allocated.tpp:297-311 and likewise); indexing outside the
    dimensions is undefined. *)
Definition mget (m : mat) (i j : nat) : out T :=
  if (i <? mr m) && (j <? mc m) then
    match nth_error (md m) (index (ml m) (mr m) (mc m) i j) with
    | Some (Some x) => Ok x
    | _ => UB
    end
  else UB.
(** i_put(i,j,v) (dynamic_allocated.tpp:313-331) *)
Definition mput (m : mat) (i j : nat) (x : T) : out mat :=
  if (i <? mr m) && (j <? mc m) then
    match list_put (md m) (index (ml m) (mr m) (mc m) i j) (Some x) with
    | Some d => Ok (Mat (mr m) (mc m) (mb m) (ml m) (mk m) d)
    | None => UB
    end
  else UB.
(** resize(rows, cols): dynamic_allocated.tpp:146-193 keeps the linear prefix;
    dynamic_external.tpp:84-94 requires the same number of elements; fixed-size
    matrices have none ([check_or_resize] checks instead). Element types are
    trivially destructible; allocation does not fail here (HeapModel.v). *)
Definition mresize (m : mat) (rows cols : Z) : out mat :=
  match mk m with
  | MFixed => UB
  | MDynamic =>
      require (Z.leb 0 rows) EInvalidArgument ;;;
      require (Z.leb 0 cols) EInvalidArgument ;;;
      let r := Z.to_nat rows in let c := Z.to_nat cols in
      Ok (Mat r c (mb m) (ml m) (mk m)
            (firstn (r * c) (md m) ++ repeat None (r * c - length (md m))))
  | MExternal =>
      require (Z.leb 0 rows) EInvalidArgument ;;;
      require (Z.leb 0 cols) EInvalidArgument ;;;
      let r := Z.to_nat rows in let c := Z.to_nat cols in
      require (Nat.eqb (mr m * mc m) (r * c)) EMatrixSize ;;;
      Ok (Mat r c (mb m) (ml m) (mk m) (md m))
  end.

End Storage.
Arguments mat : clear implicits.

Section Matrix.
Context {T : Type}.

Record fmat : Type := FM {
  fr : nat; fc : nat; fb : basis; fl : layout; fk : mkind; fe : nat -> nat -> option T }.

Definition rd (m : fmat) (i j : nat) : out T :=
  if (i <? fr m) && (j <? fc m) then
    match fe m i j with Some x => Ok x | None => UB end
  else UB.
Definition upd (f : nat -> nat -> option T) (i j : nat) (x : T) : nat -> nat -> option T :=
  fun i' j' => if Nat.eqb i' i && Nat.eqb j' j then Some x else f i' j'.
Definition wr (m : fmat) (i j : nat) (x : T) : out fmat :=
  if (i <? fr m) && (j <? fc m) then
    Ok (FM (fr m) (fc m) (fb m) (fl m) (fk m) (upd (fe m) i j x))
  else UB.
(** A default-constructed temporary brought to size r x c. *)
Definition fresh (r c : nat) (b : basis) (l : layout) (k : mkind) : fmat :=
  FM r c b l k (fun _ _ => None).

(** resize as seen through (row, column): the element at linear position k stays
    at linear position k. *)
Definition reshape (m : fmat) (r c : nat) : fmat :=
  FM r c (fb m) (fl m) (fk m) (fun i j =>
    let k := index (fl m) r c i j in
    if k <? fr m * fc m then
      let '(i', j') := unindex (fl m) (fr m) (fc m) k in fe m i' j'
    else None).
Definition resize (m : fmat) (rows cols : Z) : out fmat :=
  match fk m with
  | MFixed => UB
  | MDynamic =>
      require (Z.leb 0 rows) EInvalidArgument ;;;
      require (Z.leb 0 cols) EInvalidArgument ;;;
      Ok (reshape m (Z.to_nat rows) (Z.to_nat cols))
  | MExternal =>
      require (Z.leb 0 rows) EInvalidArgument ;;;
      require (Z.leb 0 cols) EInvalidArgument ;;;
      require (Nat.eqb (fr m * fc m) (Z.to_nat rows * Z.to_nat cols)) EMatrixSize ;;;
      Ok (reshape m (Z.to_nat rows) (Z.to_nat cols))
  end.

(** detail/check_or_resize.h:12-27; size_checking.tpp:157-168 *)
Definition check_or_resize (m : fmat) (r c : nat) : out fmat :=
  match fk m with
  | MFixed =>
      require (Nat.eqb (fr m) r && Nat.eqb (fc m) c) EIncompatibleMatrixSize ;;; Ok m
  | _ => resize m (Z.of_nat r) (Z.of_nat c)
  end.

(** ** Loops over the elements: detail/generate.h:16-36, detail/copy.h, detail/apply.h.
    The order follows the layout of the target. *)
Definition each (m : fmat) (f : nat -> nat -> fmat -> out fmat) : out fmat :=
  match fl m with
  | row_major => loop 0 (fr m) (fun i => loop 0 (fc m) (fun j => f i j)) m
  | col_major => loop 0 (fc m) (fun j => loop 0 (fr m) (fun i => f i j)) m
  end.
(** detail/generate.h *)
Definition generate (m : fmat) (f : nat -> nat -> T) : out fmat :=
  each m (fun i j s => wr s i j (f i j)).

(** ** Expression nodes.  [XSelf] is the matrix being assigned to, kept by
    reference; other operands are not changed by the assignment.  Scalars are kept
    by value. *)
Inductive mexpr : Type :=
| XSelf
| XMat (m : fmat)
| XUn (f : T -> T) (e : mexpr)                 (* matrix_unary_node *)
| XBin (f : T -> T -> T) (e1 e2 : mexpr)       (* matrix_binary_node *)
| XScal (f : T -> T -> T) (e : mexpr) (k : T)  (* matrix_scalar_node *)
| XTrans (e : mexpr)                           (* matrix_transpose_node *)
| XOuter (f : T -> T -> T) (u v : list T).     (* outer_product_node *)

(** i_rows, i_cols: binary_node.tpp:43-55, scalar_node.tpp:35-47,
    transpose_node.tpp:32-44, outer_product_node.tpp:34-46 *)
Fixpoint x_rows (s : fmat) (e : mexpr) : nat :=
  match e with
  | XSelf => fr s | XMat m => fr m
  | XUn _ e1 | XBin _ e1 _ | XScal _ e1 _ => x_rows s e1
  | XTrans e1 => x_cols s e1
  | XOuter _ u _ => length u
  end
with x_cols (s : fmat) (e : mexpr) : nat :=
  match e with
  | XSelf => fc s | XMat m => fc m
  | XUn _ e1 | XBin _ e1 _ | XScal _ e1 _ => x_cols s e1
  | XTrans e1 => x_rows s e1
  | XOuter _ _ v => length v
  end.

Definition vget (l : list T) (i : nat) : out T :=
  match nth_error l i with Some x => Ok x | None => UB end.

(** i_get: binary_node.tpp:57-62, scalar_node.tpp:49-55, transpose_node.tpp:46-51,
    outer_product_node.tpp:48-53 *)
Fixpoint x_get (s : fmat) (e : mexpr) (i j : nat) : out T :=
  match e with
  | XSelf => rd s i j
  | XMat m => rd m i j
  | XUn f e1 => x <- x_get s e1 i j ;; Ok (f x)
  | XBin f e1 e2 => x <- x_get s e1 i j ;; y <- x_get s e2 i j ;; Ok (f x y)
  | XScal f e1 k => x <- x_get s e1 i j ;; Ok (f x k)
  | XTrans e1 => x_get s e1 j i
  | XOuter f u v => x <- vget u i ;; y <- vget v j ;; Ok (f x y)
  end.

(** Node constructors: matrix binary_node.tpp:15-24 check_same_size. *)
Fixpoint x_build (s : fmat) (e : mexpr) : out unit :=
  match e with
  | XSelf | XMat _ | XOuter _ _ _ => Ok tt
  | XUn _ e1 | XScal _ e1 _ | XTrans e1 => x_build s e1
  | XBin _ e1 e2 =>
      x_build s e1 ;;; x_build s e2 ;;;
      require (Nat.eqb (x_rows s e1) (x_rows s e2) && Nat.eqb (x_cols s e1) (x_cols s e2))
        EIncompatibleMatrixSize
  end.

(** writable_matrix.tpp:415-423  assign(readable_matrix) *)
Definition m_assign (m : fmat) (e : mexpr) : out fmat :=
  x_build m e ;;;
  m1 <- check_or_resize m (x_rows m e) (x_cols m e) ;;
  each m1 (fun i j s => x <- x_get s e i j ;; wr s i j x).

(** writable_matrix.tpp:329-337, 348-356  operator+=, operator-= *)
Definition m_compound (op : T -> T -> T) (m : fmat) (e : mexpr) : out fmat :=
  x_build m e ;;;
  m1 <- check_or_resize m (x_rows m e) (x_cols m e) ;;
  each m1 (fun i j s => x <- rd s i j ;; y <- x_get s e i j ;; wr s i j (op x y)).

(** A scalar argument by const reference: a value, or element (i,j) of the matrix
    itself. *)
Inductive mref : Type := RVal (x : T) | RElem (i j : nat).
Definition mread (s : fmat) (r : mref) : out T :=
  match r with RVal x => Ok x | RElem i j => rd s i j end.

(** writable_matrix.tpp:368-377, 390-399  operator*=, operator/= (detail/apply.h) *)
Definition m_scale (op : T -> T -> T) (m : fmat) (r : mref) : out fmat :=
  each m (fun i j s => x <- rd s i j ;; k <- mread s r ;; wr s i j (op x k)).

(** writable_matrix.tpp:210-217  fill(v): v is read again for every element *)
Definition m_fill (m : fmat) (r : mref) : out fmat :=
  each m (fun i j s => k <- mread s r ;; wr s i j k).

(** writable_matrix.tpp:112-120, 131-139  set_row, set_col *)
Definition set_row (m : fmat) (i : nat) (v : list T) : out fmat :=
  require (Nat.eqb (fc m) (length v)) EIncompatibleMatrixColSize ;;;
  loop 0 (fc m) (fun j s => x <- vget v j ;; wr s i j x) m.
Definition set_col (m : fmat) (j : nat) (v : list T) : out fmat :=
  require (Nat.eqb (fr m) (length v)) EIncompatibleMatrixRowSize ;;;
  loop 0 (fr m) (fun i s => x <- vget v i ;; wr s i j x) m.

(** Row, column and basis-vector nodes, read in full: row_node.tpp:13-50,
    col_node.tpp:13-50, basis_node.tpp:13-50 (negative index: invalid_argument;
    no upper bound check). *)
Definition row_of (m : fmat) (i : Z) : out (list T) :=
  require (Z.leb 0 i) EInvalidArgument ;;;
  mapO (fun j => rd m (Z.to_nat i) j) (seq 0 (fc m)).
Definition col_of (m : fmat) (j : Z) : out (list T) :=
  require (Z.leb 0 j) EInvalidArgument ;;;
  mapO (fun i => rd m i (Z.to_nat j)) (seq 0 (fr m)).
(** readable_matrix.tpp:58-141  basis_element, basis_size; writable_matrix.tpp:
    487-501  set_basis_element *)
Definition basis_element (m : fmat) (i j : nat) : out T :=
  match fb m with row_basis => rd m i j | col_basis => rd m j i end.
Definition set_basis_element (m : fmat) (i j : nat) (x : T) : out fmat :=
  match fb m with row_basis => wr m i j x | col_basis => wr m j i x end.
Definition basis_count (m : fmat) : nat := match fb m with row_basis => fr m | col_basis => fc m end.
Definition basis_size (m : fmat) : nat := match fb m with row_basis => fc m | col_basis => fr m end.
Definition basis_of (m : fmat) (i : Z) : out (list T) :=
  require (Z.leb 0 i) EInvalidArgument ;;;
  mapO (fun j => basis_element m (Z.to_nat i) j) (seq 0 (basis_size m)).

(** writable_matrix.tpp:425-436, 458-470 (array, initializer list:
    check_same_linear_size), 473-485 (element list: check_linear_size),
    both in row-major order of the arguments *)
Definition assign_list (ex : exn) (m : fmat) (l : list T) : out fmat :=
  require (Nat.eqb (fr m * fc m) (length l)) ex ;;;
  loop 0 (length l) (fun k s => x <- vget l k ;; wr s (k / fc m) (k mod fc m) x) m.
(** writable_matrix.tpp:448-456  assign(pointer) *)
Definition assign_pointer (m : fmat) (l : list T) : out fmat :=
  loop 0 (fr m * fc m) (fun k s => x <- vget l k ;; wr s (k / fc m) (k mod fc m) x) m.

(** detail/transpose.h:14-24: in place, fixed size; rows == cols is a
    static_assert. *)
Definition transpose_fixed (m : fmat) : out fmat :=
  if Nat.eqb (fr m) (fc m) then
    loop 1 (fr m) (fun i => loop 0 i (fun j s =>
      a <- rd s i j ;; b <- rd s j i ;; s' <- wr s i j b ;; wr s' j i a)) m
  else UB.
(** detail/transpose.h:26-33: via a temporary copy *)
Definition transpose_dynamic (m : fmat) : out fmat :=
  t <- m_assign (fresh 0 0 (fb m) (fl m) MDynamic) (XMat m) ;;
  m_assign m (XTrans (XMat t)).
(** writable_matrix.tpp:244-251 *)
Definition m_transpose (m : fmat) : out fmat :=
  match fk m with MFixed => transpose_fixed m | _ => transpose_dynamic m end.

(** ** Products.  Operands are any readable matrices. *)
Record rmat : Type := RM { rr : nat; rc : nat; rg : nat -> nat -> out T }.
Definition of_fmat (m : fmat) : rmat := RM (fr m) (fc m) (rd m).
Definition of_mexpr (s : fmat) (e : mexpr) : rmat := RM (x_rows s e) (x_cols s e) (x_get s e).

Context {O : Ops T}.

(** the accumulation  m = a(0)*b(0); for k in 1..n-1: m += a(k)*b(k) *)
Definition inner (n : nat) (a b : nat -> out T) : out T :=
  x0 <- a 0 ;; y0 <- b 0 ;;
  loop 1 n (fun k s => x <- a k ;; y <- b k ;; Ok (add s (mul x y))) (mul x0 y0).

(** matrix_product.tpp:13-36 *)
Definition product (a b : rmat) (bs : basis) (l : layout) (k : mkind) : out fmat :=
  require (Nat.eqb (rc a) (rr b)) EIncompatibleMatrixInnerSize ;;;
  loop 0 (rr a) (fun i => loop 0 (rc b) (fun j s =>
    m <- inner (rc a) (fun k => rg a i k) (fun k => rg b k j) ;; wr s i j m))
    (fresh (rr a) (rc b) bs l k).
(** vector_product.tpp:14-35 *)
Definition mat_vec (a : rmat) (v : list T) : out (list T) :=
  require (Nat.eqb (rc a) (length v)) EIncompatibleMatrixInnerSize ;;;
  mapO (fun i => inner (length v) (fun k => rg a i k) (vget v)) (seq 0 (rr a)).
(** vector_product.tpp:37-58 *)
Definition vec_mat (v : list T) (b : rmat) : out (list T) :=
  require (Nat.eqb (length v) (rr b)) EIncompatibleMatrixInnerSize ;;;
  mapO (fun j => inner (length v) (vget v) (fun k => rg b k j)) (seq 0 (rc b)).

(** readable_matrix.tpp:87-95 *)
Definition trace (a : rmat) : out T :=
  require (Nat.eqb (rr a) (rc a)) ENonSquareMatrix ;;;
  x <- rg a 0 0 ;;
  loop 1 (rr a) (fun i s => y <- rg a i i ;; Ok (add s y)) x.

(** writable_matrix.tpp:151-158, 169-176  zero(), identity() *)
Definition m_zero (m : fmat) : out fmat := generate m (fun _ _ => zero).
Definition m_identity (m : fmat) : out fmat :=
  generate m (fun i j => if Nat.eqb i j then one else zero).

(** matrix/comparison.tpp:13-29: early exit in row order.  [None] of the state =
    still equal. *)
Fixpoint forall_upto (n i : nat) (p : nat -> out bool) : out bool :=
  match n with
  | 0 => Ok true
  | S n' => b <- p i ;; if b then forall_upto n' (S i) p else Ok false
  end.
Definition m_eq (a b : rmat) : out bool :=
  if Nat.eqb (rr a) (rr b) && Nat.eqb (rc a) (rc b) then
    forall_upto (rr a) 0 (fun i => forall_upto (rc a) 0 (fun j =>
      x <- rg a i j ;; y <- rg b i j ;;
      Ok (if ltb x y then false else if ltb y x then false else true)))
  else Ok false.

End Matrix.
Arguments fmat : clear implicits.
Arguments mexpr : clear implicits.
Arguments mref : clear implicits.
Arguments rmat : clear implicits.
