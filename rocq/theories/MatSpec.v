(** Specification vocabulary for matrices. *)
From Coq Require Import List ZArith Bool Arith.
From Verif Require Import Base MatModel.
Import ListNotations.

Section MatSpec.
Context {T : Type}.

(** The matrix has dimensions r x c and element F i j at row i, column j. *)
Definition is_mat (m : fmat T) (r c : nat) (F : nat -> nat -> T) : Prop :=
  fr m = r /\ fc m = c /\ forall i j, i < r -> j < c -> fe m i j = Some (F i j).

(** Same basis orientation, layout and storage kind. *)
Definition same_type (m m' : fmat T) : Prop :=
  fb m' = fb m /\ fl m' = fl m /\ fk m' = fk m.

(** Dimensions of an expression from those of the target (r, c); [None] when an
    operation gets operands of different size. *)
Fixpoint x_shape (rc : nat * nat) (e : mexpr T) : option (nat * nat) :=
  match e with
  | XSelf => Some rc
  | XMat m => Some (fr m, fc m)
  | XUn _ e1 | XScal _ e1 _ => x_shape rc e1
  | XBin _ e1 e2 =>
      match x_shape rc e1, x_shape rc e2 with
      | Some (r1, c1), Some (r2, c2) =>
          if Nat.eqb r1 r2 && Nat.eqb c1 c2 then Some (r1, c1) else None
      | _, _ => None
      end
  | XTrans e1 => match x_shape rc e1 with Some (r, c) => Some (c, r) | None => None end
  | XOuter _ u v => Some (length u, length v)
  end.

(** Element (i, j) of the mathematical value, given the elements of the target. *)
Fixpoint x_val (self : nat -> nat -> option T) (e : mexpr T) (i j : nat) : option T :=
  match e with
  | XSelf => self i j
  | XMat m => fe m i j
  | XUn f e1 => option_map f (x_val self e1 i j)
  | XScal f e1 k => option_map (fun x => f x k) (x_val self e1 i j)
  | XBin f e1 e2 => match x_val self e1 i j, x_val self e2 i j with
                    | Some x, Some y => Some (f x y)
                    | _, _ => None
                    end
  | XTrans e1 => x_val self e1 j i
  | XOuter f u v => match nth_error u i, nth_error v j with
                    | Some x, Some y => Some (f x y)
                    | _, _ => None
                    end
  end.

(** The target occurs only in positions reached through an even number of
    transpositions ([t] = an odd number passed so far). *)
Fixpoint self_straight (t : bool) (e : mexpr T) : Prop :=
  match e with
  | XSelf => t = false
  | XMat _ | XOuter _ _ _ => True
  | XUn _ e1 | XScal _ e1 _ => self_straight t e1
  | XBin _ e1 e2 => self_straight t e1 /\ self_straight t e2
  | XTrans e1 => self_straight (negb t) e1
  end.
Fixpoint self_free (e : mexpr T) : Prop :=
  match e with
  | XSelf => False
  | XMat _ | XOuter _ _ _ => True
  | XUn _ e1 | XScal _ e1 _ | XTrans e1 => self_free e1
  | XBin _ e1 e2 => self_free e1 /\ self_free e2
  end.

(** The matrix can take the size r x c: it has it, or its storage can change. *)
Definition can_take (m : fmat T) (r c : nat) : Prop :=
  match fk m with
  | MFixed => fr m = r /\ fc m = c
  | MDynamic => True
  | MExternal => fr m * fc m = r * c
  end.

(** (i', j') is stored before (i, j) / not after (i, j) in memory order. *)
Definition beforeb (l : layout) (i' j' i j : nat) : bool :=
  match l with
  | row_major => (i' <? i) || ((i' =? i) && (j' <? j))
  | col_major => (j' <? j) || ((j' =? j) && (i' <? i))
  end.

(** f 0 + f 1 + ... + f (n-1) *)
Fixpoint sum_n `{Ops T} (n : nat) (f : nat -> T) : T :=
  match n with 0 => zero | S n' => add (sum_n n' f) (f n') end.

(** The readable matrix has dimensions r x c and elements F. *)
Definition reads (a : rmat T) (r c : nat) (F : nat -> nat -> T) : Prop :=
  rr a = r /\ rc a = c /\ forall i j, i < r -> j < c -> rg a i j = Ok (F i j).

(** A client of a matrix: any sequence of reads, writes and size queries, each
    depending on what was read before. *)
Inductive client (A : Type) : Type :=
| CRet (a : A)
| CGet (i j : nat) (k : T -> client A)
| CPut (i j : nat) (x : T) (k : client A)
| CSize (k : nat -> nat -> client A).
End MatSpec.
Arguments CRet {T A} a.
Arguments CGet {T A} i j k.
Arguments CPut {T A} i j x k.
Arguments CSize {T A} k.

Section Clients.
Context {T A : Type}.
Fixpoint run_client (p : client (T:=T) A) (m : mat T) : out (A * mat T) :=
  match p with
  | CRet a => Ok (a, m)
  | CGet i j k => x <- mget m i j ;; run_client (k x) m
  | CPut i j x k => m' <- mput m i j x ;; run_client k m'
  | CSize k => run_client (k (mr m) (mc m)) m
  end.
(** Two matrices with the same elements at the same rows and columns. *)
Definition same_elements (m1 m2 : mat T) : Prop :=
  mr m1 = mr m2 /\ mc m1 = mc m2 /\ forall i j, mget m1 i j = mget m2 i j.
(** The storage has one cell per element. *)
Definition full (m : mat T) : Prop := length (md m) = mr m * mc m.
End Clients.
