(** Quaternions: cml/quaternion.  A quaternion is its storage of four elements;
    the order tag says which slot holds which part. *)
From Coq Require Import List Bool Arith.
From Verif Require Import Base.
Import ListNotations.

(** order_tags.h:12-33, cross_tags.h:10-18 *)
Inductive order : Type := real_first | imaginary_first.
Inductive crossing : Type := positive_cross | negative_cross.
Definition oW (o : order) : nat := match o with real_first => 0 | imaginary_first => 3 end.
Definition oX (o : order) : nat := match o with real_first => 1 | imaginary_first => 0 end.
Definition oY (o : order) : nat := match o with real_first => 2 | imaginary_first => 1 end.
Definition oZ (o : order) : nat := match o with real_first => 3 | imaginary_first => 2 end.

(** fixed_compiled.h: the member m_data[4] *)
Record quat (T : Type) : Type := Quat { q0 : T; q1 : T; q2 : T; q3 : T }.
Arguments Quat {T}. Arguments q0 {T}. Arguments q1 {T}. Arguments q2 {T}. Arguments q3 {T}.

Section Quat.
Context {T : Type} `{Op : Ops T}.

(** fixed_compiled.tpp i_get: m_data[i].  Indices are 0..3 in the code modelled
    here; others are not distinguished from 3. *)
Definition qget (q : quat T) (i : nat) : T :=
  match i with 0 => q0 q | 1 => q1 q | 2 => q2 q | _ => q3 q end.
(** fixed_compiled.tpp i_put *)
Definition qput (i : nat) (v : T) (q : quat T) : quat T :=
  match i with
  | 0 => Quat v (q1 q) (q2 q) (q3 q)
  | 1 => Quat (q0 q) v (q2 q) (q3 q)
  | 2 => Quat (q0 q) (q1 q) v (q3 q)
  | _ => Quat (q0 q) (q1 q) (q2 q) v
  end.
(** for(int i = 0; i < 4; ++i) *)
Definition for4 {S : Type} (f : nat -> S -> S) (s : S) : S := f 3 (f 2 (f 1 (f 0 s))).

(** readable_quaternion.tpp:95-102 length_squared (and norm, 111-116), over the
    elements [g 0 .. g 3] of any expression *)
Definition norm_of (g : nat -> T) : T :=
  add (add (add (mul (g 0) (g 0)) (mul (g 1) (g 1))) (mul (g 2) (g 2))) (mul (g 3) (g 3)).
(** readable_quaternion.tpp:104-109 *)
Definition length_of `{MathOps T} (g : nat -> T) : T := msqrt (norm_of g).
(** dot.tpp:14-28 *)
Definition q_dot (p q : quat T) : T :=
  add (add (add (mul (qget p 0) (qget q 0)) (mul (qget p 1) (qget q 1))) (mul (qget p 2) (qget q 2)))
      (mul (qget p 3) (qget q 3)).
(** imaginary_node.tpp:40-48 *)
Definition imag (o : order) (g : nat -> T) (i : nat) : T := g (oX o + i).

(** writable_quaternion.tpp:446-457: assign(vector, scalar); the vector is read
    from the current state of *this ([v] is a function of it) *)
Definition assign_parts (o : order) (n : nat) (v : quat T -> nat -> T) (s : T) (q : quat T) : out (quat T) :=
  _ <- require (Nat.eqb n 3) EVectorSize ;;
  let q := qput (oW o) s q in
  let q := qput (oX o) (v q 0) q in
  let q := qput (oY o) (v q 1) q in
  Ok (qput (oZ o) (v q 2) q).

(** product.tpp:16-53.  vector/dot.tpp:14-27 and vector/cross_node.tpp:56-67 on the
    imaginary parts; the result is a new quaternion, its parts assigned by
    assign(vector, scalar).  (The two arms of the ?: have the same type only if
    both operands do.) *)
Definition dot3 (a b : nat -> T) : T := add (add (mul (a 0) (b 0)) (mul (a 1) (b 1))) (mul (a 2) (b 2)).
Definition cross3 (a b : nat -> T) (i : nat) : T :=
  let j := Nat.modulo (i + 1) 3 in
  let k := Nat.modulo (i + 2) 3 in
  sub (mul (a j) (b k)) (mul (a k) (b j)).
Definition q_mul (o : order) (c : crossing) (g h : nat -> T) : quat T :=
  let W := oW o in
  let v1 := imag o g in
  let v2 := imag o h in
  let real := sub (mul (g W) (h W)) (dot3 v1 v2) in
  let cr := match c with positive_cross => cross3 v1 v2 | negative_cross => cross3 v2 v1 end in
  let im i := add (add (mul (v2 i) (g W)) (mul (v1 i) (h W))) (cr i) in
  let fresh := Quat zero zero zero zero in
  match assign_parts o 3 (fun _ => im) real fresh with Ok r => r | _ => fresh end.

(** Expressions over quaternions of one order and cross type.  [XSelf] is the
    quaternion being assigned to. *)
Inductive qop : Type := QAdd | QSub.
Inductive qsop : Type := QTimes | QOver.
Inductive qexpr : Type :=
| XSelf
| XQuat (q : quat T)
| XNeg (e : qexpr)                    (* unary_node *)
| XBin (op : qop) (a b : qexpr)       (* binary_node *)
| XScal (op : qsop) (e : qexpr) (s : T)  (* scalar_node, scalar copied *)
| XConj (e : qexpr)                   (* conjugate_node *)
| XInv (e : qexpr)                    (* inverse_node *)
| XNormalize (e : qexpr)              (* readable_quaternion::normalize() const *)
| XProd (a b : qexpr).                (* operator* : evaluated at once *)
(** The node built for an expression: what is left to be computed per element. *)
Inductive node : Type :=
| NSelf | NQuat (q : quat T) | NNeg (e : node) | NBin (op : qop) (a b : node)
| NScal (op : qsop) (e : node) (s : T) | NConj (e : node) | NInv (e : node) (inv_norm : T).

Definition ap (op : qop) : T -> T -> T := match op with QAdd => add | QSub => sub end.
Definition aps (op : qsop) : T -> T -> T := match op with QTimes => mul | QOver => div end.
(** unary_node.tpp, binary_node.tpp, scalar_node.tpp i_get; conjugate_node.tpp:36-42;
    inverse_node.tpp:37-45 *)
Fixpoint nget (o : order) (self : quat T) (e : node) (i : nat) : T :=
  match e with
  | NSelf => qget self i
  | NQuat q => qget q i
  | NNeg e => neg (nget o self e i)
  | NBin op a b => ap op (nget o self a i) (nget o self b i)
  | NScal op e s => aps op (nget o self e i) s
  | NConj e => if Nat.eqb i (oW o) then nget o self e i else neg (nget o self e i)
  | NInv e n => mul n (if Nat.eqb i (oW o) then nget o self e i else neg (nget o self e i))
  end.
(** Node constructors, run when the expression is evaluated: inverse_node.tpp:15-19
    takes 1/norm, normalize() takes the length (readable_quaternion.tpp:118-126),
    operator* multiplies. *)
Fixpoint build `{MathOps T} (o : order) (c : crossing) (self : quat T) (e : qexpr) : node :=
  match e with
  | XSelf => NSelf
  | XQuat q => NQuat q
  | XNeg e => NNeg (build o c self e)
  | XBin op a b => NBin op (build o c self a) (build o c self b)
  | XScal op e s => NScal op (build o c self e) s
  | XConj e => NConj (build o c self e)
  | XInv e => let n := build o c self e in NInv n (div one (norm_of (nget o self n)))
  | XNormalize e => let n := build o c self e in NScal QOver n (length_of (nget o self n))
  | XProd a b => NQuat (q_mul o c (nget o self (build o c self a)) (nget o self (build o c self b)))
  end.

(** writable_quaternion.tpp:433-443 assign, via operator= (264-270): W, X, Y, Z are
    the slots of the target's order *)
Definition assign_get (o : order) (g : quat T -> nat -> T) (q : quat T) : quat T :=
  let q := qput (oW o) (g q (oW o)) q in
  let q := qput (oX o) (g q (oX o)) q in
  let q := qput (oY o) (g q (oY o)) q in
  qput (oZ o) (g q (oZ o)) q.
Definition q_assign `{MathOps T} (o : order) (c : crossing) (e : qexpr) (q : quat T) : quat T :=
  let n := build o c q e in assign_get o (fun cur => nget o cur n) q.
(** writable_quaternion.tpp:327-335 (+=), 347-355 (-=) *)
Definition compound_get (op : qop) (g : quat T -> nat -> T) (q : quat T) : quat T :=
  for4 (fun i q => qput i (ap op (qget q i) (g q i)) q) q.
Definition q_compound `{MathOps T} (o : order) (c : crossing) (op : qop) (e : qexpr) (q : quat T) : quat T :=
  let n := build o c q e in compound_get op (fun cur => nget o cur n) q.
(** writable_quaternion.tpp:367-373  q *= e *)
Definition q_mul_eq `{MathOps T} (o : order) (c : crossing) (e : qexpr) (q : quat T) : quat T :=
  let r := q_mul o c (qget q) (nget o q (build o c q e)) in assign_get o (fun _ => qget r) q.
(** writable_quaternion.tpp:387-394, 410-417: q *= s, q /= s, the scalar passed by
    reference: a value, or element k of q itself *)
Inductive sref : Type := RVal (v : T) | ROwn (k : nat).
Definition sval (r : sref) (q : quat T) : T := match r with RVal v => v | ROwn k => qget q k end.
Definition q_scale (op : qsop) (r : sref) (q : quat T) : quat T :=
  for4 (fun i q => qput i (aps op (qget q i) (sval r q)) q) q.
(** writable_quaternion.tpp:84-89 normalize() *)
Definition q_normalize `{MathOps T} (q : quat T) : quat T := q_scale QOver (RVal (length_of (qget q))) q.
(** writable_quaternion.tpp:99-105, 115-123 *)
Definition q_zero (q : quat T) : quat T := for4 (fun i q => qput i zero q) q.
Definition q_identity (o : order) (q : quat T) : quat T :=
  qput (oZ o) zero (qput (oY o) zero (qput (oX o) zero (qput (oW o) one q))).
(** writable_quaternion.tpp:134-142 *)
Definition q_conjugate (o : order) (q : quat T) : quat T :=
  let q := qput (oW o) (qget q (oW o)) q in
  let q := qput (oX o) (neg (qget q (oX o))) q in
  let q := qput (oY o) (neg (qget q (oY o))) q in
  qput (oZ o) (neg (qget q (oZ o))) q.
(** writable_quaternion.tpp:153-166 *)
Definition q_inverse (o : order) (q : quat T) : quat T :=
  let n := norm_of (qget q) in
  let q := qput (oW o) (div (qget q (oW o)) n) q in
  let q := qput (oX o) (div (neg (qget q (oX o))) n) q in
  let q := qput (oY o) (div (neg (qget q (oY o))) n) q in
  qput (oZ o) (div (neg (qget q (oZ o))) n) q.
(** writable_quaternion.tpp:228-262 set; 445-457 assign(vector, scalar); n is the
    size of the vector *)
Definition q_set (o : order) (s : T) (v : list T) (q : quat T) : out (quat T) :=
  assign_parts o (length v) (fun _ i => nth i v zero) s q.
(** writable_quaternion.tpp:501-513: assign from an initializer list *)
Definition q_set_list (o : order) (l : list T) (q : quat T) : out (quat T) :=
  _ <- require (Nat.eqb (length l) 4) EQuaternionSize ;;
  let a i := nth i l zero in
  Ok (qput (oZ o) (a (oZ o)) (qput (oY o) (a (oY o)) (qput (oX o) (a (oX o)) (qput (oW o) (a (oW o)) q)))).
(** writable_quaternion.tpp:176-195 log() *)
Definition q_log `{MathOps T} (o : order) (q : quat T) : out (quat T) :=
  let lq := length_of (qget q) in
  let v cur := imag o (qget cur) in
  let lv := msqrt (dot3 (v q) (v q)) in
  let c := div (macos (div (qget q (oW o)) lq)) lv in
  assign_parts o 3 (fun cur i => mul (v cur i) c) (mlog lq) q.
(** writable_quaternion.tpp:205-224 exp() *)
Definition q_exp `{MathOps T} (o : order) (q : quat T) : out (quat T) :=
  let v cur := imag o (qget cur) in
  let lv := msqrt (dot3 (v q) (v q)) in
  let x := mexp (qget q (oW o)) in
  let c := div (msin lv) lv in
  assign_parts o 3 (fun cur i => mul (v cur i) (mul x c)) (mul x (mcos lv)) q.

(** comparison.tpp:13-31, 33-51 *)
Fixpoint scan (n i : nat) (p q : quat T) : option bool :=
  match n with
  | 0 => None
  | S n' => if ltb (qget p i) (qget q i) then Some true
            else if ltb (qget q i) (qget p i) then Some false else scan n' (S i) p q
  end.
Definition q_lt (p q : quat T) : bool := match scan 4 0 p q with Some b => b | None => false end.
Fixpoint scan_gt (n i : nat) (p q : quat T) : bool :=
  match n with
  | 0 => false
  | S n' => if ltb (qget q i) (qget p i) then true
            else if ltb (qget p i) (qget q i) then false else scan_gt n' (S i) p q
  end.
Definition q_gt (p q : quat T) : bool := scan_gt 4 0 p q.
(** comparison.tpp:53-66 *)
Definition q_eq (p q : quat T) : bool :=
  eqb (qget p 0) (qget q 0) && eqb (qget p 1) (qget q 1) && eqb (qget p 2) (qget q 2) && eqb (qget p 3) (qget q 3).
(** comparison.tpp:68-92 *)
Definition q_le (p q : quat T) : bool := negb (q_gt p q).
Definition q_ge (p q : quat T) : bool := negb (q_lt p q).
Definition q_ne (p q : quat T) : bool := negb (q_eq p q).
End Quat.
