(** Mixed element types: expressions whose operands have different element types, and
    assignments to a vector of yet another element type.

    The arithmetic types are the integer types of IntModel.v, float and double.  [None]
    stands for undefined behaviour.  long double is not modelled. *)
From Coq Require Import ZArith Bool List.
From Flocq Require Import Core IEEE754.BinarySingleNaN.
From Verif Require Import Base VecModel IntModel FloatModel.
Import ListNotations.
Open Scope Z_scope.

Inductive sty : Type := TInt (t : ity) | TFloat | TDouble.
(** a value with its type *)
Inductive num : Type := NI (t : ity) (z : Z) | NF (x : single) | ND (x : double).
Definition type_of (a : num) : sty := match a with NI t _ => TInt t | NF _ => TFloat | ND _ => TDouble end.
Definition ity_eqb (a b : ity) : bool := (bits a =? bits b) && Bool.eqb (signed a) (signed b).
Definition sty_eqb (a b : sty) : bool :=
  match a, b with TInt s, TInt t => ity_eqb s t | TFloat, TFloat | TDouble, TDouble => true | _, _ => false end.

(** The usual arithmetic conversions of C++ on the operands of a built-in operator
    (the expression [a _op_ b] of cml/scalar/binary_ops.h:18).  The rank of an integer
    type is its number of bits: long and long long, where both have 64, are one type. *)
Definition int_common (s t : ity) : ity :=
  let s := promoted s in let t := promoted t in
  if Bool.eqb (signed s) (signed t) then (if bits s <? bits t then t else s)
  else let u := if signed s then t else s in
       let i := if signed s then s else t in
       if bits u <? bits i then i else u.
Definition arith_type (a b : sty) : sty :=
  match a, b with
  | TDouble, _ | _, TDouble => TDouble
  | TFloat, _ | _, TFloat => TFloat
  | TInt s, TInt t => TInt (int_common s t)
  end.
(** cml/scalar/promotion.h:12-20: std::common_type, of two equal types the type itself *)
Definition common (a b : sty) : sty := if sty_eqb a b then a else arith_type a b.
(** cml/scalar/unary_ops.h:14-20: [decltype(-value_type())] *)
Definition unary_type (a : sty) : sty := match a with TInt t => TInt (promoted t) | _ => a end.

Section Conv.
Context (p e p' e' : Z) {P : Prec_gt_0 p} {E : Prec_lt_emax p e} {P' : Prec_gt_0 p'} {E' : Prec_lt_emax p' e'}.
(** conversion between floating point types: to nearest, ties to even.  A double beyond the range
    of float becomes an infinity (IEEE 754; the C++ standard leaves it undefined). *)
Definition Bconv (x : binary_float p e) : binary_float p' e' :=
  match x with
  | B754_zero s => B754_zero s
  | B754_infinity s => B754_infinity s
  | B754_nan => B754_nan
  | B754_finite s m k _ => binary_normalize p' e' P' E' mode_NE (cond_Zopp s (Zpos m)) k s
  end.
(** conversion of an integer: to nearest, ties to even *)
Definition Bof_int (z : Z) : binary_float p e := binary_normalize p e P E mode_NE z 0 false.
(** conversion to an integer type: the fraction is dropped; undefined when the result is
    out of range *)
Definition Bto_int (t : ity) (x : binary_float p e) : option Z :=
  match x with
  | B754_infinity _ | B754_nan => None
  | _ => if in_range t (Btrunc x) then Some (Btrunc x) else None
  end.
End Conv.
Definition widen : single -> double := Bconv 24 128 53 1024.
Definition narrow : double -> single := Bconv 53 1024 24 128.

(** the functional casts [result_type(...)], [value_type(v)] *)
Definition cast (t : sty) (a : num) : option num :=
  match t, a with
  | TInt t, NI _ z => Some (NI t (convert t z))
  | TInt t, NF x => match Bto_int 24 128 t x with Some z => Some (NI t z) | None => None end
  | TInt t, ND x => match Bto_int 53 1024 t x with Some z => Some (NI t z) | None => None end
  | TFloat, NI _ z => Some (NF (Bof_int 24 128 z))
  | TFloat, NF x => Some (NF x)
  | TFloat, ND x => Some (NF (narrow x))
  | TDouble, NI _ z => Some (ND (Bof_int 53 1024 z))
  | TDouble, NF x => Some (ND (widen x))
  | TDouble, ND x => Some (ND x)
  end.

Inductive bop : Type := OAdd | OSub | OMul | ODiv.
Definition zop (o : bop) : Z -> Z -> Z := match o with OAdd => Z.add | OSub => Z.sub | OMul => Z.mul | ODiv => Z.quot end.
Definition fop {T : Type} {Op : Ops T} (o : bop) : T -> T -> T := match o with OAdd => add | OSub => sub | OMul => mul | ODiv => div end.
(** a built-in operator on two operands of its type: signed overflow and integer division by
    zero are undefined *)
Definition same_type_op (o : bop) (a b : num) : option num :=
  match a, b with
  | NI t x, NI _ y =>
      match o, y with
      | ODiv, 0 => None
      | _, _ => match compute t (zop o x y) with Some z => Some (NI t z) | None => None end
      end
  | NF x, NF y => Some (NF (fop o x y))
  | ND x, ND y => Some (ND (fop o x y))
  | _, _ => None
  end.
Definition bindo {A B : Type} (x : option A) (f : A -> option B) : option B := match x with Some a => f a | None => None end.
(** [a _op_ b] with its conversions *)
Definition builtin (o : bop) (a b : num) : option num :=
  let t := arith_type (type_of a) (type_of b) in
  bindo (cast t a) (fun x => bindo (cast t b) (fun y => same_type_op o x y)).
(** cml/scalar/binary_ops.h:13-21 apply *)
Definition apply2 (o : bop) (a b : num) : option num :=
  bindo (builtin o a b) (cast (common (type_of a) (type_of b))).
(** cml/scalar/unary_ops.h:14-20 apply *)
Definition negate (a : num) : option num :=
  match a with
  | NI t z => match compute (promoted t) (- z) with Some y => Some (NI (promoted t) y) | None => None end
  | NF x => Some (NF (neg x))
  | ND x => Some (ND (neg x))
  end.

(** vector expressions over vectors and scalars of any element types: vector/binary_node.h
    (a + b, a - b), scalar_node.h (v * s, s * v, v / s), unary_node.h (- v).  The operands have equal
    sizes (C01 covers the size checks). *)
Inductive mexpr : Type :=
| MVec (v : list num)
| MPair (o : bop) (a b : mexpr)
| MScalar (o : bop) (a : mexpr) (s : num)
| MNeg (a : mexpr).
Fixpoint msize (x : mexpr) : nat :=
  match x with MVec v => length v | MPair _ a _ => msize a | MScalar _ a _ => msize a | MNeg a => msize a end.
(** i_get: vector/binary_node.tpp, scalar_node.tpp:51-57, unary_node.tpp *)
Fixpoint mget (x : mexpr) (i : nat) : option num :=
  match x with
  | MVec v => nth_error v i
  | MPair o a b => bindo (mget a i) (fun p => bindo (mget b i) (fun q => apply2 o p q))
  | MScalar o a s => bindo (mget a i) (fun p => apply2 o p s)
  | MNeg a => bindo (mget a i) negate
  end.
(** the elements in turn; undefined as soon as one is *)
Fixpoint collect (l : list (option num)) : option (list num) :=
  match l with [] => Some [] | x :: l => bindo x (fun a => bindo (collect l) (fun r => Some (a :: r))) end.
(** vector/writable_vector.tpp:393-402 assign, with i_put: [m_data[i] = value_type(v)]
    (vector/fixed_compiled.tpp, dynamic_allocated.tpp:279-283); t is the element type of the target *)
Definition massign (t : sty) (x : mexpr) : option (list num) :=
  collect (map (fun i => bindo (mget x i) (cast t)) (seq 0 (msize x))).
(** vector/writable_vector.tpp:310-318, 330-338 operator+=, operator-= *)
Definition mcompound (o : bop) (t : sty) (v : list num) (x : mexpr) : option (list num) :=
  collect (map (fun i => bindo (nth_error v i) (fun a => bindo (mget x i) (fun b => bindo (apply2 o a b) (cast t)))) (seq 0 (length v))).
(** vector/writable_vector.tpp:350-378 operator*=, operator/= *)
Definition mscale (o : bop) (t : sty) (v : list num) (s : num) : option (list num) :=
  collect (map (fun i => bindo (nth_error v i) (fun a => bindo (apply2 o a s) (cast t))) (seq 0 (length v))).
(** vector/dot.tpp:17-29; ta and tb are the element types of the operands.  [accum += x]: the sum is computed
    by the built-in operator and converted back *)
Definition mdot (ta tb : sty) (a b : mexpr) : option num :=
  let r := common ta tb in
  let term i := bindo (mget a i) (fun p => bindo (mget b i) (fun q => bindo (builtin OMul p q) (cast r))) in
  fold_left (fun acc i => bindo acc (fun s => bindo (term i) (fun x => bindo (builtin OAdd s x) (cast r))))
    (seq 1 (msize a - 1)) (term 0%nat).

(** scalar/traits.h:41-56, default_integral_traits: through double and back *)
Definition int_sqrt (t : ity) (z : Z) : option Z := Bto_int 53 1024 t (Bsqrt mode_NE (Bof_int 53 1024 z)).
Definition int_fabs (t : ity) (z : Z) : option Z := Bto_int 53 1024 t (Babs (Bof_int 53 1024 z)).
(** vector/readable_vector.tpp:57-70 length() of an integer vector *)
Definition int_length (t : ity) (v : list Z) : out (option Z) :=
  match vlength_squared (Op := int_ops t) (map Some v) with
  | Ok (Some z) => Ok (int_sqrt t z)
  | Ok None => Ok None
  | Throw e => Throw e
  | UB => UB
  end.
