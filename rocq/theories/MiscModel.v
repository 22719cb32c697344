(** Comparison of vectors, hashing, axis and Euler orders. *)
From Coq Require Import List ZArith Bool.
From Verif Require Import Base.
Import ListNotations.

(** ** vector/comparison.tpp.  Vectors are given by their elements. *)
Section Compare.
Context {T : Type} `{Ops T}.

(** the loop of operator< and operator> (16-22, 32-38): [Some b] = left[i] < right[i]
    decided (true) or right[i] < left[i] (false) at the first index below both
    sizes where one of them holds; [None] = fell through. *)
Fixpoint first_diff (l r : list T) : option bool :=
  match l, r with
  | x :: l', y :: r' =>
      if ltb x y then Some true else if ltb y x then Some false else first_diff l' r'
  | _, _ => None
  end.
(** vector/comparison.tpp:13-27 *)
Definition v_lt (l r : list T) : bool :=
  match first_diff l r with Some b => b | None => Nat.ltb (length l) (length r) end.
(** vector/comparison.tpp:29-43 *)
Definition v_gt (l r : list T) : bool :=
  match first_diff l r with Some b => negb b | None => Nat.ltb (length r) (length l) end.
(** vector/comparison.tpp:45-59 *)
Definition v_eq (l r : list T) : bool :=
  if Nat.eqb (length l) (length r) then
    match first_diff l r with Some _ => false | None => true end
  else false.
(** vector/comparison.tpp:61-83 *)
Definition v_le (l r : list T) : bool := negb (v_gt l r).
Definition v_ge (l r : list T) : bool := negb (v_lt l r).
Definition v_ne (l r : list T) : bool := negb (v_eq l r).
End Compare.

(** ** common/hash.h, util/vector_hash.h.  Machine words are integers in [0, 2^w);
    unsigned arithmetic is reduced modulo 2^w. *)
Open Scope Z_scope.
(** hash.h:18  _HASH_ROTL32 *)
Definition rotl32 (x r : Z) : Z := Z.lor (Z.shiftl x r mod 2 ^ 32) (Z.shiftr x (32 - r)).
(** hash.h:21-34 *)
Definition combine32 (h1 k1 : Z) : Z :=
  let c1 := 0xcc9e2d51 in
  let c2 := 0x1b873593 in
  let k1 := (k1 * c1) mod 2 ^ 32 in
  let k1 := rotl32 k1 15 in
  let k1 := (k1 * c2) mod 2 ^ 32 in
  let h1 := Z.lxor h1 k1 in
  let h1 := rotl32 h1 13 in
  (h1 * 5 + 0xe6546b64) mod 2 ^ 32.
(** hash.h:38-55 *)
Definition combine64 (h k : Z) : Z :=
  let m := 0xc6a4a7935bd1e995 in
  let k := (k * m) mod 2 ^ 64 in
  let k := Z.lxor k (Z.shiftr k 47) in
  let k := (k * m) mod 2 ^ 64 in
  let h := Z.lxor h k in
  let h := (h * m) mod 2 ^ 64 in
  (h + 0xe6546b64) mod 2 ^ 64.
(** util/vector_hash.h:18-25, from the element hashes *)
Definition vector_hash (combine : Z -> Z -> Z) (hs : list Z) : Z := fold_left combine hs 0.

(** ** mathlib/euler_order.h, axis_order.h.  An enumerator is its integer value. *)
(** euler_order.h:10-24 *)
Inductive euler_order : Type :=
| eo_xyz | eo_xyx | eo_xzy | eo_xzx | eo_yzx | eo_yzy
| eo_yxz | eo_yxy | eo_zxy | eo_zxz | eo_zyx | eo_zyz.
Definition eo_value (o : euler_order) : Z :=
  match o with
  | eo_xyz => 0 | eo_xyx => 1 | eo_xzy => 2 | eo_xzx => 3 | eo_yzx => 4 | eo_yzy => 5
  | eo_yxz => 6 | eo_yxy => 7 | eo_zxy => 8 | eo_zxz => 9 | eo_zyx => 10 | eo_zyz => 11
  end.
(** euler_order.h:33-50 *)
Record euler_axes : Type := EA { ea_i : Z; ea_j : Z; ea_k : Z; ea_odd : bool; ea_repeat : bool }.
Definition unpack_euler (order : Z) : euler_axes :=
  let repeat := negb (Z.eqb (Z.land order 1) 0) in
  let odd := Z.eqb (Z.land order 2) 2 in
  let offset := if odd then 1 else 0 in
  let i := Z.rem (Z.land order 12) 3 in
  EA i (Z.rem (i + 1 + offset) 3) (Z.rem (i + 2 - offset) 3) odd repeat.
(** axis_order.h:12-20 *)
Inductive axis_order : Type := ao_xyz | ao_xzy | ao_yzx | ao_yxz | ao_zxy | ao_zyx.
Definition ao_value (o : axis_order) : Z :=
  match o with
  | ao_xyz => eo_value eo_xyz | ao_xzy => eo_value eo_xzy | ao_yzx => eo_value eo_yzx
  | ao_yxz => eo_value eo_yxz | ao_zxy => eo_value eo_zxy | ao_zyx => eo_value eo_zyx
  end.
(** axis_order.h:33-47: (i, j, k, odd) *)
Definition unpack_axis (order : Z) : Z * Z * Z * bool :=
  let odd := Z.eqb (Z.land order 2) 2 in
  let offset := if odd then 1 else 0 in
  let i := Z.rem (Z.land order 12) 3 in
  (i, Z.rem (i + 1 + offset) 3, Z.rem (i + 2 - offset) 3, odd).
(** axis_order.h:49-62: (i, j, odd) *)
Definition unpack_axis2D (order : Z) : Z * Z * bool :=
  let odd := Z.eqb (Z.land order 2) 2 in
  let offset := if odd then 1 else 0 in
  let i := Z.rem (Z.land order 12) 3 in
  (i, Z.rem (i + 1 + offset) 3, odd).
(** axis_order.h:64-68 *)
Definition pack_axis (i : Z) (odd : bool) : Z :=
  Z.lor (Z.shiftl i 2) (Z.shiftl (if odd then 1 else 0) 1).
(** axis_order.h:70-77 *)
Definition swap_axis (order : Z) : Z :=
  let '(i, j, k, odd) := unpack_axis order in pack_axis j (negb odd).
