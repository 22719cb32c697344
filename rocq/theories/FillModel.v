(** Random fills and random scalars, and compile-time lookup in lists of types:
    vector/writable_vector.tpp:192-212, matrix/writable_matrix.tpp:186-208,
    scalar/functions.h:123-162, common/mpl/type_map.h, common/mpl/type_table.h. *)
From Coq Require Import List ZArith Bool Arith.
From Verif Require Import Base MatModel PromoteModel.
Import ListNotations.
Open Scope nat_scope.

(** ** Random values.
    std::rand(), the seeding of std::default_random_engine and the distributions belong to the
    C++ library.  They are parameters: [world] is the state behind std::rand(), [engine] that of an
    engine object. *)
Record generator (world engine : Type) : Type := Generator {
  std_rand : world -> Z * world;
  seeded : Z -> engine }.
Arguments std_rand {world engine}.
Arguments seeded {world engine}.
(** a distribution object is built from (low, high), which have to satisfy [valid] (for the
    standard ones low <= high, undefined otherwise); [draw] is one call d(gen) *)
Record uniform (engine T : Type) : Type := Uniform {
  valid : T -> T -> bool;
  draw : T -> T -> engine -> T * engine }.
Arguments valid {engine T}.
Arguments draw {engine T}.

Section Fill.
Context {world engine T : Type} (src : generator world engine) (dist : uniform engine T).

(** An argument by const reference: a value, or element i of the vector itself.  The cell [None] is
    indeterminate. *)
Inductive vref : Type := VVal (x : T) | VElem (i : nat).
Definition vread (v : list (option T)) (r : vref) : out T :=
  match r with
  | VVal x => Ok x
  | VElem i => match nth_error v i with Some (Some x) => Ok x | _ => UB end
  end.
Definition vwrite (v : list (option T)) (i : nat) (x : T) : out (list (option T)) :=
  match list_put v i (Some x) with Some v => Ok v | None => UB end.
(** distribution_type d(low, high) *)
Definition make_distribution (low high : T) : out (engine -> T * engine) :=
  if valid dist low high then Ok (draw dist low high) else UB.
(** vector/writable_vector.tpp:192-204 random *)
Definition vector_random (v : list (option T)) (low high : vref) (w : world) : out (list (option T) * world) :=
  let (s, w) := std_rand src w in
  let gen := seeded src s in
  low <- vread v low ;;
  high <- vread v high ;;
  d <- make_distribution low high ;;
  '(v, _) <- loop 0 (length v) (fun i '(v, gen) => let (x, gen) := d gen in v <- vwrite v i x ;; Ok (v, gen)) (v, gen) ;;
  Ok (v, w).
(** matrix/writable_matrix.tpp:186-200 random, with detail/generate.h:16-36 on a function with a
    state; [device] is the number given by std::random_device *)
Definition matrix_random (m : fmat T) (low high : mref T) (device : Z) : out (fmat T) :=
  let gen := seeded src device in
  low <- mread m low ;;
  high <- mread m high ;;
  d <- make_distribution low high ;;
  let step i j '(m, gen) := let (x, gen) := d gen in m <- wr m i j x ;; Ok (m, gen) in
  '(m, _) <- match fl m with
             | row_major => loop 0 (fr m) (fun i => loop 0 (fc m) (fun j => step i j)) (m, gen)
             | col_major => loop 0 (fc m) (fun j => loop 0 (fr m) (fun i => step i j)) (m, gen)
             end ;;
  Ok m.
(** scalar/functions.h:123-131 random_integer, 147-155 random_real *)
Definition random_scalar (low high : T) (w : world) : out (T * world) :=
  let (s, w) := std_rand src w in
  d <- make_distribution low high ;;
  Ok (fst (d (seeded src s)), w).
End Fill.
Arguments vref : clear implicits.

(** scalar/functions.h:133-138 *)
Definition random_binary {world engine} (src : generator world engine) (ints : uniform engine Z) (w : world) : out (Z * world) :=
  random_scalar src ints 0%Z 1%Z w.
(** scalar/functions.h:140-145 *)
Definition random_polar {world engine} (src : generator world engine) (ints : uniform engine Z) (w : world) : out (Z * world) :=
  '(b, w) <- random_binary src ints w ;;
  Ok (if Z.eqb b 0 then (-1)%Z else 1%Z, w).
(** scalar/functions.h:157-162 *)
Definition random_unit_real {world engine T} {Op : Ops T} (src : generator world engine) (reals : uniform engine T) (w : world) : out (T * world) :=
  random_scalar src reals zero one w.

(** ** Lookup in lists of types.  [same] is std::is_same.  The result is the type found ([Some]), or
    result_type<void,false> ([None]). *)
Section Lookup.
Context {A : Type} (same : A -> A -> bool).
(** common/mpl/type_map.h:92-106 _find with 61-65 map_first, 50-54 match *)
Fixpoint find_first (entries : list (A * A)) (t : A) : option A :=
  match entries with
  | [] => None
  | (first, second) :: rest => if same t first then Some second else find_first rest t
  end.
(** with 67-71 map_second *)
Fixpoint find_second (entries : list (A * A)) (t : A) : option A :=
  match entries with
  | [] => None
  | (first, second) :: rest => if same t second then Some first else find_second rest t
  end.
(** common/mpl/type_table.h:52-59 match, 79-93 _find *)
Definition pair_match (a b first second : A) : bool :=
  (same a first && same b second) || (same a second && same b first).
Fixpoint table_find {B : Type} (entries : list (A * A * B)) (a b : A) : option B :=
  match entries with
  | [] => None
  | (first, second, type) :: rest => if pair_match a b first second then Some type else table_find rest a b
  end.
(** common/mpl/is_same_pair.h:13-29 *)
Definition is_same_pair (t1 t2 u1 u2 : A) : bool :=
  if same u1 u2 then same t1 u1 && same t2 u1
  else (same t1 u1 && same t2 u2) || (same t1 u2 && same t2 u1).
(** common/mpl/are_same.h:13-29 (and are_convertible.h with its own test) *)
Fixpoint are_same (to : A) (from : A) (froms : list A) : bool :=
  match froms with
  | [] => same from to
  | f :: fs => same from to && are_same to f fs
  end.
End Lookup.

Definition selector_eqb (a b : selector) : bool :=
  match a, b with compiled, compiled | allocated, allocated | external, external | any_storage, any_storage => true | _, _ => false end.
(** storage/promotion.h:28-70: the table as it is written *)
Definition selector_table (is_fixed : bool) : list (selector * selector * selector) :=
  [(compiled, compiled, compiled);
   (compiled, allocated, if is_fixed then compiled else allocated);
   (compiled, external, if is_fixed then compiled else external);
   (compiled, any_storage, compiled);
   (allocated, allocated, allocated);
   (allocated, external, allocated);
   (allocated, any_storage, allocated);
   (external, external, external);
   (external, any_storage, external);
   (any_storage, any_storage, any_storage)].
(** storage/promotion.h:72-89: the lookup with its two static assertions ([None]: compile-time error) *)
Definition table_promote (s1 s2 : storage) (prefer_dynamic : bool) : option selector :=
  let is_fixed := negb prefer_dynamic || (is_fixed_size s1 && is_fixed_size s2) in
  match table_find selector_eqb (selector_table is_fixed) (sel s1) (sel s2) with
  | Some s => if selector_eqb s (sel s1) || selector_eqb s (sel s2) then Some s else None
  | None => None
  end.
