(** Field-of-view conversions, stream output and generator functions:
    cml/util.h, cml/util/{vector,matrix,quaternion}_print.tpp,
    cml/mathlib/vector/generators.h, cml/mathlib/matrix/generators.h. *)
From Coq Require Import List Bool Arith ZArith Ascii String.
From Verif Require Import Base MiscModel QuatModel RotModel XfModel.
Import ListNotations.
Open Scope nat_scope.

(** scalar/traits.h:79-82, 141: atan is used by util.h only *)
Class AtanOps (T : Type) : Type := { matan : T -> T }.

Section Fov.
Context {T : Type} {Op : Ops T} {MO : MathOps T} {AO : AtanOps T}.
Local Infix "*!" := mul (at level 40, left associativity).
Local Infix "/!" := div (at level 40, left associativity).
(** util.h:11-18 *)
Definition xfov_to_yfov (xfov aspect : T) : T := two *! matan (mtan (xfov /! two) /! aspect).
(** util.h:20-27 *)
Definition yfov_to_xfov (yfov aspect : T) : T := two *! matan (mtan (yfov /! two) *! aspect).
(** util.h:29-35 *)
Definition xzoom_to_yzoom (xzoom aspect : T) : T := xzoom *! aspect.
(** util.h:37-43 *)
Definition yzoom_to_xzoom (yzoom aspect : T) : T := yzoom /! aspect.
(** util.h:45-51 *)
Definition zoom_to_fov (zoom : T) : T := two *! matan (one /! zoom).
(** util.h:53-59 *)
Definition fov_to_zoom (fov : T) : T := one /! mtan (fov /! two).
End Fov.

(** Output streams.  A stream is the text written so far; [show] is what
    [os << x] appends for an element.  The stream's error state, field width and
    flushing (std::endl) are not modelled. *)
Definition text := list ascii.
Definition lit (s : string) : text := list_ascii_of_string s.
Definition newline : ascii := ascii_of_nat 10.

Section Print.
Context {T : Type} (show : T -> text).
(** v[i] of a vector of [length v] elements: reading any other index is undefined *)
Definition v_at (v : list T) (i : nat) : out T :=
  match nth_error v i with Some x => Ok x | None => UB end.
(** util/vector_print.tpp:14-21 *)
Definition print_vector (os : text) (v : list T) : out text :=
  x <- v_at v 0 ;;
  loop 1 (List.length v) (fun i os => x <- v_at v i ;; Ok (os ++ lit " " ++ show x)) (os ++ show x).
(** util/matrix_print.tpp:14-25 *)
Definition print_matrix (os : text) (m : mx T) : out text :=
  loop 0 (mrows m) (fun i os =>
    let os := os ++ lit "[" in
    os <- loop 0 (mcols m) (fun j os => Ok (os ++ lit " " ++ show (mel m i j))) os ;;
    let os := os ++ lit " ]" in
    Ok (if Nat.eqb i (mrows m - 1) then os else os ++ [newline])) os.
(** util/quaternion_print.tpp:15-24 *)
Definition print_quaternion (os : text) (o : order) (q : quat T) : text :=
  os ++ lit "[ " ++ lit " " ++ show (qget q (oW o)) ++ lit " " ++ show (qget q (oX o)) ++ lit " " ++
  show (qget q (oY o)) ++ lit " " ++ show (qget q (oZ o)) ++ lit " ]".
End Print.

Section Generators.
Context {T : Type} {Op : Ops T}.
(** vector/writable_vector.tpp:119-125 zero, on the elements a vector had before *)
Definition v_zero (v : list T) : out (list T) :=
  loop 0 (List.length v) (fun i s => match list_put s i zero with Some s => Ok s | None => UB end) v.
(** vector/writable_vector.tpp:135-140 cardinal: zero().put(i, 1); [i] outside 0..size-1
    writes outside the array *)
Definition v_cardinal (v : list T) (i : Z) : out (list T) :=
  v <- v_zero v ;;
  if Z.ltb i 0 then UB else match list_put v (Z.to_nat i) one with Some s => Ok s | None => UB end.
(** mathlib/vector/generators.h:18-45: [garbage] is the indeterminate content of the N
    elements of the default-constructed vector *)
Definition zero_nD (garbage : list T) : out (list T) := v_zero garbage.
(** mathlib/vector/generators.h:52-108 *)
Definition axis_nD (garbage : list T) (i : Z) : out (list T) := v_cardinal garbage i.
(** mathlib/matrix/generators.h:18-45 *)
Definition zero_mx (garbage : mx T) : mx T := mx_zero garbage.
(** mathlib/matrix/generators.h:52-80 *)
Definition identity_mx (garbage : mx T) : mx T := mx_identity garbage.
End Generators.
