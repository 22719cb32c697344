(** Life cycle of external vectors: cml/vector/{dynamic_external,fixed_external}.tpp,
    cml/vector/{dynamic_const_external,fixed_const_external}.tpp (the same without writing).
    An external vector is a pointer and a size; it never allocates or frees.
    Memory and objects are those of HeapModel.v. *)
From Coq Require Import List ZArith Bool Arith.
From Verif Require Import Base HeapModel.
Import ListNotations.

Section External.
Context {T : Type}.
Notation M := (M T).

(** dynamic_external.tpp:15-19 vector(); 22-34 vector(pointer, int), vector(int, pointer);
    dynamic_const_external.tpp:15-35.
    The fields are set before the check, but a constructor that throws leaves no object. *)
Definition ext_default : M nat := new_obj (VObj KExternal None 0).
Definition ext_new (p : option (nat * nat)) (n : Z) : M nat :=
  bindM (requireM (Z.leb 0 n) EInvalidArgument) (fun _ => new_obj (VObj KExternal p (Z.to_nat n))).
(** dynamic_external.tpp:37-41; fixed_external.tpp:25-29 *)
Definition ext_copy_ctor (o : nat) : M nat :=
  bindM (get_obj o) (fun v => new_obj (VObj KExternal (oaddr v) (olen v))).
(** dynamic_external.tpp:43-49; dynamic_const_external.tpp:37-43 *)
Definition ext_move_ctor (o : nat) : M nat :=
  bindM (get_obj o) (fun v =>
  bindM (new_obj (VObj KExternal (oaddr v) (olen v))) (fun o' =>
  bindM (set_obj o (Some (VObj (okind v) None 0))) (fun _ => ret o'))).
(** fixed_external.tpp:31-35; fixed_const_external.tpp:23-28: only the pointer is reset, the size is a constant of the type *)
Definition ext_fixed_move_ctor (o : nat) : M nat :=
  bindM (get_obj o) (fun v =>
  bindM (new_obj (VObj KExternal (oaddr v) (olen v))) (fun o' =>
  bindM (set_obj o (Some (VObj (okind v) None (olen v)))) (fun _ => ret o'))).
(** dynamic_external.tpp:82-88; dynamic_const_external.tpp:68-74 *)
Definition ext_reset (o : nat) : M unit :=
  bindM (get_obj o) (fun v => set_obj o (Some (VObj (okind v) None 0))).
(** fixed_external.tpp:74-80: move assignment of fixed-size external vectors (both have
    the size of the type) *)
Definition ext_fixed_move_assign (o1 o2 : nat) : M unit :=
  bindM (get_obj o1) (fun v1 => bindM (get_obj o2) (fun v2 =>
  bindM (set_obj o1 (Some (VObj (okind v1) (oaddr v2) (olen v1)))) (fun _ =>
  bindM (get_obj o2) (fun v2 => set_obj o2 (Some (VObj (okind v2) None (olen v2))))))).
End External.
