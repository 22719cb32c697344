(** Compile-time selection of the type of a temporary: common/promotion.h,
    storage/promotion.h and selectors, vector/promotion.h, matrix/promotion.h.
    Allocators are not modelled; value types: MixedModel.v. *)
From Coq Require Import ZArith Bool.
Open Scope Z_scope.

(** common/size_tags.h, basis_tags.h, layout_tags.h *)
Inductive size_tag : Type := any_size | fixed_size | dynamic_size.
Inductive three : Type := t_row | t_col | t_any.   (* row/col/any basis or layout tag *)
Definition size_tag_eqb (a b : size_tag) : bool :=
  match a, b with any_size, any_size | fixed_size, fixed_size | dynamic_size, dynamic_size => true | _, _ => false end.
(** common/promotion.h:22-42 *)
Definition size_check_promote (a b : size_tag) : size_tag :=
  if size_tag_eqb a any_size || size_tag_eqb b any_size then any_size
  else if size_tag_eqb a fixed_size && size_tag_eqb b fixed_size then fixed_size
  else dynamic_size.
(** common/promotion.h:54-82 *)
Definition size_tag_promote (a b : size_tag) : size_tag :=
  let is_fixed := size_tag_eqb a fixed_size || size_tag_eqb b fixed_size in
  let is_dynamic := negb is_fixed && (size_tag_eqb a dynamic_size || size_tag_eqb b dynamic_size) in
  if is_fixed then fixed_size else if is_dynamic then dynamic_size else any_size.
(** common/promotion.h:107-128 basis_tag_promote, 155-176 layout_tag_promote;
    common/mpl/is_same_pair.h *)
Definition tag_promote (a b : three) : three :=
  match a, b with
  | t_row, t_row | t_row, t_any | t_any, t_row => t_row
  | t_col, t_col | t_col, t_any | t_any, t_col => t_col
  | _, _ => t_any
  end.

(** storage selectors with their dimensions (-1: run-time).  A vector storage uses
    the first dimension only. *)
Inductive selector : Type := compiled | allocated | external | any_storage.
Record storage : Type := Stg { sel : selector; d1 : Z; d2 : Z }.
(** size_tag of a bound vector / matrix selector: compiled_selector.h:44-89,
    allocated_selector.h:66-159, external_selector.h:48-131, any_selector.h:45-95 *)
Definition size_tag_of (s : storage) : size_tag :=
  match sel s with
  | compiled => fixed_size
  | any_storage => any_size
  | _ => if (d1 s =? -1) && (d2 s =? -1) then dynamic_size else fixed_size
  end.
Definition is_fixed_size (s : storage) : bool := size_tag_eqb (size_tag_of s) fixed_size.
Definition is_dynamic_size (s : storage) : bool := size_tag_eqb (size_tag_of s) dynamic_size.
(** resize<N>, reshape<R,C> of a selector *)
Definition with_size (s : selector) (r c : Z) : storage :=
  match s with any_storage => Stg any_storage (-1) (-1) | _ => Stg s r c end.
(** proxy_type of the bound selectors (same lines) *)
Definition proxy (s : storage) : storage :=
  match sel s with
  | compiled => s
  | any_storage => s
  | allocated => if (d1 s =? -1) && (d2 s =? -1) then s else Stg compiled (d1 s) (d2 s)
  | external => if (d1 s =? -1) && (d2 s =? -1) then Stg allocated (-1) (-1) else Stg compiled (d1 s) (d2 s)
  end.

(** storage/promotion.h:18-95: the selector chosen by the (symmetric) table *)
Definition storage_promote (s1 s2 : storage) (prefer_dynamic : bool) : selector :=
  let is_fixed := negb prefer_dynamic || (is_fixed_size s1 && is_fixed_size s2) in
  match sel s1, sel s2 with
  | compiled, compiled => compiled
  | compiled, allocated | allocated, compiled => if is_fixed then compiled else allocated
  | compiled, external | external, compiled => if is_fixed then compiled else external
  | compiled, any_storage | any_storage, compiled => compiled
  | allocated, allocated => allocated
  | allocated, external | external, allocated => allocated
  | allocated, any_storage | any_storage, allocated => allocated
  | external, external => external
  | external, any_storage | any_storage, external => external
  | any_storage, any_storage => any_storage
  end.

(** vector/promotion.h:22-41, 54-76 (temporary: proxy of the result) *)
Definition vector_promote (s1 s2 : storage) : storage :=
  proxy (with_size (storage_promote s1 s2 false) (Z.max (d1 s1) (d1 s2)) (-1)).
(** matrix/promotion.h:25-49; temporaries use the proxy *)
Definition matrix_promote (s1 s2 : storage) : storage :=
  with_size (storage_promote s1 s2 false) (Z.max (d1 s1) (d1 s2)) (Z.max (d2 s1) (d2 s2)).
(** matrix/promotion.h:66-112: matrix * matrix *)
Definition product_promote (s1 s2 : storage) : storage :=
  let lp := proxy s1 in
  let rp := proxy s2 in
  let is_fixed := (0 <? d1 lp) && (0 <? d2 rp) in
  let u := storage_promote lp rp (negb is_fixed) in
  proxy (with_size u (if is_fixed then d1 lp else -1) (if is_fixed then d2 rp else -1)).
(** matrix/promotion.h:117-181: matrix * vector (left_is_vector = false) and
    vector * matrix (true) *)
Definition vector_product_promote (left_is_vector : bool) (v m : storage) : storage :=
  let mp := proxy m in
  let n := if left_is_vector then d2 mp else d1 mp in
  let vu := proxy (with_size (sel v) n (-1)) in
  let is_fixed := 0 <? n in
  let u := storage_promote vu mp (negb is_fixed) in
  if (is_fixed && is_fixed_size vu) || (negb is_fixed && is_dynamic_size vu) then vu
  else with_size u n (-1).
(** matrix/promotion.h:188-209: outer product of vectors *)
Definition outer_promote (s1 s2 : storage) : storage :=
  proxy (matrix_promote (with_size (sel s1) (d1 s1) (-1)) (with_size (sel s2) (-1) (d1 s2))).
(** matrix/promotion.h:261-308: row and column types *)
Definition row_type (m : storage) : storage :=
  let p := proxy m in with_size (sel p) (d2 p) (-1).
Definition col_type (m : storage) : storage :=
  let p := proxy m in with_size (sel p) (d1 p) (-1).
