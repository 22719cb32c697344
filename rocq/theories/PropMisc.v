(** Properties C11 (comparison), C13 (hash), C43 (axis orders), C50 (promotion). *)
From Coq Require Import List ZArith Bool Arith Lia.
From Verif Require Import Base ZInst MiscModel MiscSpec MiscProofs MatModel MatSpec MatProofs MatOps PromoteModel.
Import ListNotations.
Open Scope nat_scope.

(** ** C11 *)
Lemma Z_total : total_order Z.
Proof.
  split; simpl; intros.
  - apply Z.ltb_irrefl.
  - rewrite Z.ltb_lt in *. lia.
  - rewrite Z.ltb_ge in *. lia.
Qed.
Theorem vector_order_lexicographic : forall (T : Type) (Op : Ops T), total_order T ->
  forall l r : list T,
  (v_lt l r = true <-> lex_lt l r) /\ (v_gt l r = true <-> lex_lt r l) /\
  (v_eq l r = true <-> l = r) /\
  (v_le l r = true <-> lex_lt l r \/ l = r) /\ (v_ge l r = true <-> lex_lt r l \/ l = r) /\
  (v_ne l r = true <-> l <> r).
Proof.
  intros T Op TO l r. assert (G := v_gt_flip_l l r (asym TO)).
  assert (L1 := v_lt_lex_l TO l r). assert (L2 := v_lt_lex_l TO r l). assert (E := v_eq_l TO l r).
  rewrite G. unfold v_le, v_ge, v_ne. rewrite G.
  assert (T1 := lex_total TO l r). assert (I1 := lex_irr TO l). assert (I2 := lex_irr TO r).
  assert (T2 : lex_lt l r -> lex_lt r l -> False).
  { intros A B. apply (lex_irr TO l). eapply lex_trans; eauto. }
  rewrite !negb_true_iff, <- !not_true_iff_false.
  repeat split; try tauto; (intros [A|A]; subst; tauto) || idtac.
Qed.
(** A strict total order on vectors. *)
Theorem vector_order_total : forall (T : Type) (Op : Ops T), total_order T ->
  forall a b c : list T,
  v_lt a a = false /\ (v_lt a b = true -> v_lt b c = true -> v_lt a c = true) /\
  ((v_lt a b = true /\ v_eq a b = false /\ v_gt a b = false) \/
   (v_lt a b = false /\ v_eq a b = true /\ v_gt a b = false) \/
   (v_lt a b = false /\ v_eq a b = false /\ v_gt a b = true)).
Proof.
  intros T Op TO a b c. split; [|split].
  - destruct (v_lt a a) eqn:E; auto. apply (v_lt_lex_l TO) in E. now apply (lex_irr TO) in E.
  - rewrite !(v_lt_lex_l TO). apply (lex_trans TO).
  - destruct (vector_order_lexicographic T Op TO a b) as (A & B & C & _).
    destruct (v_lt a b) eqn:L, (v_eq a b) eqn:E, (v_gt a b) eqn:G; auto; exfalso;
      try (assert (a = b) by tauto; subst);
      try (apply (lex_irr TO b); tauto).
    + apply (lex_irr TO a). apply (lex_trans TO a b a); tauto.
    + destruct (lex_total TO a b) as [X|[X|X]]; [apply A in X|apply C in X|apply B in X]; congruence.
Qed.
Example vector_order_ex : total_order Z /\ v_lt [1; 2]%Z [1; 2; 0]%Z = true /\ v_gt [1; 3]%Z [1; 2; 0]%Z = true /\
  v_eq [1; 2]%Z [1; 2]%Z = true.
Proof. split; [apply Z_total|auto]. Qed.
(** Matrices: == is equality of size and elements. *)
Theorem matrix_equality : forall (T : Type) (Op : Ops T), total_order T ->
  forall (a b : rmat T) r c r' c' A B, reads a r c A -> reads b r' c' B ->
  exists v, m_eq a b = Ok v /\
    (v = true <-> r = r' /\ c = c' /\ forall i j, i < r -> j < c -> A i j = B i j).
Proof.
  intros T Op TO a b r c r' c' A B Ha Hb.
  destruct (Nat.eq_dec r r') as [->|Nr]; [destruct (Nat.eq_dec c c') as [->|Nc]|].
  - destruct (m_eq_total_l a b r' c' A B Ha Hb) as [v E]. exists v. split; auto.
    assert (Q := m_eq_true_l a b r' c' A B Ha Hb). rewrite E in Q. split.
    + intros ->. split; auto. split; auto. intros i j Hi Hj. destruct (proj1 Q eq_refl i j Hi Hj). now apply TO.
    + intros (_ & _ & H). assert (Ok v = Ok true); [|congruence]. apply Q. intros i j Hi Hj. rewrite H by auto.
      split; apply TO.
  - exists false. destruct Ha as (A1 & A2 & _), Hb as (B1 & B2 & _). split; [apply m_eq_sizes_l; right; congruence|].
    split; [discriminate|tauto].
  - exists false. destruct Ha as (A1 & A2 & _), Hb as (B1 & B2 & _). split; [apply m_eq_sizes_l; left; congruence|].
    split; [discriminate|tauto].
Qed.
(** Scalars with an unordered value (NaN): [None] compares false with everything. *)
Definition nan_lift2 (f : Z -> Z -> Z) (a b : option Z) : option Z :=
  match a, b with Some x, Some y => Some (f x y) | _, _ => None end.
#[export] Instance NanOps : Ops (option Z) := {|
  zero := Some 0%Z; one := Some 1%Z; add := nan_lift2 Z.add; sub := nan_lift2 Z.sub;
  mul := nan_lift2 Z.mul; div := nan_lift2 Z.quot; neg := option_map Z.opp;
  ltb := fun a b => match a, b with Some x, Some y => Z.ltb x y | _, _ => false end;
  eqb := fun a b => match a, b with Some x, Some y => Z.eqb x y | _, _ => false end |}.
(** Then == is not equality, not transitive, and "equal" vectors need not have
    equal hashes. *)
Theorem vector_equality_nan_refuted :
  exists a b c : list (option Z),
    v_eq a b = true /\ v_eq b c = true /\ v_eq a c = false /\ a <> b /\
    forall h : option Z -> Z, (h (Some 1%Z) <> h None -> word 64 (h (Some 1%Z)) -> word 64 (h None) ->
      vector_hash combine64 (map h a) <> vector_hash combine64 (map h b)).
Proof.
  exists [Some 1%Z], [None], [Some 2%Z]. repeat split; try discriminate.
  intros h Hn W1 W2. apply (hash_differ_l 64 combine64 combine64_l []); simpl; auto; lia.
Qed.

(** ** C13 *)
Theorem hash_separates : forall p a b s, a <> b ->
  (Forall (word 32) (p ++ a :: b :: s) ->
     vector_hash combine32 (p ++ a :: s) <> vector_hash combine32 (p ++ b :: s)) /\
  (Forall (word 64) (p ++ a :: b :: s) ->
     vector_hash combine64 (p ++ a :: s) <> vector_hash combine64 (p ++ b :: s)).
Proof.
  intros p a b s H. split; intros F.
  - apply (hash_differ_l 32 combine32 combine32_l); auto; lia.
  - apply (hash_differ_l 64 combine64 combine64_l); auto; lia.
Qed.
Theorem hash_is_word : forall hs,
  (Forall (word 32) hs -> word 32 (vector_hash combine32 hs)) /\
  (Forall (word 64) hs -> word 64 (vector_hash combine64 hs)).
Proof.
  assert (G : forall w c, (0 <= w)%Z -> (forall h k, word w h -> word w k -> word w (c h k)) ->
    forall hs, Forall (word w) hs -> word w (vector_hash c hs)).
  { intros w c Hw C hs. unfold vector_hash.
    assert (Z0 : word w 0%Z) by (split; [lia|apply Z.pow_pos_nonneg; lia]).
    generalize 0%Z Z0. induction hs; simpl; intros z Hz F; auto. inversion F; subst. auto. }
  intros hs. split; apply G; try lia; intros h k Hh Hk; [apply combine32_l|apply combine64_l]; auto.
Qed.
(** Equal vectors (==, totally ordered elements) hash equally. *)
Theorem hash_respects_equality : forall (T : Type) (Op : Ops T), total_order T ->
  forall (h : T -> Z) (a b : list T), v_eq a b = true ->
  vector_hash combine32 (map h a) = vector_hash combine32 (map h b) /\
  vector_hash combine64 (map h a) = vector_hash combine64 (map h b).
Proof. intros T Op TO h a b H. apply (v_eq_l TO) in H. subst. auto. Qed.
Example hash_ex :
  vector_hash combine64 [1; 2]%Z <> vector_hash combine64 [2; 1]%Z /\
  vector_hash combine32 [0]%Z = 0xe6546b64%Z /\ Forall (word 32) [7; 0xffffffff]%Z.
Proof.
  split; [vm_compute; discriminate|]. split; [vm_compute; reflexivity|].
  repeat constructor; vm_compute; congruence.
Qed.

(** ** C43 *)
(** The axes are those of the name; i, j, k is always a permutation of 0, 1, 2. *)
Theorem euler_order_axes : forall o, let a := unpack_euler (eo_value o) in
  eo_name o = [ea_i a; ea_j a; if ea_repeat a then ea_i a else ea_k a] /\
  perm_sign (ea_i a) (ea_j a) (ea_k a) = (if ea_odd a then -1 else 1)%Z /\
  (0 <= ea_i a <= 2 /\ 0 <= ea_j a <= 2 /\ 0 <= ea_k a <= 2)%Z.
Proof. intros o; destruct o; vm_compute; repeat split; congruence. Qed.
Theorem axis_order_axes : forall o, let '(i, j, k, odd) := unpack_axis (ao_value o) in
  ao_name o = (i, j, k) /\ perm_sign i j k = (if odd then -1 else 1)%Z.
Proof. intros o; destruct o; vm_compute; split; reflexivity. Qed.
Theorem axis_order_pack_unpack :
  (forall o, let '(i, j, k, odd) := unpack_axis (ao_value o) in pack_axis i odd = ao_value o) /\
  (forall i odd, (0 <= i <= 2)%Z -> exists o, pack_axis i odd = ao_value o /\
     let '(i', _, _, odd') := unpack_axis (ao_value o) in i' = i /\ odd' = odd).
Proof.
  split.
  - intros o; destruct o; reflexivity.
  - intros i odd Hi. assert (i = 0 \/ i = 1 \/ i = 2)%Z as [->|[->| ->]] by lia; destruct odd;
    [exists ao_xzy|exists ao_xyz|exists ao_yxz|exists ao_yzx|exists ao_zyx|exists ao_zxy]; split; try reflexivity; split; reflexivity.
Qed.
(** swap exchanges the first two axes and is its own inverse. *)
Theorem axis_order_swap : forall o, exists o', swap_axis (ao_value o) = ao_value o' /\
  (let '(i, j, k) := ao_name o in ao_name o' = (j, i, k)) /\ swap_axis (ao_value o') = ao_value o.
Proof.
  intros o; destruct o; [exists ao_yxz|exists ao_zxy|exists ao_zyx|exists ao_xyz|exists ao_xzy|exists ao_yzx];
    repeat split.
Qed.
Theorem axis_order_2D :
  unpack_axis2D (ao_value ao_xyz) = (0, 1, false)%Z /\ unpack_axis2D (ao_value ao_yxz) = (1, 0, true)%Z.
Proof. split; reflexivity. Qed.

(** ** C50 *)
(** A storage the library defines for matrices / vectors. *)
Definition valid_matrix (s : storage) : Prop :=
  match sel s with
  | compiled => (0 < d1 s /\ 0 < d2 s)%Z
  | allocated | external => (0 < d1 s /\ 0 < d2 s)%Z \/ (d1 s = -1 /\ d2 s = -1)%Z
  | any_storage => (d1 s = -1 /\ d2 s = -1)%Z
  end.
Definition valid_vector (s : storage) : Prop :=
  d2 s = (-1)%Z /\
  match sel s with
  | compiled => (0 < d1 s)%Z
  | allocated | external => (0 < d1 s)%Z \/ d1 s = (-1)%Z
  | any_storage => d1 s = (-1)%Z
  end.
Definition known (s : storage) : Prop := sel s <> any_storage.
(** A temporary of this type can be created with run-time size n (r x c). *)
Definition holds_vector (s : storage) (n : Z) : Prop :=
  s = Stg compiled n (-1) \/ s = Stg allocated (-1) (-1).
Definition holds_matrix (s : storage) (r c : Z) : Prop :=
  s = Stg compiled r c \/ s = Stg allocated (-1) (-1).
(** An object with this storage can have size n (r x c). *)
Definition may_have (d n : Z) : Prop := d = n \/ d = (-1)%Z.

Theorem tags_symmetric : forall a b : size_tag, forall x y : three, forall s t p,
  size_check_promote a b = size_check_promote b a /\ size_tag_promote a b = size_tag_promote b a /\
  tag_promote x y = tag_promote y x /\ storage_promote s t p = storage_promote t s p /\
  vector_promote s t = vector_promote t s /\ matrix_promote s t = matrix_promote t s.
Proof.
  intros a b x y s t p.
  assert (S : forall p, storage_promote s t p = storage_promote t s p).
  { intros q. unfold storage_promote. rewrite (andb_comm (is_fixed_size s)). destruct (sel s), (sel t); auto. }
  repeat split; auto.
  - destruct a, b; auto. - destruct a, b; auto. - destruct x, y; auto.
  - unfold vector_promote. now rewrite S, Z.max_comm.
  - unfold matrix_promote. now rewrite S, (Z.max_comm (d1 s)), (Z.max_comm (d2 s)).
Qed.
(** Nested elementwise expressions: grouping does not matter for sizes and storage. *)
Theorem storage_associative : forall a b c : size_tag, forall s t u,
  size_tag_promote (size_tag_promote a b) c = size_tag_promote a (size_tag_promote b c) /\
  size_check_promote a a = a /\ size_tag_promote a a = a /\
  (valid_matrix s -> valid_matrix t -> valid_matrix u ->
   matrix_promote (matrix_promote s t) u = matrix_promote s (matrix_promote t u)).
Proof.
  intros a b c s t u. repeat split.
  - destruct a, b, c; auto. - destruct a; auto. - destruct a; auto.
  - unfold valid_matrix, matrix_promote. destruct s as [s1 s2 s3], t as [t1 t2 t3], u as [u1 u2 u3].
    destruct s1, t1, u1; unfold storage_promote; simpl; intros; f_equal; lia.
Qed.
(** Basis and layout tags are not: row, col, col. *)
Theorem basis_associative_refuted : exists a b c : three,
  tag_promote (tag_promote a b) c = t_col /\ tag_promote a (tag_promote b c) = t_any.
Proof. exists t_row, t_col, t_col. split; reflexivity. Qed.

Ltac promote_cases :=
  repeat match goal with
  | H : _ /\ _ |- _ => destruct H
  | H : _ \/ _ |- _ => destruct H
  end; subst; simpl in *; subst; simpl; try congruence.
(** The temporary can hold the result of an elementwise operation on operands whose
    run-time sizes agree. *)
Theorem vector_temporary_fits : forall s t n, valid_vector s -> valid_vector t -> known s \/ known t ->
  may_have (d1 s) n -> may_have (d1 t) n -> (0 < n)%Z -> holds_vector (vector_promote s t) n.
Proof.
  intros [s1 s2 s3] [t1 t2 t3] n (A & Vs) (B & Vt) K Ms Mt Hn. unfold known, may_have, holds_vector in *.
  simpl in *. subst s3 t3. unfold vector_promote, storage_promote. simpl.
  destruct s1, t1; simpl in *; unfold proxy; simpl;
    destruct (Z.eqb_spec (Z.max s2 t2) (-1)); simpl;
    try (right; f_equal; lia); try (left; f_equal; lia);
    try (destruct K as [K|K]; exfalso; apply K; reflexivity);
    try (exfalso; lia).
Qed.
Theorem matrix_temporary_fits : forall s t r c, valid_matrix s -> valid_matrix t -> known s \/ known t ->
  may_have (d1 s) r -> may_have (d1 t) r -> may_have (d2 s) c -> may_have (d2 t) c -> (0 < r)%Z -> (0 < c)%Z ->
  holds_matrix (proxy (matrix_promote s t)) r c.
Proof.
  intros [s1 s2 s3] [t1 t2 t3] r c Vs Vt K Ms Mt Ns Nt Hr Hc. unfold known, may_have, holds_matrix, valid_matrix in *.
  simpl in *. unfold matrix_promote, storage_promote. simpl.
  destruct s1, t1; simpl in *; unfold proxy; simpl;
    destruct (Z.eqb_spec (Z.max s2 t2) (-1)), (Z.eqb_spec (Z.max s3 t3) (-1)); simpl;
    try (right; f_equal; lia); try (left; f_equal; lia);
    try (destruct K as [K|K]; exfalso; apply K; reflexivity);
    try (exfalso; lia).
Qed.
Lemma proxy_matrix s r c : valid_matrix s -> known s -> may_have (d1 s) r -> may_have (d2 s) c ->
  (0 < r)%Z -> (0 < c)%Z -> proxy s = Stg compiled r c \/ proxy s = Stg allocated (-1) (-1).
Proof.
  destruct s as [s1 s2 s3]. unfold valid_matrix, known, may_have, proxy. simpl. intros V K M N Hr Hc.
  destruct s1; try tauto;
    destruct (Z.eqb_spec s2 (-1)), (Z.eqb_spec s3 (-1)); simpl; try (exfalso; lia);
    first [right; f_equal; lia | left; f_equal; lia].
Qed.
Lemma pos_facts n : (0 < n)%Z -> (n =? -1)%Z = false /\ (0 <? n)%Z = true.
Proof. intros H. split; [apply Z.eqb_neq|apply Z.ltb_lt]; lia. Qed.
(** Products: a is r x n, b is n x c. *)
Theorem product_temporary_fits : forall s t r n c, valid_matrix s -> valid_matrix t -> known s -> known t ->
  may_have (d1 s) r -> may_have (d2 s) n -> may_have (d1 t) n -> may_have (d2 t) c ->
  (0 < r)%Z -> (0 < n)%Z -> (0 < c)%Z -> holds_matrix (product_promote s t) r c.
Proof.
  intros s t r n c Vs Vt K1 K2 M1 M2 M3 M4 Hr Hn Hc.
  destruct (pos_facts r Hr) as [E1 L1], (pos_facts n Hn) as [E2 L2], (pos_facts c Hc) as [E3 L3].
  unfold product_promote, holds_matrix.
  destruct (proxy_matrix s r n Vs K1 M1 M2 Hr Hn) as [-> | ->], (proxy_matrix t n c Vt K2 M3 M4 Hn Hc) as [-> | ->];
    unfold storage_promote, proxy, is_fixed_size, size_tag_of, with_size; simpl;
    rewrite ?E1, ?E2, ?E3, ?L1, ?L2, ?L3; simpl; rewrite ?E1, ?E2, ?E3; simpl; auto.
Qed.
(** M*v (m is r x n) and v*M (m is n x r). *)
Theorem vector_product_temporary_fits : forall (lv : bool) v m r n, valid_vector v -> valid_matrix m ->
  known v -> known m -> may_have (d1 v) n ->
  may_have (d1 m) (if lv then n else r) -> may_have (d2 m) (if lv then r else n) ->
  (0 < r)%Z -> (0 < n)%Z -> holds_vector (vector_product_promote lv v m) r.
Proof.
  intros lv [v1 v2 v3] m r n Vv Vm K1 K2 M1 M2 M3 Hr Hn.
  destruct (pos_facts r Hr) as [E1 L1], (pos_facts n Hn) as [E2 L2]. clear Vv M1.
  unfold vector_product_promote, holds_vector, known in *. simpl in *.
  destruct (proxy_matrix m (if lv then n else r) (if lv then r else n)) as [-> | ->]; auto; try (destruct lv; assumption);
    destruct lv, v1; try tauto;
    unfold storage_promote, proxy, is_fixed_size, is_dynamic_size, size_tag_of, with_size; simpl;
    rewrite ?E1, ?E2, ?L1, ?L2; simpl; rewrite ?E1, ?E2; simpl; auto.
Qed.
(** Outer products: both sizes known at compile time, or neither. *)
Theorem outer_temporary_fits : forall s t m n, valid_vector s -> valid_vector t -> known s -> known t ->
  (d1 s = m /\ d1 t = n) \/ (d1 s = -1 /\ d1 t = -1)%Z -> (0 < m)%Z -> (0 < n)%Z ->
  holds_matrix (outer_promote s t) m n.
Proof.
  intros [s1 s2 s3] [t1 t2 t3] m n (A & Vs) (B & Vt) K1 K2 M Hm Hn.
  unfold known, holds_matrix in *. simpl in *. subst s3 t3.
  destruct M as [[-> ->]|[-> ->]]; destruct s1, t1; try tauto; try lia;
  unfold outer_promote, matrix_promote, storage_promote, proxy, with_size; simpl;
    repeat match goal with |- context [(?x =? -1)%Z] => destruct (Z.eqb_spec x (-1)) end; simpl; try lia; auto;
    left; f_equal; lia.
Qed.
(** One fixed, one run-time size: the temporary is a compiled matrix with a
    dimension of -1. *)
Theorem outer_mixed_refuted : exists s t,
  valid_vector s /\ valid_vector t /\ d1 s = 3%Z /\ d1 t = (-1)%Z /\
  outer_promote s t = Stg compiled 3 (-1) /\ forall n, (0 < n)%Z -> ~ holds_matrix (outer_promote s t) 3 n.
Proof.
  exists (Stg compiled 3 (-1)), (Stg allocated (-1) (-1)).
  split; [split; simpl; lia|]. split; [split; simpl; lia|]. repeat split.
  intros n Hn [H|H]; injection H; lia.
Qed.
Theorem row_and_column_types_fit : forall m r c, valid_matrix m -> known m ->
  may_have (d1 m) r -> may_have (d2 m) c -> (0 < r)%Z -> (0 < c)%Z ->
  holds_vector (row_type m) c /\ holds_vector (col_type m) r.
Proof.
  intros [s1 s2 s3] r c V K M1 M2 Hr Hc. unfold valid_matrix, known, may_have, holds_vector in *. simpl in *.
  destruct s1; try tauto; unfold row_type, col_type, proxy, with_size; simpl;
    repeat match goal with |- context [(?x =? -1)%Z] => destruct (Z.eqb_spec x (-1)) end; simpl; try lia;
    split; first [left; f_equal; lia | right; f_equal; lia].
Qed.
Example promotion_ex :
  vector_promote (Stg external 3 (-1)) (Stg allocated (-1) (-1)) = Stg compiled 3 (-1) /\
  product_promote (Stg compiled 2 3) (Stg external (-1) (-1)) = Stg allocated (-1) (-1) /\
  vector_product_promote false (Stg allocated (-1) (-1)) (Stg compiled 2 3) = Stg compiled 2 (-1) /\
  valid_matrix (Stg compiled 2 3) /\ valid_vector (Stg external 3 (-1)).
Proof. repeat split; simpl; auto; lia. Qed.

Print Assumptions vector_order_lexicographic. Print Assumptions vector_order_total. Print Assumptions matrix_equality.
Print Assumptions vector_equality_nan_refuted. Print Assumptions hash_separates. Print Assumptions hash_is_word.
Print Assumptions hash_respects_equality. Print Assumptions euler_order_axes. Print Assumptions axis_order_axes.
Print Assumptions axis_order_pack_unpack. Print Assumptions axis_order_swap. Print Assumptions axis_order_2D.
Print Assumptions tags_symmetric. Print Assumptions storage_associative. Print Assumptions basis_associative_refuted.
Print Assumptions vector_temporary_fits. Print Assumptions matrix_temporary_fits. Print Assumptions product_temporary_fits.
Print Assumptions vector_product_temporary_fits. Print Assumptions outer_temporary_fits. Print Assumptions outer_mixed_refuted.
Print Assumptions row_and_column_types_fit.
