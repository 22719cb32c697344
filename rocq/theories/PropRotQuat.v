(** Quaternions and rotation matrices: C17, C18. *)
From Coq Require Import Reals List Bool Lra Lia ZArith.
From Verif Require Import Base RInst MiscModel QuatModel QuatSpec QuatProofs RotModel RotSpec RotFacts RotProofs RotQuat.
Import ListNotations.
Open Scope R_scope.

(** C17: the matrix of a unit quaternion is a rotation; it sends v to q v conj(q); the rest
    of a larger matrix is the identity. *)
Theorem quaternion_matrix_rotates : forall m o q, holds3 m -> unit_quat o q ->
  exists m', matrix_rotation_quaternion m o q = Ok m' /\ frame 3 m m' /\ is_rotation m' /\
    forall v, pure (act m' v) = sandwich (parts o q) v.
Proof.
  intros m o q H U. destruct (rotation_quaternion_b m o q H) as (m' & E & F & B).
  exists m'. repeat split; auto; try apply F.
  1,2: apply (block_rotation m' _ B); apply bquat_orth; exact U.
  intros v. rewrite (act_actb m' _ v B). apply bquat_sandwich. exact U.
Qed.
(** the same in the products of the library: q*v*conj(q) for the positive cross type,
    conj(q)*v*q for the negative one *)
Theorem quaternion_matrix_sandwich : forall c m o q m' v, holds3 m -> unit_quat o q ->
  matrix_rotation_quaternion m o q = Ok m' ->
  pure (act m' v) = match c with
    | positive_cross => hprod c (hprod c (parts o q) (pure v)) (hconj (parts o q))
    | negative_cross => hprod c (hconj (parts o q)) (hprod c (pure v) (parts o q))
    end.
Proof.
  intros c m o q m' v H U E. destruct (quaternion_matrix_rotates m o q H U) as (m2 & E2 & _ & _ & A).
  assert (m2 = m') as <- by congruence. rewrite A. destruct c; reflexivity.
Qed.
(** matrix of a product, for every cross type and basis orientation *)
Theorem quaternion_matrix_product : forall c m o p q r mp mq mr, holds3 m -> unit_quat o p -> unit_quat o q ->
  parts o r = hprod c (parts o p) (parts o q) ->
  matrix_rotation_quaternion m o p = Ok mp -> matrix_rotation_quaternion m o q = Ok mq -> matrix_rotation_quaternion m o r = Ok mr ->
  match c, mbasis m with
  | positive_cross, col_basis | negative_cross, row_basis => is_product mr mp mq
  | positive_cross, row_basis | negative_cross, col_basis => is_product mr mq mp
  end.
Proof.
  intros c m o p q r mp mq mr H Up Uq Er Ep Eq Err.
  destruct (rotation_quaternion_b m o p H) as (m1 & E1 & F1 & B1). assert (m1 = mp) by congruence; subst m1.
  destruct (rotation_quaternion_b m o q H) as (m1 & E2 & F2 & B2). assert (m1 = mq) by congruence; subst m1.
  destruct (rotation_quaternion_b m o r H) as (m1 & E3 & F3 & B3). assert (m1 = mr) by congruence; subst m1.
  destruct F1 as (_ & _ & F1 & _), F2 as (_ & _ & F2 & _), F3 as (_ & _ & F3 & _).
  rewrite Er in B3. rewrite <- F3.
  destruct c.
  - assert (K : block mr (bprod (be mq) (be mp))).
    { intros i j Hi Hj. rewrite B3 by auto. cbn [hprod]. rewrite bquat_mul by auto. unfold bprod. rewrite !B1, !B2 by lia. auto. }
    assert (L := block_product mr mq mp ltac:(congruence) ltac:(congruence) K). destruct (mbasis mr); auto.
  - assert (K : block mr (bprod (be mp) (be mq))).
    { intros i j Hi Hj. rewrite B3 by auto. cbn [hprod]. rewrite bquat_mul by auto. unfold bprod. rewrite !B1, !B2 by lia. auto. }
    assert (L := block_product mr mp mq ltac:(congruence) ltac:(congruence) K). destruct (mbasis mr); auto.
Qed.
(** quaternion_get_{x,y,z}_basis_vector return the images of the cardinal axes *)
Theorem quaternion_basis_vectors : forall m o q m' i, holds3 m -> (0 <= i <= 2)%Z ->
  matrix_rotation_quaternion m o q = Ok m' ->
  quaternion_get_basis_vector o q i = Ok (vlist (act m' (cardinal i))).
Proof.
  intros m o q m' i H Hi E. destruct (rotation_quaternion_b m o q H) as (m1 & E1 & F1 & B1). assert (m1 = m') by congruence; subst m1.
  rewrite (act_actb _ _ _ B1). unfold actb, bquat, parts, parts_of.
  destruct (range3 i Hi) as [->|[->| ->]]; unfold quaternion_get_basis_vector; cbn [Z.leb Z.compare Pos.compare Pos.compare_cont andb require bind]; cbv zeta;
  repeat match goal with |- context [Z.to_nat ?a] => let e := constr:(Z.to_nat a) in let f := eval vm_compute in e in change e with f end;
  destruct o, q as [a b c d]; unfold vlist; cbn; (apply f_equal; repeat (apply f_equal2; [ring|]); reflexivity).
Qed.
(** quaternions with the same matrix are equal up to sign *)
Theorem quaternion_double_cover : forall m o q o' q' m1 m2, holds3 m -> unit_quat o q -> unit_quat o' q' ->
  matrix_rotation_quaternion m o q = Ok m1 -> matrix_rotation_quaternion m o' q' = Ok m2 ->
  (same_action m1 m2 <-> parts o' q' = parts o q \/ parts o' q' = hmap neg (parts o q)).
Proof.
  intros m o q o' q' m1 m2 H U U' E1 E2.
  destruct (rotation_quaternion_b m o q H) as (x & X & _ & B1). assert (x = m1) by congruence; subst x.
  destruct (rotation_quaternion_b m o' q' H) as (x & X' & _ & B2). assert (x = m2) by congruence; subst x.
  split; intros K.
  - apply same_action_be in K.
    assert (A := unit_quads _ U). assert (A' := unit_quads _ U').
    assert (C : quads (be m1) (parts o q)). { unfold quads, tr in *. rewrite !B1 by lia. exact A. }
    assert (C' : quads (be m1) (parts o' q')). { unfold quads, tr in *. rewrite !K, !B2 by lia. exact A'. }
    exact (quads_sign _ _ _ C C').
  - apply same_action_be. intros i j Hi Hj. rewrite B1, B2 by auto.
    destruct K as [-> | ->]; auto. unfold hmap, bquat, parts, parts_of. cbn [neg hw hx hy hz ROps].
    cases3 Hi; cases3 Hj; cbn [b3]; ring.
Qed.

(** C18: a rotation matrix yields a unit quaternion whose matrix it is *)
Theorem matrix_to_quaternion : forall m o q, holds3 m -> is_rotation m ->
  exists q', quaternion_rotation_matrix o q m = Ok q' /\ unit_quat o q' /\
    forall n, holds3 n -> exists n', matrix_rotation_quaternion n o q' = Ok n' /\ same_action n' m.
Proof.
  intros m o q H Rm. destruct (rotation_matrix_b o q m H Rm) as (q' & E & Q). exists q'. split; auto.
  destruct (quads_unit _ _ Q) as [U B]. split; auto. intros n Hn.
  destruct (rotation_quaternion_b n o q' Hn) as (n' & En & _ & Bn). exists n'. split; auto.
  apply same_action_be. intros i j Hi Hj. rewrite Bn by auto. auto.
Qed.
(** and from the matrix of q, q or its negative comes back, whatever the branch *)
Theorem quaternion_round_trip : forall m o q m' o' q0, holds3 m -> unit_quat o q ->
  matrix_rotation_quaternion m o q = Ok m' ->
  exists q', quaternion_rotation_matrix o' q0 m' = Ok q' /\
    (parts o' q' = parts o q \/ parts o' q' = hmap neg (parts o q)).
Proof.
  intros m o q m' o' q0 H U E. destruct (quaternion_matrix_rotates m o q H U) as (x & X & F & Rm & _). assert (x = m') by congruence; subst x.
  assert (H' : holds3 m'). { destruct F as (F1 & F2 & _). unfold holds3. rewrite F1, F2. exact H. }
  destruct (matrix_to_quaternion m' o' q0 H' Rm) as (q' & E' & U' & K). exists q'. split; auto.
  destruct (K m H) as (n' & En & S). apply (quaternion_double_cover m o q o' q' m' n' H U U' E En).
  intros v. symmetry. apply S.
Qed.
(** too small a matrix is an exception, and nothing is written *)
Theorem quaternion_matrix_too_small : forall (m : mx R) o q, ~ holds3 m ->
  matrix_rotation_quaternion m o q = Throw EMinimumMatrixSize /\ quaternion_rotation_matrix o q m = Throw EMinimumMatrixSize.
Proof.
  intros m o q H. unfold matrix_rotation_quaternion, quaternion_rotation_matrix, check_linear_3D, check_minimum_size, require.
  destruct (Nat.leb_spec 3 (mrows m)), (Nat.leb_spec 3 (mcols m)); cbn; auto. destruct H. split; auto.
Qed.

(** ** Cases meeting the hypotheses *)
Definition q_half : quat R := Quat (1/2) (1/2) (1/2) (1/2).
Definition q_flip : quat R := Quat 0 (3/5) 0 (-4/5).
Definition m43 : mx R := Mx 4 3 row_basis (fun _ _ => 7).
Example q_half_unit : unit_quat real_first q_half /\ unit_quat real_first q_flip /\ holds3 m43 /\ ~ holds3 (Mx 2 4 col_basis (fun _ _ => 0)).
Proof. unfold unit_quat, hnorm, holds3. cbn. repeat split; try lra; lia. Qed.
(** both branches of quaternion_rotation_matrix are reached *)
Example q_branches : exists a b, matrix_rotation_quaternion m43 real_first q_half = Ok a /\ matrix_rotation_quaternion m43 real_first q_flip = Ok b /\
  trace_3x3 a = 0 /\ trace_3x3 b = -1 /\ mel a 3 1 = 0 /\ act a (V3 1 2 3) = V3 3 1 2.
Proof.
  eexists. eexists. split; [reflexivity|]. split; [reflexivity|]. unfold trace_3x3. cbn.
  repeat split; try lra. unfold act; cbn. f_equal; lra.
Qed.

Print Assumptions quaternion_matrix_rotates.
Print Assumptions quaternion_matrix_sandwich.
Print Assumptions quaternion_matrix_product.
Print Assumptions quaternion_basis_vectors.
Print Assumptions quaternion_double_cover.
Print Assumptions matrix_to_quaternion.
Print Assumptions quaternion_round_trip.
Print Assumptions quaternion_matrix_too_small.
