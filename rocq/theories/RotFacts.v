(** 3x3 blocks: from the elements written by the code to what the matrix does. *)
From Coq Require Import Reals List Lra Lia Psatz Nsatz.
From Verif Require Import Base RInst QuatModel QuatSpec QuatProofs RotModel RotSpec.
Import ListNotations.
Open Scope R_scope.

Lemma v3_eq u v : vx u = vx v -> vy u = vy v -> vz u = vz v -> u = v.
Proof. destruct u, v; simpl; congruence. Qed.
Lemma act_be m v : act m v =
  V3 (vx v * be m 0 0 + vy v * be m 1 0 + vz v * be m 2 0)
     (vx v * be m 0 1 + vy v * be m 1 1 + vz v * be m 2 1)
     (vx v * be m 0 2 + vy v * be m 1 2 + vz v * be m 2 2).
Proof. unfold act, be. destruct (mbasis m); apply v3_eq; simpl; ring. Qed.

Definition b3 (a00 a01 a02 a10 a11 a12 a20 a21 a22 : R) (i j : nat) : R :=
  match i, j with
  | 0%nat, 0%nat => a00 | 0%nat, 1%nat => a01 | 0%nat, _ => a02
  | 1%nat, 0%nat => a10 | 1%nat, 1%nat => a11 | 1%nat, _ => a12
  | _, 0%nat => a20 | _, 1%nat => a21 | _, _ => a22
  end.
Lemma lt3 i : (i < 3)%nat -> i = 0%nat \/ i = 1%nat \/ i = 2%nat. Proof. lia. Qed.
Ltac cases3 H := destruct (lt3 _ H) as [->|[->| ->]].
(** the block of m is b *)
Definition block (m : mx R) (b : nat -> nat -> R) : Prop := forall i j, (i < 3)%nat -> (j < 3)%nat -> be m i j = b i j.

Lemma same_action_be m n : same_action m n <-> block m (be n).
Proof.
  split.
  - intros H i j Hi Hj.
    assert (A := H (V3 1 0 0)). assert (B := H (V3 0 1 0)). assert (C := H (V3 0 0 1)).
    rewrite !act_be in A, B, C. simpl in A, B, C. injection A as A1 A2 A3. injection B as B1 B2 B3. injection C as C1 C2 C3.
    cases3 Hi; cases3 Hj; lra.
  - intros H v. rewrite !act_be. rewrite !H by lia. reflexivity.
Qed.
(** orthonormal rows and determinant 1 *)
Definition orth (b : nat -> nat -> R) : Prop :=
  (b 0%nat 0%nat * b 0%nat 0%nat + b 0%nat 1%nat * b 0%nat 1%nat + b 0%nat 2%nat * b 0%nat 2%nat = 1 /\
   b 1%nat 0%nat * b 1%nat 0%nat + b 1%nat 1%nat * b 1%nat 1%nat + b 1%nat 2%nat * b 1%nat 2%nat = 1 /\
   b 2%nat 0%nat * b 2%nat 0%nat + b 2%nat 1%nat * b 2%nat 1%nat + b 2%nat 2%nat * b 2%nat 2%nat = 1 /\
   b 0%nat 0%nat * b 1%nat 0%nat + b 0%nat 1%nat * b 1%nat 1%nat + b 0%nat 2%nat * b 1%nat 2%nat = 0 /\
   b 0%nat 0%nat * b 2%nat 0%nat + b 0%nat 1%nat * b 2%nat 1%nat + b 0%nat 2%nat * b 2%nat 2%nat = 0 /\
   b 1%nat 0%nat * b 2%nat 0%nat + b 1%nat 1%nat * b 2%nat 1%nat + b 1%nat 2%nat * b 2%nat 2%nat = 0 /\
   b 0%nat 0%nat * (b 1%nat 1%nat * b 2%nat 2%nat - b 1%nat 2%nat * b 2%nat 1%nat) + b 0%nat 1%nat * (b 1%nat 2%nat * b 2%nat 0%nat - b 1%nat 0%nat * b 2%nat 2%nat) + b 0%nat 2%nat * (b 1%nat 0%nat * b 2%nat 1%nat - b 1%nat 1%nat * b 2%nat 0%nat) = 1).
Lemma orth_rotation m : orth (be m) <-> is_rotation m.
Proof.
  split.
  - intros (A & B & C & D & E & F & G). unfold is_rotation. split; intros.
    + rewrite !act_be. unfold dot. simpl. destruct u as [u0 u1 u2], v as [v0 v1 v2]. simpl.
      generalize (be m 0 0) (be m 0 1) (be m 0 2) (be m 1 0) (be m 1 1) (be m 1 2) (be m 2 0) (be m 2 1) (be m 2 2) A B C D E F.
      intros. nsatz.
    + rewrite !act_be. unfold triple, dot, cross. simpl. destruct u as [u0 u1 u2], v as [v0 v1 v2], w as [w0 w1 w2]. simpl.
      generalize (be m 0 0) (be m 0 1) (be m 0 2) (be m 1 0) (be m 1 1) (be m 1 2) (be m 2 0) (be m 2 1) (be m 2 2) G.
      intros a b c d e f g h i K.
      transitivity ((a * (e * i - f * h) + b * (f * g - d * i) + c * (d * h - e * g)) *
         (u0 * (v1 * w2 - v2 * w1) + u1 * (v2 * w0 - v0 * w2) + u2 * (v0 * w1 - v1 * w0))); [ring|rewrite K; ring].
  - intros [H K]. unfold orth.
    assert (A1 := H (V3 1 0 0) (V3 1 0 0)). assert (A2 := H (V3 0 1 0) (V3 0 1 0)). assert (A3 := H (V3 0 0 1) (V3 0 0 1)).
    assert (A4 := H (V3 1 0 0) (V3 0 1 0)). assert (A5 := H (V3 1 0 0) (V3 0 0 1)). assert (A6 := H (V3 0 1 0) (V3 0 0 1)).
    assert (A7 := K (V3 1 0 0) (V3 0 1 0) (V3 0 0 1)).
    rewrite !act_be in *. unfold triple, dot, cross in *. simpl in *.
    repeat split; lra.
Qed.
(** all the consequences used below: columns too, and each element is its cofactor *)
Definition cofactors (b : nat -> nat -> R) : Prop :=
  (b 0%nat 0%nat = b 1%nat 1%nat * b 2%nat 2%nat - b 1%nat 2%nat * b 2%nat 1%nat /\ b 0%nat 1%nat = b 1%nat 2%nat * b 2%nat 0%nat - b 1%nat 0%nat * b 2%nat 2%nat /\ b 0%nat 2%nat = b 1%nat 0%nat * b 2%nat 1%nat - b 1%nat 1%nat * b 2%nat 0%nat /\
   b 1%nat 0%nat = b 2%nat 1%nat * b 0%nat 2%nat - b 2%nat 2%nat * b 0%nat 1%nat /\ b 1%nat 1%nat = b 2%nat 2%nat * b 0%nat 0%nat - b 2%nat 0%nat * b 0%nat 2%nat /\ b 1%nat 2%nat = b 2%nat 0%nat * b 0%nat 1%nat - b 2%nat 1%nat * b 0%nat 0%nat /\
   b 2%nat 0%nat = b 0%nat 1%nat * b 1%nat 2%nat - b 0%nat 2%nat * b 1%nat 1%nat /\ b 2%nat 1%nat = b 0%nat 2%nat * b 1%nat 0%nat - b 0%nat 0%nat * b 1%nat 2%nat /\ b 2%nat 2%nat = b 0%nat 0%nat * b 1%nat 1%nat - b 0%nat 1%nat * b 1%nat 0%nat).
Definition cols (b : nat -> nat -> R) : Prop :=
  (b 0%nat 0%nat * b 0%nat 0%nat + b 1%nat 0%nat * b 1%nat 0%nat + b 2%nat 0%nat * b 2%nat 0%nat = 1 /\
   b 0%nat 1%nat * b 0%nat 1%nat + b 1%nat 1%nat * b 1%nat 1%nat + b 2%nat 1%nat * b 2%nat 1%nat = 1 /\
   b 0%nat 2%nat * b 0%nat 2%nat + b 1%nat 2%nat * b 1%nat 2%nat + b 2%nat 2%nat * b 2%nat 2%nat = 1 /\
   b 0%nat 0%nat * b 0%nat 1%nat + b 1%nat 0%nat * b 1%nat 1%nat + b 2%nat 0%nat * b 2%nat 1%nat = 0 /\
   b 0%nat 0%nat * b 0%nat 2%nat + b 1%nat 0%nat * b 1%nat 2%nat + b 2%nat 0%nat * b 2%nat 2%nat = 0 /\
   b 0%nat 1%nat * b 0%nat 2%nat + b 1%nat 1%nat * b 1%nat 2%nat + b 2%nat 1%nat * b 2%nat 2%nat = 0).
Lemma orth_cofactors b : orth b -> cofactors b.
Proof.
  intros (A & B & C & D & E & F & G). unfold cofactors.
  generalize (b 0%nat 0%nat) (b 0%nat 1%nat) (b 0%nat 2%nat) (b 1%nat 0%nat) (b 1%nat 1%nat) (b 1%nat 2%nat) (b 2%nat 0%nat) (b 2%nat 1%nat) (b 2%nat 2%nat) A B C D E F G.
  clear. intros. repeat split; nsatz.
Qed.
Lemma orth_cols b : orth b -> cols b.
Proof.
  intros O. assert (K := orth_cofactors b O). destruct O as (A & B & C & D & E & F & G). unfold cols, cofactors in *.
  revert A B C D E F G K.
  generalize (b 0%nat 0%nat) (b 0%nat 1%nat) (b 0%nat 2%nat) (b 1%nat 0%nat) (b 1%nat 1%nat) (b 1%nat 2%nat) (b 2%nat 0%nat) (b 2%nat 1%nat) (b 2%nat 2%nat).
  clear. intros. destruct K as (K1 & K2 & K3 & K4 & K5 & K6 & K7 & K8 & K9).
  repeat split.
  - nsatz. - nsatz. - nsatz. - nsatz. - nsatz. - nsatz.
Qed.
