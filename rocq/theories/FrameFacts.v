(** Lemmas for C88: cross products, directions and frames of real vectors. *)
From Coq Require Import ZArith Bool List Arith Lia Reals Lra.
From Flocq Require Import Core.
From Verif Require Import FloatDot FloatRot.
Open Scope R_scope.

(** the cross product of two vectors of three elements *)
Definition cross3 (a b : nat -> R) (i : nat) : R := match i with
  | 0%nat => a 1%nat * b 2%nat - a 2%nat * b 1%nat | 1%nat => a 2%nat * b 0%nat - a 0%nat * b 2%nat | _ => a 0%nat * b 1%nat - a 1%nat * b 0%nat end.
(** the unit vector that points where [v] points *)
Definition direction (v : nat -> R) (i : nat) : R := v i / norm 3 v.
(** Euclidean distance *)
Definition dist3 (a b : nat -> R) : R := norm 3 (fun i => a i - b i).

Lemma norm3_0 v : norm 3 v = 0 -> v 0%nat = 0 /\ v 1%nat = 0 /\ v 2%nat = 0.
Proof. intros H. repeat split; apply Rabs_eq_0 || idtac; pose proof (norm_term 3 v 0 ltac:(lia)); pose proof (norm_term 3 v 1 ltac:(lia)); pose proof (norm_term 3 v 2 ltac:(lia)); rewrite H in *; pose proof (Rabs_pos (v 0%nat)); pose proof (Rabs_pos (v 1%nat)); pose proof (Rabs_pos (v 2%nat)); destruct (Req_dec (v 0%nat) 0), (Req_dec (v 1%nat) 0), (Req_dec (v 2%nat) 0); auto; repeat match goal with H : ?x <> 0 |- _ => apply Rabs_pos_lt in H end; lra. Qed.
Lemma cross_sq a b : norm 3 (cross3 a b) * norm 3 (cross3 a b) = norm 3 a * norm 3 a * (norm 3 b * norm 3 b) - rsum 3 (fun k => a k * b k) * rsum 3 (fun k => a k * b k).
Proof. rewrite !norm_sq. cbn [rsum cross3]. ring. Qed.
Lemma cross_norm a b : norm 3 (cross3 a b) <= norm 3 a * norm 3 b.
Proof.
  apply sq_le; [apply Rmult_le_pos; apply norm_pos|]. rewrite cross_sq. pose proof (sq_pos (rsum 3 (fun k => a k * b k))). lra.
Qed.
Lemma cross_ext a b a' b' i : (forall k, (k < 3)%nat -> a k = a' k /\ b k = b' k) -> cross3 a b i = cross3 a' b' i.
Proof. intros H. destruct (H 0%nat ltac:(lia)), (H 1%nat ltac:(lia)), (H 2%nat ltac:(lia)). unfold cross3. destruct i as [|[|i]]; congruence. Qed.
Lemma dist_pos a b : 0 <= dist3 a b. Proof. apply norm_pos. Qed.
Lemma dist_sym a b : dist3 a b = dist3 b a.
Proof. unfold dist3. rewrite <- (norm_abs 3 (fun i => a i - b i)), <- (norm_abs 3 (fun i => b i - a i)). apply norm_ext. intros. apply Rabs_minus_sym. Qed.
Lemma dist_triangle a b c : dist3 a c <= dist3 a b + dist3 b c.
Proof. unfold dist3. eapply Rle_trans; [|apply norm_triangle]. right. apply norm_ext. intros. ring. Qed.
Lemma dist_norm a b : norm 3 a <= norm 3 b + dist3 a b.
Proof. pose proof (norm_dist 3 a b) as H. apply Rabs_le_inv in H. unfold dist3. lra. Qed.
Lemma dist_term a b i : (i < 3)%nat -> Rabs (a i - b i) <= dist3 a b.
Proof. apply (norm_term 3 (fun i => a i - b i)). Qed.
Lemma cross_dist a a' b b' : dist3 (cross3 a b) (cross3 a' b') <= dist3 a a' * norm 3 b + norm 3 a' * dist3 b b'.
Proof.
  apply Rle_trans with (norm 3 (fun i => cross3 (fun k => a k - a' k) b i + cross3 a' (fun k => b k - b' k) i)).
  - right. apply norm_ext. intros k _. unfold cross3. destruct k as [|[|k]]; ring.
  - eapply Rle_trans; [apply norm_triangle|]. apply Rplus_le_compat; apply cross_norm.
Qed.
(** ** Directions *)
Lemma direction_norm v : norm 3 v <> 0 -> norm 3 (direction v) = 1.
Proof.
  intros H. pose proof (norm_pos 3 v) as P. unfold direction. rewrite (norm_ext 3 _ (fun k => / norm 3 v * v k)) by (intros; unfold Rdiv; ring). rewrite norm_scal, Rabs_pos_eq; [field; auto|]. apply Rlt_le, Rinv_0_lt_compat. lra.
Qed.
(** directions of close vectors *)
Lemma direction_close v w e : norm 3 w <> 0 -> norm 3 v <> 0 -> dist3 v w <= e * norm 3 w -> dist3 (direction v) (direction w) <= 2 * e.
Proof.
  intros Hw Hv H. pose proof (norm_pos 3 v) as Pv. pose proof (norm_pos 3 w) as Pw. pose proof (norm_dist 3 v w) as ND. fold (dist3 v w) in ND.
  set (rv := norm 3 v) in *. set (rw := norm 3 w) in *. assert (0 < rw) by lra. assert (0 < rv) by lra.
  apply Rle_trans with (norm 3 (fun i => / rw * (v i - w i) + (rw - rv) * / rw * direction v i)).
  - right. apply norm_ext. intros i _. unfold direction. fold rv rw. field. lra.
  - eapply Rle_trans; [apply norm_triangle|]. rewrite !norm_scal, direction_norm by auto. fold (dist3 v w). rewrite Rabs_mult, Rmult_1_r, (Rabs_pos_eq (/ rw)) by (apply Rlt_le, Rinv_0_lt_compat; auto).
    rewrite Rabs_minus_sym in ND.
    assert (A : / rw * dist3 v w <= e). { apply Rmult_le_reg_l with rw; auto. rewrite <- Rmult_assoc, Rinv_r, Rmult_1_l by lra. lra. }
    assert (B : Rabs (rw - rv) * / rw <= / rw * dist3 v w) by (rewrite Rmult_comm; apply Rmult_le_compat_l; [apply Rlt_le, Rinv_0_lt_compat; auto|lra]). lra.
Qed.
Lemma direction_of_unit v : norm 3 v <> 0 -> dist3 v (direction v) = Rabs (norm 3 v - 1).
Proof.
  intros H. unfold dist3. rewrite (norm_ext 3 _ (fun i => (norm 3 v - 1) * direction v i)) by (intros; unfold direction; field; auto). rewrite norm_scal, direction_norm by auto. ring.
Qed.
(** ** Frames *)
Lemma orthogonal3 (A : nat -> nat -> R) : rsum 3 (fun k => A 0%nat k * A 0%nat k) = 1 -> rsum 3 (fun k => A 1%nat k * A 1%nat k) = 1 -> rsum 3 (fun k => A 2%nat k * A 2%nat k) = 1 ->
  rsum 3 (fun k => A 0%nat k * A 1%nat k) = 0 -> rsum 3 (fun k => A 0%nat k * A 2%nat k) = 0 -> rsum 3 (fun k => A 1%nat k * A 2%nat k) = 0 -> near_orthogonal 3 0 A.
Proof.
  intros A0 A1 A2 B0 B1 B2 i j Hi Hj. unfold gram. cbn [rsum] in *. destruct i as [|[|[|i]]]; [..|lia]; destruct j as [|[|[|j]]]; try lia; cbn [Nat.eqb]; apply Rabs_le; lra.
Qed.
(** three orthonormal vectors stand at right angles whichever rows they fill *)
Lemma frame_facts z r : norm 3 z = 1 -> norm 3 (cross3 r z) <> 0 -> let x := direction (cross3 r z) in let y := cross3 z x in
  rsum 3 (fun k => z k * z k) = 1 /\ rsum 3 (fun k => x k * x k) = 1 /\ rsum 3 (fun k => y k * y k) = 1 /\
  rsum 3 (fun k => x k * y k) = 0 /\ rsum 3 (fun k => x k * z k) = 0 /\ rsum 3 (fun k => y k * z k) = 0.
Proof.
  intros Hz Hc x y. assert (Z1 : rsum 3 (fun k => z k * z k) = 1) by (rewrite <- norm_sq, Hz; ring). pose proof (direction_norm _ Hc) as Hx. fold x in Hx.
  assert (X1 : rsum 3 (fun k => x k * x k) = 1) by (rewrite <- norm_sq, Hx; ring).
  assert (XZ : rsum 3 (fun k => x k * z k) = 0).
  { unfold x, direction. rewrite (rsum_ext 3 _ (fun k => / norm 3 (cross3 r z) * (cross3 r z k * z k))) by (intros; unfold Rdiv; ring). rewrite rsum_scal. cbn [rsum cross3]. ring. }
  split; [auto|]. split; [auto|]. split.
  - rewrite <- norm_sq. unfold y. rewrite cross_sq, Hz, Hx. rewrite (rsum_ext 3 _ (fun k => x k * z k)) by (intros; ring). rewrite XZ. ring.
  - split; [|split]; auto; unfold y; cbn [rsum cross3]; ring.
Qed.
(** rows close to those of an orthogonal matrix *)
Lemma rows_close (A A' : nat -> nat -> R) E : near_orthogonal 3 0 A -> 0 <= E <= / 2 -> (forall i j, (i < 3)%nat -> (j < 3)%nat -> Rabs (A' i j - A i j) <= E) -> near_orthogonal 3 (5 * E) A'.
Proof.
  intros NO HE H. assert (S : sqrt (INR 3) <= 1733 / 1000). { replace (INR 3) with 3 by (cbn; lra). apply sq_le; [lra|]. rewrite sqrt_sqrt by lra. lra. } pose proof (sqrt_pos (INR 3)) as S0.
  assert (R : forall i, (i < 3)%nat -> norm 3 (A i) <= 1). { intros i Hi. apply sq_le; [lra|]. pose proof (near_orthogonal_rows 3 0 A i NO Hi). lra. }
  pose proof (near_orthogonal_close 3 0 E 1 A A' NO ltac:(lra) R H) as C. intros i j Hi Hj. eapply Rle_trans; [apply C; auto|].
  assert (sqrt (INR 3) * E <= 1733 / 1000 * E) by (apply Rmult_le_compat_r; lra). assert (E * E <= / 2 * E) by (apply Rmult_le_compat_r; lra). replace (INR 3) with 3 in * by (cbn; lra). lra.
Qed.
