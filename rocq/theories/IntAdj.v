(** Adjugates and determinants of 2x2, 3x3 and 4x4 integer matrices. *)
From Coq Require Import ZArith Arith List Lia.
From Verif Require Import Base IntModel PropInt IntInvSpec.
Import ListNotations.
Open Scope Z_scope.

Lemma zsum_ext n f g : (forall k, (k < n)%nat -> f k = g k) -> zsum n f = zsum n g.
Proof. induction n as [|n IH]; intros H; cbn; auto. rewrite IH by (intros; apply H; lia). rewrite H by lia. reflexivity. Qed.
Lemma zdet_ext n : forall A B, same_upto n A B -> zdet n A = zdet n B.
Proof.
  induction n as [|n IH]; intros A B H; [reflexivity|]. cbn -[zsum Z.mul Z.pow]. apply zsum_ext. intros k Hk.
  rewrite (H 0%nat k) by lia. f_equal. apply IH. intros i j Hi Hj. unfold zminor. apply H; [lia|]. destruct (j <? k)%nat; lia.
Qed.
Lemma zmul_ext n A B A' B' : same_upto n A A' -> same_upto n B B' -> same_upto n (zmul n A B) (zmul n A' B').
Proof. intros HA HB i j Hi Hj. apply zsum_ext. intros k Hk. rewrite HA, HB; auto. Qed.
Lemma zdet_id n : (2 <= n <= 4)%nat -> zdet n zid = 1.
Proof. intros H. destruct n as [|[|[|[|[|n]]]]]; try lia; reflexivity. Qed.
Lemma zdet_mul n A B : (2 <= n <= 4)%nat -> zdet n (zmul n A B) = zdet n A * zdet n B.
Proof.
  intros H. destruct n as [|[|[|[|[|n]]]]]; try lia; unfold zdet, zminor, zmul; cbn -[Z.mul Z.add Z.sub Z.opp]; ring.
Qed.
Lemma zadj_left n M i j : (2 <= n <= 4)%nat -> (i < n)%nat -> (j < n)%nat -> zmul n (zadj n M) M i j = zdet n M * zid i j.
Proof.
  intros H Hi Hj. destruct n as [|[|[|[|[|n]]]]]; try lia;
  destruct i as [|[|[|[|i]]]]; try lia; destruct j as [|[|[|[|j]]]]; try lia;
  unfold zmul, zadj, zdet, zminor, zstrike, zid; cbn -[Z.mul Z.add Z.sub Z.opp]; ring.
Qed.
Lemma zadj_right n M i j : (2 <= n <= 4)%nat -> (i < n)%nat -> (j < n)%nat -> zmul n M (zadj n M) i j = zdet n M * zid i j.
Proof.
  intros H Hi Hj. destruct n as [|[|[|[|[|n]]]]]; try lia;
  destruct i as [|[|[|[|i]]]]; try lia; destruct j as [|[|[|[|j]]]]; try lia;
  unfold zmul, zadj, zdet, zminor, zstrike, zid; cbn -[Z.mul Z.add Z.sub Z.opp]; ring.
Qed.
Lemma zmul_scale n A B d i j : zmul n (fun i k => d * A i k) B i j = d * zmul n A B i j /\ zmul n A (fun k j => d * B k j) i j = d * zmul n A B i j.
Proof. unfold zmul. induction n as [|n [IH1 IH2]]; cbn; split; rewrite ?IH1, ?IH2; ring. Qed.

(** the truncated quotient of the adjugate by the determinant is the inverse iff the determinant is 1 or -1 *)
Lemma quotient_inverts n M : (2 <= n <= 4)%nat -> zdet n M <> 0 ->
  (inverts n (fun i j => Z.quot (zadj n M i j) (zdet n M)) M <-> Z.abs (zdet n M) = 1).
Proof.
  intros Hn Hd. split.
  - intros [L _]. apply zdet_ext in L. rewrite zdet_mul, zdet_id in L by auto.
    rewrite Z.mul_comm in L. destruct (Z.mul_eq_1 _ _ L) as [E|E]; rewrite E; reflexivity.
  - intros H1. assert (Q : forall i j, Z.quot (zadj n M i j) (zdet n M) = zdet n M * zadj n M i j).
    { intros i j. assert (zdet n M = 1 \/ zdet n M = -1) as [-> | ->] by lia; [rewrite Z.quot_1_r; lia|].
      change (-1) with (- (1)). rewrite Z.quot_opp_r, Z.quot_1_r by lia. lia. }
    assert (D : zdet n M * zdet n M = 1) by nia.
    split; intros i j Hi Hj.
    + transitivity (zmul n (fun i j => zdet n M * zadj n M i j) M i j).
      { apply zsum_ext. intros k Hk. rewrite Q. reflexivity. }
      rewrite (proj1 (zmul_scale _ _ _ _ _ _)), zadj_left by auto. rewrite Z.mul_assoc, D. lia.
    + transitivity (zmul n M (fun i j => zdet n M * zadj n M i j) i j).
      { apply zsum_ext. intros k Hk. rewrite Q. reflexivity. }
      rewrite (proj2 (zmul_scale _ _ _ _ _ _)), zadj_right by auto. rewrite Z.mul_assoc, D. lia.
Qed.
Lemma zsum_mod m n f g : m <> 0 -> (forall k, (k < n)%nat -> f k mod m = g k mod m) -> zsum n f mod m = zsum n g mod m.
Proof.
  intros Hm. induction n as [|n IH]; intros H; cbn; auto. rewrite Zplus_mod, IH, H by (auto; intros; apply H; lia). rewrite <- Zplus_mod. reflexivity.
Qed.
Lemma adj_inverts_mod m n M R : m <> 0 -> (2 <= n <= 4)%nat -> zdet n M mod m = 1 mod m ->
  (forall i j, (i < n)%nat -> (j < n)%nat -> R i j mod m = zadj n M i j mod m) -> inverts_mod m n R M.
Proof.
  intros Hm Hn Hd HR i j Hi Hj.
  assert (E : (zdet n M * zid i j) mod m = zid i j mod m) by (rewrite Zmult_mod, Hd, <- Zmult_mod; f_equal; lia).
  split.
  - rewrite <- E, <- (zadj_left n M i j) by auto. apply zsum_mod; auto. intros k Hk. rewrite Zmult_mod, HR, <- Zmult_mod by auto. reflexivity.
  - rewrite <- E, <- (zadj_right n M i j) by auto. apply zsum_mod; auto. intros k Hk. rewrite Zmult_mod, HR, <- Zmult_mod by auto. reflexivity.
Qed.
