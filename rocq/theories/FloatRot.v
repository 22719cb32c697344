(** Real matrices: norms, products, and how far a matrix is from a rotation. *)
From Coq Require Import ZArith Bool List Arith Lia Reals Lra.
From Flocq Require Import Core.
From Verif Require Import FloatDot.
Open Scope R_scope.

(** ** Euclidean norm of the first [n] elements *)
Definition norm (n : nat) (f : nat -> R) : R := sqrt (rsum n (fun k => f k * f k)).
(** Frobenius norm of the first [n] rows and columns *)
Definition frob (n : nat) (M : nat -> nat -> R) : R := norm n (fun i => norm n (M i)).
(** the exact product *)
Definition mmul (n : nat) (A B : nat -> nat -> R) (i j : nat) : R := rsum n (fun k => A i k * B k j).

Lemma sq_pos x : 0 <= x * x. Proof. pose proof (Rle_0_sqr x). unfold Rsqr in *. lra. Qed.
Lemma sum_sq_pos n f : 0 <= rsum n (fun k => f k * f k). Proof. apply rsum_nonneg. intros. apply sq_pos. Qed.
Lemma norm_pos n f : 0 <= norm n f. Proof. apply sqrt_pos. Qed.
Lemma norm_sq n f : norm n f * norm n f = rsum n (fun k => f k * f k). Proof. apply sqrt_sqrt, sum_sq_pos. Qed.
Lemma norm_ext n f g : (forall k, (k < n)%nat -> f k = g k) -> norm n f = norm n g.
Proof. intros H. unfold norm. f_equal. apply rsum_ext. intros k Hk. rewrite H; auto. Qed.
Lemma sq_le x y : 0 <= y -> x * x <= y * y -> x <= y.
Proof. intros Hy H. destruct (Rle_or_lt x y); auto. assert (y * y < x * x) by (apply Rmult_le_0_lt_compat; lra). lra. Qed.
Lemma norm_le n f g : (forall k, (k < n)%nat -> Rabs (f k) <= g k) -> norm n f <= norm n g.
Proof.
  intros H. apply sqrt_le_1_alt, rsum_le. intros k Hk. specialize (H k Hk). pose proof (Rabs_pos (f k)).
  replace (f k * f k) with (Rabs (f k) * Rabs (f k)) by (rewrite <- Rabs_mult; apply Rabs_pos_eq, sq_pos). apply Rmult_le_compat; auto.
Qed.
Lemma norm_abs n f : norm n (fun k => Rabs (f k)) = norm n f.
Proof. unfold norm. f_equal. apply rsum_ext. intros k _. rewrite <- Rabs_mult. apply Rabs_pos_eq, sq_pos. Qed.
Lemma cauchy n f g : Rabs (rsum n (fun k => f k * g k)) <= norm n f * norm n g.
Proof.
  assert (Q : forall n, rsum n (fun k => f k * g k) * rsum n (fun k => f k * g k) <= rsum n (fun k => f k * f k) * rsum n (fun k => g k * g k)).
  { clear n. induction n as [|n IH]; cbn [rsum]; [lra|].
    set (S := rsum n (fun k => f k * g k)) in *. pose proof (sum_sq_pos n f) as PA. pose proof (sum_sq_pos n g) as PB. set (A := rsum n (fun k => f k * f k)) in *. set (B := rsum n (fun k => g k * g k)) in *.
    set (x := f n). set (y := g n). clearbody S A B x y.
    assert (SA : sqrt A * sqrt A = A) by (apply sqrt_sqrt; auto). assert (SB : sqrt B * sqrt B = B) by (apply sqrt_sqrt; auto).
    assert (AS : Rabs S <= sqrt A * sqrt B).
    { apply sq_le; [apply Rmult_le_pos; apply sqrt_pos|]. replace (Rabs S * Rabs S) with (S * S) by (rewrite <- Rabs_mult; symmetry; apply Rabs_pos_eq, sq_pos).
      replace (sqrt A * sqrt B * (sqrt A * sqrt B)) with (sqrt A * sqrt A * (sqrt B * sqrt B)) by ring. rewrite SA, SB. exact IH. }
    assert (2 * S * (x * y) <= A * (y * y) + B * (x * x)).
    { apply Rle_trans with (2 * (sqrt A * sqrt B) * (Rabs x * Rabs y)).
      - rewrite <- Rabs_mult. apply Rle_trans with (2 * (Rabs S * Rabs (x * y))).
        + rewrite <- Rabs_mult. pose proof (Rle_abs (S * (x * y))). lra.
        + rewrite !Rmult_assoc. apply Rmult_le_compat_l; [lra|]. rewrite <- Rmult_assoc. apply Rmult_le_compat_r; auto using Rabs_pos.
      - rewrite <- SA, <- SB at 2. replace (x * x) with (Rabs x * Rabs x) by (rewrite <- Rabs_mult; apply Rabs_pos_eq, sq_pos). replace (y * y) with (Rabs y * Rabs y) by (rewrite <- Rabs_mult; apply Rabs_pos_eq, sq_pos).
        pose proof (sq_pos (sqrt A * Rabs y - sqrt B * Rabs x)). lra. }
    lra. }
  apply sq_le; [apply Rmult_le_pos; apply norm_pos|]. rewrite <- Rabs_mult. rewrite Rabs_pos_eq by apply sq_pos.
  replace (norm n f * norm n g * (norm n f * norm n g)) with (norm n f * norm n f * (norm n g * norm n g)) by ring. rewrite !norm_sq. apply Q.
Qed.
Lemma norm_triangle n f g : norm n (fun k => f k + g k) <= norm n f + norm n g.
Proof.
  pose proof (norm_pos n f). pose proof (norm_pos n g). apply sq_le; [lra|]. rewrite norm_sq.
  rewrite (rsum_ext n _ (fun k => (f k * f k + g k * g k) + 2 * (f k * g k))) by (intros; ring).
  rewrite !rsum_plus, rsum_scal, <- !norm_sq. pose proof (cauchy n f g) as C. apply Rabs_le_inv in C. lra.
Qed.
Lemma norm_scal n c f : norm n (fun k => c * f k) = Rabs c * norm n f.
Proof.
  unfold norm. rewrite (rsum_ext n _ (fun k => (c * c) * (f k * f k))) by (intros; ring). rewrite rsum_scal, sqrt_mult by (apply sq_pos || apply sum_sq_pos).
  f_equal. fold (Rsqr c). apply sqrt_Rsqr_abs.
Qed.
Lemma norm_const n c : 0 <= c -> norm n (fun _ => c) = sqrt (INR n) * c.
Proof. intros H. unfold norm. rewrite rsum_const, sqrt_mult; [|apply pos_INR|apply sq_pos]. rewrite sqrt_square; auto. Qed.
Lemma norm_term n f k : (k < n)%nat -> Rabs (f k) <= norm n f.
Proof.
  intros Hk. apply sq_le; [apply norm_pos|]. rewrite norm_sq, <- Rabs_mult, Rabs_pos_eq by apply sq_pos.
  apply (rsum_term n (fun k => f k * f k)); auto. intros. apply sq_pos.
Qed.
Lemma norm_dist n f g : Rabs (norm n f - norm n g) <= norm n (fun k => f k - g k).
Proof.
  apply Rabs_le. pose proof (norm_triangle n (fun k => f k - g k) g) as A. rewrite (norm_ext n _ f) in A by (intros; ring).
  pose proof (norm_triangle n (fun k => -1 * (f k - g k)) f) as B. rewrite (norm_ext n _ g) in B by (intros; ring). rewrite norm_scal in B. replace (Rabs (-1)) with 1 in B by (rewrite Rabs_left; lra). lra.
Qed.

(** ** Frobenius norm *)
Lemma frob_pos n M : 0 <= frob n M. Proof. apply norm_pos. Qed.
Lemma frob_sq n M : frob n M * frob n M = rsum n (fun i => rsum n (fun j => M i j * M i j)).
Proof. unfold frob. rewrite norm_sq. apply rsum_ext. intros. apply norm_sq. Qed.
Lemma frob_ext n M M' : (forall i j, (i < n)%nat -> (j < n)%nat -> M i j = M' i j) -> frob n M = frob n M'.
Proof. intros H. apply norm_ext. intros i Hi. apply norm_ext. auto. Qed.
Lemma frob_le n M N : (forall i j, (i < n)%nat -> (j < n)%nat -> Rabs (M i j) <= N i j) -> frob n M <= frob n N.
Proof. intros H. apply norm_le. intros i Hi. rewrite Rabs_pos_eq by apply norm_pos. apply norm_le. auto. Qed.
Lemma frob_triangle n M N : frob n (fun i j => M i j + N i j) <= frob n M + frob n N.
Proof.
  unfold frob. eapply Rle_trans; [|apply norm_triangle]. apply norm_le. intros i Hi. rewrite Rabs_pos_eq by apply norm_pos. apply norm_triangle.
Qed.
Lemma frob_dist_triangle n A B C : frob n (fun i j => A i j - C i j) <= frob n (fun i j => A i j - B i j) + frob n (fun i j => B i j - C i j).
Proof. eapply Rle_trans; [|apply frob_triangle]. right. apply frob_ext. intros. ring. Qed.
Lemma frob_scal n c M : frob n (fun i j => c * M i j) = Rabs c * frob n M.
Proof. unfold frob. rewrite <- (Rabs_pos_eq (Rabs c)) by apply Rabs_pos. rewrite <- norm_scal. apply norm_ext. intros. rewrite norm_scal. reflexivity. Qed.
Lemma frob_const n c : 0 <= c -> frob n (fun _ _ => c) = INR n * c.
Proof.
  intros H. unfold frob. rewrite (norm_ext n _ (fun _ => sqrt (INR n) * c)) by (intros; apply norm_const; auto). rewrite norm_const by (apply Rmult_le_pos; [apply sqrt_pos|auto]).
  rewrite <- Rmult_assoc, sqrt_sqrt; [ring|apply pos_INR].
Qed.
Lemma frob_transpose n M : frob n (fun i j => M j i) = frob n M.
Proof.
  assert (H : frob n (fun i j => M j i) * frob n (fun i j => M j i) = frob n M * frob n M) by (rewrite !frob_sq; apply rsum_swap).
  pose proof (frob_pos n M). pose proof (frob_pos n (fun i j => M j i)). apply Rle_antisym; apply sq_le; lra.
Qed.
(** sums of products of absolute values *)
Lemma frob_product n A B : frob n (fun i j => rsum n (fun k => Rabs (A i k * B k j))) <= frob n A * frob n B.
Proof.
  apply Rle_trans with (frob n (fun i j => norm n (fun j => norm n (fun k => B k j)) * 0 + norm n (A i) * norm n (fun k => B k j))).
  - apply frob_le. intros i j Hi Hj. rewrite Rmult_0_r, Rplus_0_l. rewrite Rabs_pos_eq by (apply rsum_nonneg; intros; apply Rabs_pos).
    pose proof (cauchy n (fun k => Rabs (A i k)) (fun k => Rabs (B k j))) as C. rewrite !norm_abs in C. rewrite Rabs_pos_eq in C by (apply rsum_nonneg; intros; apply Rmult_le_pos; apply Rabs_pos).
    rewrite (rsum_ext n _ (fun k => Rabs (A i k) * Rabs (B k j))) by (intros; apply Rabs_mult). exact C.
  - right. rewrite <- (frob_transpose n B). set (b := fun j => norm n (fun k => B k j)). 
    unfold frob at 1. rewrite (norm_ext n _ (fun i => norm n b * norm n (A i))).
    + rewrite norm_scal, Rabs_pos_eq by apply norm_pos. unfold frob. fold b. ring.
    + intros i Hi. rewrite (norm_ext n _ (fun j => norm n (A i) * b j)) by (intros; unfold b; ring). rewrite norm_scal, Rabs_pos_eq by apply norm_pos. ring.
Qed.
Lemma mmul_minus n A A' B i j : mmul n (fun i k => A i k - A' i k) B i j = mmul n A B i j - mmul n A' B i j.
Proof. unfold mmul. rewrite <- rsum_minus. apply rsum_ext. intros. ring. Qed.
(** X -> X B does not lengthen rows by more than the factor [beta] *)
Definition stretches (n : nat) (beta : R) (B : nat -> nat -> R) : Prop := forall x, norm n (fun j => rsum n (fun k => x k * B k j)) <= beta * norm n x.
Lemma stretches_frob n beta B A : 0 <= beta -> stretches n beta B -> frob n (mmul n A B) <= beta * frob n A.
Proof.
  intros B0 H. unfold frob. rewrite <- (Rabs_pos_eq beta) at 1 by auto. rewrite <- norm_scal. apply norm_le. intros i Hi. rewrite Rabs_pos_eq by apply norm_pos. apply (H (A i)).
Qed.
(** each row of B is the image of a unit vector *)
Lemma stretches_size n beta B : stretches n beta B -> 0 <= beta -> frob n B <= sqrt (INR n) * beta.
Proof.
  intros H B0. unfold frob. rewrite <- norm_const by auto. apply norm_le. intros i Hi. rewrite Rabs_pos_eq by apply norm_pos.
  set (e := fun k : nat => if Nat.eqb k i then 1 else 0).
  assert (E : forall m f, rsum m (fun k => e k * f k) = if (i <? m)%nat then f i else 0).
  { induction m as [|m IH]; intros f; cbn [rsum]; [reflexivity|]. rewrite IH. unfold e. destruct (Nat.eqb_spec m i) as [->|N].
    - rewrite Nat.ltb_irrefl. replace (i <? S i)%nat with true by (symmetry; apply Nat.ltb_lt; lia). ring.
    - destruct (Nat.ltb_spec i m), (Nat.ltb_spec i (S m)); try lia; ring. }
  specialize (H e). rewrite (norm_ext n _ (B i)) in H.
  - unfold norm at 2 in H. rewrite E in H. destruct (Nat.ltb_spec i n); [|lia]. unfold e in H. rewrite Nat.eqb_refl, sqrt_1, Rmult_1_r in H. exact H.
  - intros j Hj. rewrite E. destruct (Nat.ltb_spec i n); [auto|lia].
Qed.

(** ** Products of rows *)
Definition gram (n : nat) (B : nat -> nat -> R) (i j : nat) : R := rsum n (fun k => B i k * B j k).
(** rows orthonormal up to [d] *)
Definition near_orthogonal (n : nat) (d : R) (B : nat -> nat -> R) : Prop :=
  forall i j, (i < n)%nat -> (j < n)%nat -> Rabs (gram n B i j - (if Nat.eqb i j then 1 else 0)) <= d.
Lemma rsum_mult m n f g : rsum m f * rsum n g = rsum m (fun i => rsum n (fun j => f i * g j)).
Proof. induction m as [|m IH]; cbn [rsum]; [ring|]. rewrite Rmult_plus_distr_r, IH, rsum_scal. reflexivity. Qed.
Lemma rsum_delta n i (f : nat -> R) : (i < n)%nat -> rsum n (fun j => (if Nat.eqb i j then 1 else 0) * f j) = f i.
Proof.
  revert i. induction n as [|n IH]; intros i Hi; [lia|]. cbn [rsum]. destruct (Nat.eqb_spec i n) as [->|N].
  - rewrite (rsum_ext n _ (fun _ => 0)); [rewrite rsum_const; ring|]. intros k Hk. destruct (Nat.eqb_spec n k); [lia|ring].
  - rewrite IH by lia. ring.
Qed.
Lemma image_sq n B x : norm n (fun j => rsum n (fun k => x k * B k j)) * norm n (fun j => rsum n (fun k => x k * B k j)) = rsum n (fun i => rsum n (fun k => x i * x k * gram n B i k)).
Proof.
  rewrite norm_sq. rewrite (rsum_ext n _ (fun j => rsum n (fun i => rsum n (fun k => x i * x k * (B i j * B k j))))).
  2: { intros j Hj. rewrite rsum_mult. apply rsum_ext. intros i Hi. apply rsum_ext. intros k Hk. ring. }
  rewrite rsum_swap. apply rsum_ext. intros i Hi. rewrite rsum_swap. apply rsum_ext. intros k Hk. unfold gram. rewrite rsum_scal. reflexivity.
Qed.
Lemma image_length n d B x : near_orthogonal n d B -> let r := norm n (fun j => rsum n (fun k => x k * B k j)) in Rabs (r * r - norm n x * norm n x) <= INR n * d * (norm n x * norm n x).
Proof.
  intros H r. unfold r. rewrite image_sq. replace (norm n x * norm n x) with (rsum n (fun i => rsum n (fun k => (if Nat.eqb i k then 1 else 0) * (x i * x k)))) at 1.
  2: { rewrite norm_sq. apply rsum_ext. intros i Hi. rewrite (rsum_delta n i (fun k => x i * x k)); auto. }
  rewrite <- rsum_minus. eapply Rle_trans; [apply rsum_abs|]. 
  assert (D0 : forall i, (i < n)%nat -> 0 <= d) by (intros i Hi; eapply Rle_trans; [apply Rabs_pos|apply (H i i Hi Hi)]).
  apply Rle_trans with (rsum n (fun i => rsum n (fun k => d * (Rabs (x i) * Rabs (x k))))).
  - apply rsum_le. intros i Hi. rewrite <- rsum_minus. eapply Rle_trans; [apply rsum_abs|]. apply rsum_le. intros k Hk.
    match goal with |- Rabs ?e <= _ => replace e with ((gram n B i k - (if Nat.eqb i k then 1 else 0)) * (x i * x k)) by ring end.
    rewrite Rabs_mult, (Rabs_mult (x i)). apply Rmult_le_compat_r; [apply Rmult_le_pos; apply Rabs_pos|]. apply H; auto.
  - rewrite (rsum_ext n _ (fun i => d * (Rabs (x i) * rsum n (fun k => Rabs (x k))))) by (intros; rewrite rsum_scal, rsum_scal; ring). rewrite rsum_scal.
    rewrite (rsum_ext n (fun i => Rabs (x i) * _) (fun i => rsum n (fun k => Rabs (x k)) * Rabs (x i))) by (intros; ring). rewrite rsum_scal.
    destruct n as [|n]; [cbn; lra|]. specialize (D0 0%nat ltac:(lia)). set (s := rsum (S n) (fun k => Rabs (x k))).
    assert (S0 : 0 <= s) by (apply rsum_nonneg; intros; apply Rabs_pos).
    assert (C : s * s <= INR (S n) * (norm (S n) x * norm (S n) x)).
    { pose proof (cauchy (S n) (fun _ => 1) (fun k => Rabs (x k))) as C. rewrite norm_abs, (norm_const (S n) 1 ltac:(lra)), Rmult_1_r in C.
      rewrite (rsum_ext (S n) (fun k => 1 * Rabs (x k)) (fun k => Rabs (x k))) in C by (intros; ring). fold s in C. rewrite Rabs_pos_eq in C by auto.
      apply Rle_trans with ((sqrt (INR (S n)) * norm (S n) x) * (sqrt (INR (S n)) * norm (S n) x)); [apply Rmult_le_compat; auto|]. right.
      replace (sqrt (INR (S n)) * norm (S n) x * (sqrt (INR (S n)) * norm (S n) x)) with (sqrt (INR (S n)) * sqrt (INR (S n)) * (norm (S n) x * norm (S n) x)) by ring. rewrite sqrt_sqrt by apply pos_INR. reflexivity. }
    rewrite (Rmult_comm (INR (S n))), Rmult_assoc. apply Rmult_le_compat_l; auto.
Qed.
Lemma sqrt_near x t : 0 <= x -> 0 <= t -> 0 <= x -> forall y, 0 <= y -> Rabs (y * y - x * x) <= t * (x * x) -> Rabs (y - x) <= t * x.
Proof.
  intros X T0 _ y Y H. apply Rabs_le_inv in H. apply Rabs_le. destruct (Req_dec x 0) as [->|N].
  - assert (y <= 0) by (apply sq_le; lra). lra.
  - assert (x > 0) by lra. assert (y * y - x * x = (y - x) * (y + x)) by ring.
    destruct (Rle_or_lt x y) as [L|L].
    + split; [assert (0 <= t * x) by (apply Rmult_le_pos; lra); lra|]. assert ((y - x) * x <= t * (x * x)) by (apply Rle_trans with ((y - x) * (y + x)); [apply Rmult_le_compat_l; lra|lra]).
      apply Rmult_le_reg_r with x; [lra|]. lra.
    + split; [|assert (0 <= t * x) by (apply Rmult_le_pos; lra); lra]. assert ((x - y) * x <= t * (x * x)) by (apply Rle_trans with ((x - y) * (y + x)); [apply Rmult_le_compat_l; lra|lra]).
      assert (x - y <= t * x) by (apply Rmult_le_reg_r with x; lra). lra.
Qed.
(** an almost orthogonal matrix almost keeps lengths *)
Theorem almost_isometry n d B x : near_orthogonal n d B -> 0 <= d -> Rabs (norm n (fun j => rsum n (fun k => x k * B k j)) - norm n x) <= INR n * d * norm n x.
Proof. intros H D0. apply sqrt_near; try apply norm_pos; [apply Rmult_le_pos; [apply pos_INR|auto]|]. apply (image_length n d B x H). Qed.
Lemma almost_stretches n d B : near_orthogonal n d B -> 0 <= d -> stretches n (1 + INR n * d) B.
Proof. intros H D0 x. pose proof (almost_isometry n d B x H D0) as A. apply Rabs_le_inv in A. lra. Qed.
(** a matrix close to an almost orthogonal one *)
Lemma near_orthogonal_close n d e rho B B' : near_orthogonal n d B -> 0 <= e -> (forall i, (i < n)%nat -> norm n (B i) <= rho) -> (forall i j, (i < n)%nat -> (j < n)%nat -> Rabs (B' i j - B i j) <= e) ->
  near_orthogonal n (d + 2 * rho * (sqrt (INR n) * e) + INR n * (e * e)) B'.
Proof.
  intros H E0 HR HE i j Hi Hj. 
  assert (NE : forall i, (i < n)%nat -> norm n (fun k => B' i k - B i k) <= sqrt (INR n) * e) by (intros k Hk; rewrite <- norm_const by auto; apply norm_le; auto).
  replace (gram n B' i j) with (gram n B i j + rsum n (fun k => B i k * (B' j k - B j k)) + rsum n (fun k => B j k * (B' i k - B i k)) + rsum n (fun k => (B' i k - B i k) * (B' j k - B j k))).
  2: { unfold gram. rewrite <- !rsum_plus. apply rsum_ext. intros. ring. }
  pose proof (cauchy n (B i) (fun k => B' j k - B j k)) as C1. pose proof (cauchy n (B j) (fun k => B' i k - B i k)) as C2. pose proof (cauchy n (fun k => B' i k - B i k) (fun k => B' j k - B j k)) as C3.
  specialize (H i j Hi Hj).
  assert (M1 : norm n (B i) * norm n (fun k => B' j k - B j k) <= rho * (sqrt (INR n) * e)) by (apply Rmult_le_compat; auto using norm_pos).
  assert (M2 : norm n (B j) * norm n (fun k => B' i k - B i k) <= rho * (sqrt (INR n) * e)) by (apply Rmult_le_compat; auto using norm_pos).
  assert (M3 : norm n (fun k => B' i k - B i k) * norm n (fun k => B' j k - B j k) <= INR n * (e * e)).
  { apply Rle_trans with (sqrt (INR n) * e * (sqrt (INR n) * e)); [apply Rmult_le_compat; auto using norm_pos|]. replace (sqrt (INR n) * e * (sqrt (INR n) * e)) with (sqrt (INR n) * sqrt (INR n) * (e * e)) by ring. rewrite sqrt_sqrt by apply pos_INR. lra. }
  apply Rabs_le_inv in C1. apply Rabs_le_inv in C2. apply Rabs_le_inv in C3. apply Rabs_le_inv in H. apply Rabs_le. lra.
Qed.
Lemma near_orthogonal_rows n d B i : near_orthogonal n d B -> (i < n)%nat -> norm n (B i) * norm n (B i) <= 1 + d.
Proof. intros H Hi. rewrite norm_sq. specialize (H i i Hi Hi). rewrite Nat.eqb_refl in H. apply Rabs_le_inv in H. unfold gram in H. lra. Qed.
Lemma near_orthogonal_frob n d B : near_orthogonal n d B -> frob n B * frob n B <= INR n * (1 + d).
Proof.
  intros H. unfold frob. rewrite norm_sq. rewrite <- rsum_const. apply rsum_le. intros i Hi. apply near_orthogonal_rows; auto.
Qed.
