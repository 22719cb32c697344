(** Smaller functions: powers and roots (C42), traces of blocks (C45), the quaternion dot product (C14)
    and the 2-D basis vectors (C52). *)
From Coq Require Import List Bool Arith Lia Ring Field ZArith Reals Lra Psatz.
From Verif Require Import Base ZInst RInst ScalarModel MiscModel QuatModel QuatSpec QuatProofs RotModel XfModel XfSpec XfProofs PropQuat PropXf.
Import ListNotations.
Open Scope nat_scope.

(** ** C42: sqr, cub, inv_sqrt, length *)
Theorem powers_and_roots : forall x y z : R,
  (sqr x = x ^ 2 /\ 0 <= sqr x /\ sqrt (sqr x) = Rabs x /\
   cub x = x ^ 3 /\ cub (- x) = - cub x /\ (x < y -> cub x < cub y) /\
   (0 < x -> 0 < inv_sqrt x /\ sqr (inv_sqrt x) * x = 1) /\
   0 <= length2 x y /\ sqr (length2 x y) = x ^ 2 + y ^ 2 /\ 0 <= length3 x y z /\ sqr (length3 x y z) = x ^ 2 + y ^ 2 + z ^ 2)%R.
Proof.
  intros x y z. unfold length2, length3, length_squared2, length_squared3, sqr, cub, inv_sqrt. cbn [add mul div one msqrt ROps RMath].
  assert (S : forall t, (0 <= t * t)%R) by (intros t; apply Rle_0_sqr).
  pose proof (S x) as Sx. pose proof (S y) as Sy. pose proof (S z) as Sz.
  split; [ring|]. split; [apply S|]. split; [apply sqrt_Rsqr_abs|]. split; [ring|]. split; [ring|]. split; [|split].
  - intros L. pose proof (S (x + y)%R) as Sxy.
    assert (P : (0 < x * x + x * y + y * y)%R).
    { assert (E : (x * x + x * y + y * y = / 2 * ((x + y) * (x + y)) + / 2 * (x * x) + / 2 * (y * y))%R) by field. rewrite E.
      destruct (Req_dec x 0) as [->|Nx]; [|pose proof (Rsqr_pos_lt x Nx); unfold Rsqr in *; lra].
      assert (y <> 0)%R by lra. pose proof (Rsqr_pos_lt y H). unfold Rsqr in *. lra. }
    assert (0 < (y - x) * (x * x + x * y + y * y))%R by (apply Rmult_lt_0_compat; lra). lra.
  - intros P. pose proof (sqrt_lt_R0 x P) as Q. split; [apply Rdiv_lt_0_compat; lra|].
    rewrite <- (sqrt_sqrt x) at 3 by lra. field. lra.
  - split; [apply sqrt_pos|]. split; [rewrite sqrt_sqrt by lra; ring|]. split; [apply sqrt_pos|]. rewrite sqrt_sqrt by lra. ring.
Qed.
Example powers_case : (inv_sqrt 4 = / 2 /\ length3 2 3 6 = 7 /\ cub (-2) = -8)%R.
Proof.
  unfold length3, length_squared3, cub, inv_sqrt. cbn [add mul div one msqrt ROps RMath].
  replace 4%R with (2 * 2)%R by ring. rewrite sqrt_square by lra.
  replace (2 * 2 + 3 * 3 + 6 * 6)%R with (7 * 7)%R by ring. rewrite sqrt_square by lra. split; [field|]. split; [auto|ring].
Qed.

(** ** C45: traces of the upper-left block *)
Definition diagonal_sum {T} {Op : Ops T} (n : nat) (m : mx T) : T := XfSpec.sum n (fun i => mel m i i).
Theorem block_trace : forall (T : Type) (Op : Ops T) (m : mx T), is_ring T ->
  (2 <= mrows m -> 2 <= mcols m -> checked_trace_2x2 m = Ok (diagonal_sum 2 m)) /\
  (3 <= mrows m -> 3 <= mcols m -> checked_trace_3x3 m = Ok (diagonal_sum 3 m)) /\
  (mrows m < 2 \/ mcols m < 2 -> checked_trace_2x2 m = Throw EMinimumMatrixSize) /\
  (mrows m < 3 \/ mcols m < 3 -> checked_trace_3x3 m = Throw EMinimumMatrixSize).
Proof.
  intros T Op m RT. unfold checked_trace_2x2, checked_trace_3x3, check_linear_2D, check_linear_3D, check_minimum_size, diagonal_sum. cbn [XfSpec.sum].
  pose proof (Radd_0_l RT) as Z. unfold trace_2x2, trace_3x3.
  repeat split; intros; repeat match goal with H : 2 <= _ |- _ => apply Nat.leb_le in H | H : 3 <= _ |- _ => apply Nat.leb_le in H end;
    repeat match goal with H : _ = true |- _ => rewrite H end; cbn [andb require bind]; rewrite ?Z; auto.
  - destruct H as [H|H]; apply Nat.leb_gt in H; rewrite H; rewrite ?andb_false_r; auto.
  - destruct H as [H|H]; apply Nat.leb_gt in H; rewrite H; rewrite ?andb_false_r; auto.
Qed.
(** The block trace belongs to the linear map, not to the way the matrix is stored. *)
Theorem block_trace_basis : forall (T : Type) (Op : Ops T) (m m' : mx T),
  mrows m = mcols m' -> mcols m = mrows m' -> (forall i j, coef m i j = coef m' i j) ->
  checked_trace_2x2 m = checked_trace_2x2 m' /\ checked_trace_3x3 m = checked_trace_3x3 m'.
Proof.
  intros T Op m m' R C E. assert (D : forall i, mel m i i = mel m' i i).
  { intros i. specialize (E i i). unfold coef in E. destruct (mbasis m), (mbasis m'); auto. }
  unfold checked_trace_2x2, checked_trace_3x3, check_linear_2D, check_linear_3D, check_minimum_size, trace_2x2, trace_3x3.
  rewrite !D, R, C. split; rewrite andb_comm; auto.
Qed.
Example block_trace_case : checked_trace_2x2 (turn 4 3 row_basis) = Ok 0%Z /\ checked_trace_3x3 (turn 4 3 row_basis) = Ok 1%Z /\
  checked_trace_3x3 (turn2 3 2 col_basis) = Throw EMinimumMatrixSize.
Proof. repeat split; reflexivity. Qed.

(** ** C14: the dot product is the symmetric bilinear form of the norm *)
Section Dot.
Context {T : Type} {Op : Ops T}.
Hypothesis RT : ring_theory (zero : T) one add mul sub neg eq.
Add Ring TRing : RT.
Lemma dot_parts o (p q : quat T) : q_dot p q = let a := parts o p in let b := parts o q in
  add (add (add (mul (hw a) (hw b)) (mul (hx a) (hx b))) (mul (hy a) (hy b))) (mul (hz a) (hz b)).
Proof. destruct p, q, o; unfold q_dot, parts, parts_of; cbn; ring. Qed.
Lemma norm_parts o (p : quat T) : norm_of (qget p) = hnorm (parts o p).
Proof. destruct p, o; unfold norm_of, parts, parts_of, hnorm; cbn; ring. Qed.
Lemma dot_laws o c (p q r : quat T) (s : T) :
  q_dot p q = q_dot q p /\
  q_dot p p = norm_of (qget p) /\
  q_dot p q = hw (hmul (parts o p) (hconj (parts o q))) /\
  q_dot p q = hw (hmul (hconj (parts o p)) (parts o q)) /\
  (forall u, parts o u = hmap2 add (parts o q) (parts o r) -> q_dot p u = add (q_dot p q) (q_dot p r)) /\
  (forall u, parts o u = hscale s (parts o q) -> q_dot p u = mul s (q_dot p q)) /\
  q_dot (q_mul o c (qget r) (qget p)) (q_mul o c (qget r) (qget q)) = mul (norm_of (qget r)) (q_dot p q) /\
  q_dot (q_mul o c (qget p) (qget r)) (q_mul o c (qget q) (qget r)) = mul (norm_of (qget r)) (q_dot p q) /\
  q_dot (to_imaginary_first p) (to_imaginary_first q) = q_dot p q.
Proof.
  rewrite !(dot_parts o), !(norm_parts o).
  assert (M : forall a b, parts o (q_mul o c (qget a) (qget b)) = hprod c (parts o a) (parts o b))
    by (intros a b; destruct c; apply (q_mul_ok RT o)).
  rewrite !M.
  split; [cbv zeta; ring|]. split; [unfold hnorm; cbv zeta; ring|].
  split; [unfold hmul, hconj; cbn; ring|]. split; [unfold hmul, hconj; cbn; ring|].
  split; [intros u E; rewrite !(dot_parts o), E; unfold hmap2; cbn; ring|].
  split; [intros u E; rewrite !(dot_parts o), E; unfold hscale, hmap; cbn; ring|].
  split; [|split].
  - destruct (parts o p), (parts o q), (parts o r), c; unfold hprod, hmul, hnorm; cbn; ring.
  - destruct (parts o p), (parts o q), (parts o r), c; unfold hprod, hmul, hnorm; cbn; ring.
  - destruct p, q, o; unfold parts, parts_of, to_imaginary_first; cbn; ring.
Qed.
End Dot.
Theorem quaternion_dot : forall (T : Type) (Op : Ops T) o c (p q r : quat T) (s : T), is_ring T ->
  q_dot p q = q_dot q p /\
  q_dot p p = norm_of (qget p) /\
  q_dot p q = hw (hmul (parts o p) (hconj (parts o q))) /\
  q_dot p q = hw (hmul (hconj (parts o p)) (parts o q)) /\
  (forall u, parts o u = hmap2 add (parts o q) (parts o r) -> q_dot p u = add (q_dot p q) (q_dot p r)) /\
  (forall u, parts o u = hscale s (parts o q) -> q_dot p u = mul s (q_dot p q)) /\
  q_dot (q_mul o c (qget r) (qget p)) (q_mul o c (qget r) (qget q)) = mul (norm_of (qget r)) (q_dot p q) /\
  q_dot (q_mul o c (qget p) (qget r)) (q_mul o c (qget q) (qget r)) = mul (norm_of (qget r)) (q_dot p q) /\
  q_dot (to_imaginary_first p) (to_imaginary_first q) = q_dot p q.
Proof. intros T Op o c p q r s RT. now apply dot_laws. Qed.
Example quaternion_dot_case : q_dot (Quat 1 2 3 4)%Z (Quat 5 6 7 8)%Z = 70%Z.
Proof. reflexivity. Qed.

(** ** C52: basis vectors of 2-D matrices *)
Theorem set_basis_vector_2D_spec : forall (T : Type) (Op : Ops T) (m : mx T) (i : Z) (v : list T), holds_linear 2 m -> (0 <= i < 2)%Z -> length v = 2 ->
  (exists m', matrix_set_basis_vector_2D m i v = Ok m' /\ same_shape m m' /\ same_elsewhere (fun a k => a < 2 /\ k = Z.to_nat i) m m' /\
    matrix_get_basis_vector_2D m' i = Ok v /\ forall j, j <> i -> matrix_get_basis_vector_2D m' j = matrix_get_basis_vector_2D m j) /\
  (exists m', matrix_set_transposed_basis_vector_2D m i v = Ok m' /\ same_shape m m' /\ same_elsewhere (fun a k => a = Z.to_nat i /\ k < 2) m m' /\
    matrix_get_transposed_basis_vector_2D m' i = Ok v /\ forall j, j <> i -> matrix_get_transposed_basis_vector_2D m' j = matrix_get_transposed_basis_vector_2D m j).
Proof.
  intros T Op m i v H Hi L. destruct v as [|a [|b [|? ?]]]; try discriminate L.
  assert (Other : forall j, j <> i -> axis_index 2 j = Throw EInvalidArgument \/ exists j', axis_index 2 j = Ok j' /\ j' <> Z.to_nat i /\ j' < 2).
  { intros j Nj. destruct (Z_lt_dec j 0); [left; apply axis_index_bad; lia|]. destruct (Z_lt_dec j 2); [|left; apply axis_index_bad; simpl; lia].
    right. exists (Z.to_nat j). rewrite axis_index_ok by (simpl; lia). split; auto. lia. }
  split.
  - unfold matrix_set_basis_vector_2D. rewrite linear_ok2, (axis_index_ok 2) by (auto; lia). cbn [bind check_size length Nat.eqb require].
    set (n := Z.to_nat i) in *. eexists. split; [reflexivity|]. set (m' := set_be _ n 1 _). assert (Sh : same_shape m m') by (unfold m'; shapes).
    assert (V : forall x y, be m' x y = if Nat.eqb x n && Nat.ltb y 2 then nth y [a; b] zero else be m x y).
    { intros x y. unfold m'. rewrite !be_setg. unfold el. destruct (Nat.eqb_spec x n); cbn [andb]; auto. destruct y as [|[|y]]; reflexivity. }
    split; [exact Sh|]. split; [|split].
    + intros x k N. rewrite !coef_be, V. destruct (Nat.eqb_spec k n), (Nat.ltb_spec x 2); simpl; auto. exfalso; apply N; auto.
    + unfold matrix_get_basis_vector_2D. rewrite linear_ok2, (axis_index_ok 2) by (try lia; eapply shape_linear; eauto). cbn [bind]. fold n. rewrite !V, Nat.eqb_refl. auto.
    + intros j Nj. unfold matrix_get_basis_vector_2D. rewrite !linear_ok2 by (auto; eapply shape_linear; eauto). cbn [bind].
      destruct (Other j Nj) as [->|(j' & -> & N' & _)]; auto. cbn [bind]. rewrite !V. destruct (Nat.eqb_spec j' n); [congruence|]. auto.
  - unfold matrix_set_transposed_basis_vector_2D. rewrite linear_ok2, (axis_index_ok 2) by (auto; lia). cbn [bind check_size length Nat.eqb require].
    set (n := Z.to_nat i) in *. eexists. split; [reflexivity|]. set (m' := set_be _ 1 n _). assert (Sh : same_shape m m') by (unfold m'; shapes).
    assert (V : forall x y, be m' x y = if Nat.eqb y n && Nat.ltb x 2 then nth x [a; b] zero else be m x y).
    { intros x y. unfold m'. rewrite !be_setg. unfold el. destruct (Nat.eqb_spec y n); rewrite ?andb_true_r, ?andb_false_r; cbn [andb]; auto. destruct x as [|[|x]]; reflexivity. }
    split; [exact Sh|]. split; [|split].
    + intros x k N. rewrite !coef_be, V. destruct (Nat.eqb_spec x n), (Nat.ltb_spec k 2); simpl; auto. exfalso; apply N; auto.
    + unfold matrix_get_transposed_basis_vector_2D. rewrite linear_ok2, (axis_index_ok 2) by (try lia; eapply shape_linear; eauto). cbn [bind]. fold n. rewrite !V, Nat.eqb_refl. auto.
    + intros j Nj. unfold matrix_get_transposed_basis_vector_2D. rewrite !linear_ok2 by (auto; eapply shape_linear; eauto). cbn [bind].
      destruct (Other j Nj) as [->|(j' & -> & N' & _)]; auto. cbn [bind]. rewrite !V. destruct (Nat.eqb_spec j' n); [congruence|]. auto.
Qed.
Theorem basis_vector_2D_errors : forall (T : Type) (Op : Ops T) (m : mx T) (i : Z) (v : list T),
  (~ holds_linear 2 m -> matrix_get_basis_vector_2D m i = Throw EMinimumMatrixSize /\ matrix_get_transposed_basis_vector_2D m i = Throw EMinimumMatrixSize /\
    matrix_set_basis_vector_2D m i v = Throw EMinimumMatrixSize /\ matrix_set_transposed_basis_vector_2D m i v = Throw EMinimumMatrixSize) /\
  (holds_linear 2 m -> length v <> 2 -> matrix_set_basis_vector_2D m i v = Throw EVectorSize /\ matrix_set_transposed_basis_vector_2D m i v = Throw EVectorSize) /\
  (holds_linear 2 m -> length v = 2 -> ~ (0 <= i < 2)%Z -> matrix_get_basis_vector_2D m i = Throw EInvalidArgument /\
    matrix_get_transposed_basis_vector_2D m i = Throw EInvalidArgument /\
    matrix_set_basis_vector_2D m i v = Throw EInvalidArgument /\ matrix_set_transposed_basis_vector_2D m i v = Throw EInvalidArgument).
Proof.
  intros T Op m i v.
  unfold matrix_get_basis_vector_2D, matrix_get_transposed_basis_vector_2D, matrix_set_basis_vector_2D, matrix_set_transposed_basis_vector_2D, check_linear_2D, check_size.
  split; [|split].
  - intros H. rewrite (linear_bad 2) by auto. auto.
  - intros [A B] L. rewrite min_okg by auto. apply Nat.eqb_neq in L. rewrite L. auto.
  - intros [A B] L I. rewrite min_okg by auto. rewrite L. cbn [bind require Nat.eqb]. rewrite axis_index_bad by (simpl; lia). auto.
Qed.
Example basis_vector_2D_case : holds_linear 2 (turn2 3 3 row_basis) /\
  (m <- matrix_set_basis_vector_2D (turn2 3 3 row_basis) 1 [8; 9]%Z ;; matrix_get_transposed_basis_vector_2D m 0) = Ok [0; 8]%Z.
Proof. repeat split; repeat constructor. Qed.

Print Assumptions powers_and_roots.
Print Assumptions block_trace.
Print Assumptions block_trace_basis.
Print Assumptions quaternion_dot.
Print Assumptions set_basis_vector_2D_spec.
Print Assumptions basis_vector_2D_errors.
