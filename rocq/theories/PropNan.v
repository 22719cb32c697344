(** C83: infinities and NaN are not hidden.  IEEE arithmetic of any precision (FloatModel.v). *)
From Coq Require Import ZArith Bool List Arith Lia.
From Flocq Require Import Core BinarySingleNaN.
From Verif Require Import Base RotModel QuatModel MatModel MatSpec MatOps VecModel LUModel XfModel ExactProducts Formula FloatModel Absorb.
From Verif Require ExactLU.
From Coq Require FinFun.
Import ListNotations.
Open Scope nat_scope.

(** ** Specification *)
Inductive kind : Type := not_finite | not_a_number.
Section IEEE.
Context (prec emax : Z) {Hprec : Prec_gt_0 prec} {Hmax : Prec_lt_emax prec emax}.
Notation F := (binary_float prec emax).
Definition bad (k : kind) (x : F) : Prop := match k with not_finite => is_finite x = false | not_a_number => is_nan x = true end.

Lemma bad_absorbing k : absorbing (bad k).
Proof.
  destruct k; split; cbn [bad add sub mul neg div BOps].
  - intros x y H. destruct x as [[|]|[|]| |], y as [[|]|[|]| |]; cbn in *; auto; destruct H; discriminate.
  - intros x y H. destruct x as [[|]|[|]| |], y as [[|]|[|]| |]; cbn in *; auto; destruct H; discriminate.
  - intros x y H. destruct x as [[|]|[|]| |], y as [[|]|[|]| |]; cbn in *; auto; destruct H; discriminate.
  - intros x H. destruct x; cbn in *; auto.
  - intros x y H. destruct x as [[|]|[|]| |], y as [[|]|[|]| |]; cbn in *; auto; discriminate.
  - intros x y H. destruct x as [[|]|[|]| |], y as [[|]|[|]| |]; cbn in *; auto; destruct H; discriminate.
  - intros x y H. destruct x as [[|]|[|]| |], y as [[|]|[|]| |]; cbn in *; auto; destruct H; discriminate.
  - intros x y H. destruct x as [[|]|[|]| |], y as [[|]|[|]| |]; cbn in *; auto; destruct H; discriminate.
  - intros x H. destruct x; cbn in *; auto.
  - intros x y H. destruct x as [[|]|[|]| |], y as [[|]|[|]| |]; cbn in *; auto; discriminate.
Qed.
Lemma nan_divisor : absorbing_divisor (bad not_a_number).
Proof. intros x y H. cbn in *. destruct x as [[|]|[|]| |], y as [[|]|[|]| |]; cbn in *; auto; discriminate. Qed.
Lemma sqrt_bad k (x : F) : bad k x -> bad k (Bsqrt mode_NE x).
Proof. destruct k; cbn; intros H; destruct x as [[|]|[|]| |]; cbn in *; auto; discriminate. Qed.
Lemma Ok_inv {A : Type} (x y : A) : Ok x = Ok y -> y = x.
Proof. intros H. injection H as ->. reflexivity. Qed.
Lemma in_el (v : list F) x : In x v -> exists i, i < length v /\ el v i = x.
Proof. intros H. destruct (In_nth v x zero H) as (i & Hi & E). exists i. auto. Qed.
Lemma el_elems n (f : nat -> F) i : i < n -> el (elems n f) i = f i.
Proof.
  intros H. unfold el, elems. rewrite (nth_indep _ zero (f 0)) by (rewrite map_length, seq_length; auto).
  rewrite (map_nth f), seq_nth by auto. reflexivity.
Qed.

(** ** Vectors *)
Theorem dot_not_hidden : forall k (v w : list F) d, vdot v w = Ok d -> (exists x, (In x v \/ In x w) /\ bad k x) -> bad k d.
Proof.
  intros k v w d E (x & Hx & B). unfold vdot, check_vmin, check_vsame, require in E.
  destruct (Nat.leb_spec 1 (length v)); [|discriminate]. destruct (Nat.leb_spec 1 (length w)); [|discriminate].
  destruct (Nat.eqb_spec (length v) (length w)) as [L|]; [|discriminate]. cbn [bind] in E. injection E as <-.
  destruct Hx as [Hx|Hx]; destruct (in_el _ _ Hx) as (i & Hi & <-); apply (products_bad _ (bad_absorbing k) _ _ _ i); auto; lia.
Qed.
Theorem length_not_hidden : forall (MO : MathOps F), ieee_math prec emax MO -> forall k (v : list F) l x, In x v -> bad k x ->
  (vlength_squared v = Ok l \/ vlength v = Ok l) -> bad k l.
Proof.
  intros MO (Sq & _) k v l x Hx B E. destruct (in_el _ _ Hx) as (i & Hi & <-).
  assert (A : bad k (accumulate (length v) (fun i => mul (el v i) (el v i)))) by (apply (products_bad _ (bad_absorbing k) _ _ _ i); auto).
  unfold vlength, vlength_squared, check_vmin, require in E. destruct (Nat.leb 1 (length v)); [|destruct E; discriminate]. cbn [bind] in E.
  destruct E as [E|E]; injection E as <-; [exact A|]. rewrite Sq. apply sqrt_bad, A.
Qed.
(** normalize: the component stays bad; NaN spreads to all of them *)
Theorem normalize_not_hidden : forall (MO : MathOps F), ieee_math prec emax MO -> forall k (v w : list F), vnormalize v = Ok w -> length w = length v /\
  (forall i, i < length v -> bad k (el v i) -> bad k (el w i)) /\
  ((exists x, In x v /\ bad not_a_number x) -> forall i, i < length v -> bad not_a_number (el w i)).
Proof.
  intros MO HM k v w E. unfold vnormalize in E. destruct (vlength v) as [l| |] eqn:L; try discriminate. cbn [bind] in E. injection E as <-. unfold vdiv.
  split; [unfold elems; rewrite map_length, seq_length; reflexivity|]. split.
  - intros i Hi B. rewrite el_elems by auto. apply (ab_div _ (bad_absorbing k)). exact B.
  - intros (x & Hx & B) i Hi. rewrite el_elems by auto. apply nan_divisor. apply (length_not_hidden MO HM not_a_number v l x Hx B). auto.
Qed.
Theorem cross_not_hidden : forall k (v w r : list F), vcross3 v w = Ok r -> forall j, j < 3 -> bad k (el v j) \/ bad k (el w j) ->
  length r = 3 /\ forall i, i < 3 -> i <> j -> bad k (el r i).
Proof.
  intros k v w r E j Hj B. unfold vcross3, check_size, require in E. destruct (Nat.eqb _ 3); [|discriminate]. destruct (Nat.eqb _ 3); [|discriminate].
  cbn [bind] in E. injection E as <-. split; [reflexivity|]. intros i Hi Hn. pose proof (bad_absorbing k) as A.
  destruct B as [B|B]; (destruct i as [|[|[|i]]]; [..|lia]); (destruct j as [|[|[|j]]]; try lia); rewrite el_elems by lia; apply (ab_sub _ A);
  first [left; apply (ab_mul _ A); (left; exact B) || (right; exact B)|right; apply (ab_mul _ A); (left; exact B) || (right; exact B)].
Qed.
Theorem triple_not_hidden : forall k (u v w : list F) d, vtriple u v w = Ok d -> (exists x, (In x u \/ In x v \/ In x w) /\ bad k x) -> bad k d.
Proof.
  intros k u v w d E (x & Hx & B). unfold vtriple in E.
  destruct (check_size u 3) eqn:Eu; try discriminate. destruct (check_size v 3) eqn:Ev; try discriminate. destruct (check_size w 3) eqn:Ew; try discriminate. cbn [bind] in E.
  destruct (vcross3 v w) as [c| |] eqn:C; try discriminate. cbn [bind] in E.
  apply (dot_not_hidden k u c d E).
  assert (Lv : length v = 3 /\ length w = 3).
  { unfold check_size, require in Ev, Ew. destruct (Nat.eqb_spec (length v) 3); [|discriminate]. destruct (Nat.eqb_spec (length w) 3); [|discriminate]. auto. }
  destruct Hx as [Hx|Hx]; [exists x; auto|].
  assert (X : exists j, j < 3 /\ (bad k (el v j) \/ bad k (el w j))).
  { destruct Hx as [Hx|Hx]; destruct (in_el _ _ Hx) as (j & Hj & <-); exists j; (split; [lia|auto]). }
  destruct X as (j & Hj & Bj). destruct (cross_not_hidden k v w c C j Hj Bj) as [Lc Hc].
  assert (Y : exists i, i < 3 /\ i <> j) by (destruct j; [exists 1|exists 0]; lia). destruct Y as (i & Hi & Hn).
  exists (el c i). split; [right; unfold el; apply nth_In; lia|apply Hc; auto].
Qed.

(** ** Matrices *)
Theorem product_not_hidden : forall k (a b : rmat F) r n c A B bs l kd, reads a r n A -> reads b n c B -> 0 < n ->
  exists m M, product a b bs l kd = Ok m /\ is_mat m r c M /\
    forall i j q, i < r -> j < c -> q < n -> bad k (A i q) \/ bad k (B q j) -> bad k (M i j).
Proof.
  intros k a b r n c A B bs l kd Ha Hb Hn. destruct (product_acc a b r n c A B bs l kd Ha Hb Hn) as (m & E & _ & _ & _ & I).
  eexists m, _. split; [exact E|]. split; [exact I|]. intros i j q Hi Hj Hq H. apply (products_bad _ (bad_absorbing k) _ _ _ q); auto.
Qed.
Theorem matrix_vector_not_hidden : forall k (a : rmat F) (v : list F) r n A, reads a r n A -> length v = n -> 0 < n ->
  exists w, mat_vec a v = Ok w /\ length w = r /\ forall i q, i < r -> q < n -> bad k (A i q) \/ bad k (el v q) -> bad k (el w i).
Proof.
  intros k a v r n A Ha L Hn. rewrite (mat_vec_acc a v r n A zero Ha L Hn). eexists. split; [reflexivity|]. split; [rewrite map_length, seq_length; auto|].
  intros i q Hi Hq H. change (map _ (seq 0 r)) with (elems r (fun i => accumulate n (fun q => mul (A i q) (nth q v zero)))). rewrite el_elems by auto.
  apply (products_bad _ (bad_absorbing k) _ _ _ q); auto.
Qed.
Theorem vector_matrix_not_hidden : forall k (v : list F) (b : rmat F) n c B, length v = n -> reads b n c B -> 0 < n ->
  exists w, vec_mat v b = Ok w /\ length w = c /\ forall j q, j < c -> q < n -> bad k (el v q) \/ bad k (B q j) -> bad k (el w j).
Proof.
  intros k v b n c B L Hb Hn. rewrite (vec_mat_acc v b n c B zero L Hb Hn). eexists. split; [reflexivity|]. split; [rewrite map_length, seq_length; auto|].
  intros j q Hj Hq H. change (map _ (seq 0 c)) with (elems c (fun j => accumulate n (fun q => mul (nth q v zero) (B q j)))). rewrite el_elems by auto.
  apply (products_bad _ (bad_absorbing k) _ _ _ q); auto.
Qed.
(** transformations: component j of the result reads column j and every coordinate *)
Lemma three_bad k (a b c : F) : bad k a \/ bad k b \/ bad k c -> bad k (add (add a b) c).
Proof. intros H. pose proof (bad_absorbing k) as A. apply (ab_add _ A). destruct H as [H|[H|H]]; [left..|right; exact H]; apply (ab_add _ A); auto. Qed.
Theorem transform_vector_not_hidden : forall k (m : mx F) v r, transform_vector m v = Ok r -> length r = 3 /\
  forall i j, i < 3 -> j < 3 -> bad k (be m i j) \/ bad k (el v i) -> bad k (el r j).
Proof.
  intros k m v r E. pose proof (bad_absorbing k) as A. unfold transform_vector in E. destruct (check_minimum_size m 3 3); try discriminate. destruct (check_size v 3); try discriminate.
  cbn [bind] in E. injection E as <-. split; [reflexivity|]. intros i j Hi Hj H. assert (H' : bad k (mul (be m i j) (el v i))) by (apply (ab_mul _ A); exact H).
  destruct j as [|[|[|j]]]; [..|lia]; apply three_bad; destruct i as [|[|[|i]]]; try lia; auto.
Qed.
Theorem transform_point_not_hidden : forall k (m : mx F) v r, transform_point m v = Ok r -> length r = 3 /\
  (forall i j, i < 3 -> j < 3 -> bad k (be m i j) \/ bad k (el v i) -> bad k (el r j)) /\ forall j, j < 3 -> bad k (be m 3 j) -> bad k (el r j).
Proof.
  intros k m v r E. pose proof (bad_absorbing k) as A. unfold transform_point in E. destruct (check_affine_3D m); try discriminate. destruct (check_size v 3); try discriminate.
  cbn [bind] in E. injection E as <-. split; [reflexivity|]. split.
  - intros i j Hi Hj H. assert (H' : bad k (mul (be m i j) (el v i))) by (apply (ab_mul _ A); exact H).
    destruct j as [|[|[|j]]]; [..|lia]; apply (ab_add _ A); left; apply three_bad; destruct i as [|[|[|i]]]; try lia; auto.
  - intros j Hj H. destruct j as [|[|[|j]]]; [..|lia]; apply (ab_add _ A); right; exact H.
Qed.

(** ** Quaternions *)
Theorem quaternion_product_not_hidden : forall k o c (p q : quat F) i, i < 4 -> bad k (qget p i) \/ bad k (qget q i) ->
  forall j, j < 4 -> bad k (qget (q_mul o c (qget p) (qget q)) j).
Proof.
  intros k o c p q i Hi B j Hj. pose proof (bad_absorbing k) as A.
  pose (rho := fun n => if n <? 4 then qget p n else qget q (n - 4)).
  pose (V := fun b => Quat (FVar b) (FVar (b + 1)) (FVar (b + 2)) (FVar (b + 3))).
  pose (e := qget (q_mul o c (qget (V 0)) (qget (V 4))) j).
  assert (E : qget (q_mul o c (qget p) (qget q)) j = feval rho e).
  { unfold e. destruct o, c, j as [|[|[|[|j]]]]; try lia; reflexivity. }
  rewrite E. destruct B as [B|B].
  - apply (formula_bad _ A rho e i); [|unfold rho; rewrite (proj2 (Nat.ltb_lt i 4) Hi); exact B].
    unfold e. destruct o, c, j as [|[|[|[|j]]]]; try lia; destruct i as [|[|[|[|i]]]]; try lia; reflexivity.
  - apply (formula_bad _ A rho e (i + 4)); [|unfold rho; rewrite (proj2 (Nat.ltb_ge (i + 4) 4)), Nat.add_sub by lia; exact B].
    unfold e. destruct o, c, j as [|[|[|[|j]]]]; try lia; destruct i as [|[|[|[|i]]]]; try lia; reflexivity.
Qed.
Theorem quaternion_norm_not_hidden : forall (MO : MathOps F), ieee_math prec emax MO -> forall k (q : quat F) i, i < 4 -> bad k (qget q i) ->
  bad k (norm_of (qget q)) /\ bad k (length_of (qget q)).
Proof.
  intros MO (Sq & _) k q i Hi B. pose proof (bad_absorbing k) as A.
  assert (X : bad k (norm_of (qget q))).
  { assert (H' : bad k (mul (qget q i) (qget q i))) by (apply (ab_mul _ A); auto).
    unfold norm_of. apply (ab_add _ A). destruct i as [|[|[|[|i]]]]; try lia; [left; apply three_bad; auto..|right; exact H']. }
  split; [exact X|]. unfold length_of. rewrite Sq. apply sqrt_bad, X.
Qed.
(** inverse and normalize: the component stays bad; NaN spreads to all of them *)
Theorem quaternion_inverse_not_hidden : forall (MO : MathOps F), ieee_math prec emax MO -> forall k o (q : quat F) i, i < 4 -> bad k (qget q i) ->
  bad k (qget (q_inverse o q) i) /\ bad k (qget (q_normalize q) i) /\
  (k = not_a_number -> forall j, j < 4 -> bad k (qget (q_inverse o q) j) /\ bad k (qget (q_normalize q) j)).
Proof.
  intros MO HM k o q i Hi B. pose proof (bad_absorbing k) as A. destruct (quaternion_norm_not_hidden MO HM k q i Hi B) as [N L].
  assert (I : forall j, j < 4 -> exists x, (x = qget q j \/ x = neg (qget q j)) /\ qget (q_inverse o q) j = div x (norm_of (qget q))).
  { intros j Hj. destruct o, j as [|[|[|[|j]]]]; try lia; eexists; (split; [|reflexivity]); auto. }
  assert (Nz : forall j, j < 4 -> qget (q_normalize q) j = div (qget q j) (length_of (qget q))).
  { intros j Hj. destruct j as [|[|[|[|j]]]]; try lia; reflexivity. }
  split; [|split].
  - destruct (I i Hi) as (x & [-> | ->] & ->); apply (ab_div _ A); [exact B|apply (ab_neg _ A); exact B].
  - rewrite Nz by auto. apply (ab_div _ A). exact B.
  - intros -> j Hj. destruct (I j Hj) as (x & _ & ->). rewrite Nz by auto. split; apply nan_divisor; assumption.
Qed.

(** ** Determinants, inverses, linear systems *)
Theorem determinant_not_hidden : forall k fabs eps (m : mx F) d i j, determinant fabs eps m = Ok d -> i < mrows m -> j < mrows m -> bad k (mel m i j) ->
  2 <= mrows m <= 4 \/ snd (lu_pivot_inplace fabs eps (mrows m) (mel m)) <> sgn_zero -> bad k d.
Proof.
  intros k fabs eps m d i j E Hi Hj B Sg. rewrite (determinant_value fabs eps m d E). exact (det_bad (bad k) (bad_absorbing k) fabs eps (mrows m) (mel m) i j Hi Hj B Sg).
Qed.
(** entry (a, b) of a small inverse reads every element outside row b and column a; NaN reaches every entry *)
Theorem small_inverse_not_hidden : forall k fabs (m r : mx F) i j, matrix_inverse fabs m = Ok r -> 2 <= mrows m <= 4 -> i < mrows m -> j < mrows m -> bad k (mel m i j) ->
  forall a b, a < mrows m -> b < mrows m -> (a <> j /\ b <> i) \/ k = not_a_number -> bad k (mel r a b).
Proof.
  intros k fabs m r i j E Hn Hi Hj B a b Ha Hb X.
  assert (Y : (a <> j /\ b <> i) \/ absorbing_divisor (bad k)) by (destruct X as [X| ->]; [left; exact X|right; exact nan_divisor]).
  rewrite (inverse_value fabs m r E). exact (inv_bad (bad k) (bad_absorbing k) fabs (mrows m) (mel m) i j Hn Hi Hj B a b Ha Hb Y).
Qed.
(** of any other size: a NaN in the matrix is found in the result *)
Theorem large_inverse_not_hidden : forall fabs (m r : mx F) i j, matrix_inverse fabs m = Ok r -> mrows m < 2 \/ 4 < mrows m -> i < mrows m -> j < mrows m -> is_nan (mel m i j) = true ->
  exists a b, a < mrows m /\ b < mrows m /\ is_nan (mel r a b) = true.
Proof.
  intros fabs m r i j E Hn Hi Hj B. rewrite (large_inverse_value fabs m r E Hn).
  destruct (inverse_pivot_bad (bad not_a_number) (bad_absorbing not_a_number) fabs (mrows m) (mel m) nan_divisor) as (a & b & Ha & Hb & Z); [exists i, j; auto|].
  exists a, b. split; [exact Ha|]. split; [exact Hb|exact Z].
Qed.

(** linear systems: lu then lu_solve.  Unknown i reads row i of the matrix and b(i) *)
Theorem lu_solve_not_hidden : forall k (m p : mx F) (b x : list F) i, lu m = Ok p -> lu_solve p b = Ok x -> i < mrows m ->
  bad k (el b i) \/ (exists j, j < mrows m /\ bad k (mel m i j) /\ (j <> i \/ k = not_a_number)) -> bad k (el x i).
Proof.
  intros k m p b x i E1 E2 Hi B. pose proof (bad_absorbing k) as A. unfold lu, require in E1. destruct (Nat.eqb_spec (mrows m) (mcols m)) as [Sq|]; [|discriminate].
  cbn [bind] in E1. apply Ok_inv in E1. subst p. unfold lu_solve, lu_solve_to, require in E2. cbn [mrows mcols mel] in E2.
  destruct (Nat.eqb (mrows m) (mcols m)); [|discriminate]. cbn [bind] in E2. destruct (Nat.eqb _ _); [|discriminate]. cbn [bind] in E2.
  destruct (Nat.eqb_spec (mcols m) (length b)) as [L|]; [|discriminate]. cbn [bind] in E2. apply Ok_inv in E2. subst x. fold (elems (length b) (backward (length b) (lu_inplace (mrows m) (mel m)) (forward (length b) (lu_inplace (mrows m) (mel m)) (el b)) (el (repeat zero (length b))))).
  rewrite el_elems by lia. replace (mrows m) with (length b) by lia.
  pose proof (fun a c => lu_bad (bad k) A (length b) (mel m) a c) as L1.
  destruct B as [B|(j & Hj & B & N)].
  - apply (backward_bad (bad k) A); [lia|]. left. apply (forward_bad (bad k) A); [lia|left; exact B].
  - apply L1 in B. apply (backward_bad (bad k) A); [lia|]. destruct (lt_eq_lt_dec j i) as [[H|H]|H].
    + left. apply (forward_bad (bad k) A); [lia|right; exists j; auto].
    + right. right. destruct N as [N| ->]; [contradiction|]. subst j. split; [exact nan_divisor|exact B].
    + right. left. exists j. split; [lia|exact B].
Qed.
(** lu_pivot then lu_solve *)
Theorem pivoted_solve_not_hidden : forall k fabs eps (m : mx F) p (b x : list F) i, lu_pivot fabs eps m = Ok p -> lu_pivot_solve p b = Ok x -> i < mrows m ->
  bad k (el b i) \/ (k = not_a_number /\ exists j, j < mrows m /\ bad k (mel m i j)) -> exists a, a < mrows m /\ bad k (el x a).
Proof.
  intros k fabs eps m p b x i E1 E2 Hi B. pose proof (bad_absorbing k) as A. unfold lu_pivot, require in E1. destruct (Nat.eqb_spec (mrows m) (mcols m)) as [Sq|]; [|discriminate].
  cbn [bind] in E1. destruct (lu_pivot_inplace fabs eps (mrows m) (mel m)) as [[M o] s] eqn:EP. apply Ok_inv in E1. subst p.
  unfold lu_pivot_solve, lu_pivot_solve_to, require in E2. cbn [lp_lu lp_order lp_sign mrows mcols mel] in E2.
  destruct (Nat.eqb _ _); [|discriminate]. cbn [bind] in E2. destruct (Nat.eqb_spec (mcols m) (length b)) as [L|]; [|discriminate]. cbn [bind] in E2.
  assert (Sg : s <> sgn_zero) by (intros ->; discriminate E2).
  assert (E3 : Ok (elems (length b) (backward (length b) M (forward (length b) M (fun i => el b (nth i (map o (seq 0 (mrows m))) 0))) (el (repeat zero (length b))))) = Ok x) by (destruct s; [exact E2|exact E2|contradiction]).
  clear E2. apply Ok_inv in E3. subst x. destruct (ExactLU.lu_pivot_entries fabs eps (mrows m) (mel m) M o s EP Sg) as (R & I & _).
  destruct B as [B|(-> & j & Hj & B)].
  - assert (Su : exists a, a < mrows m /\ o a = i) by (destruct (proj1 (FinFun.bInjective_bSurjective (n := mrows m) (f := o) R) I i Hi) as (a & Ha & Ea); exists a; auto).
    destruct Su as (a & Ha & Ea). exists a. split; [exact Ha|]. rewrite el_elems by lia. apply (backward_bad (bad k) A); [lia|]. left. apply (forward_bad (bad k) A); [lia|]. left.
    rewrite (nth_indep _ 0 (o 0)) by (rewrite map_length, seq_length; lia). rewrite map_nth, seq_nth by lia. cbn [plus]. rewrite Ea. exact B.
  - destruct (pivot_diagonal (bad not_a_number) A fabs eps (mrows m) (mel m) M o s i j Hi Hj B EP Sg) as (d & Hd & D). exists d. split; [exact Hd|].
    rewrite el_elems by lia. apply (backward_bad (bad not_a_number) A); [lia|]. right. right. split; [exact nan_divisor|exact D].
Qed.
End IEEE.

(** ** What is hidden *)
Notation nan := (B754_nan : double).
Notation inf := (B754_infinity false : double).
Definition dz (z : Z) : double := binary_normalize 53 1024 eq_refl eq_refl mode_NE z 0 false.
Definition d_eps : double := binary_normalize 53 1024 eq_refl eq_refl mode_NE 1 (-52) false.
Definition square (n : nat) (f : nat -> nat -> double) : mx double := Mx n n col_basis f.
(** a determinant of size 5 whose first column is zero: 0, although the matrix contains NaN *)
Theorem large_determinant_hidden_refuted : exists (m : mx double) d, mrows m = 5 /\ mcols m = 5 /\ is_nan (mel m 0 1) = true /\
  determinant Babs d_eps m = Ok d /\ is_finite d = true.
Proof.
  exists (square 5 (fun i j => if j =? 0 then dz 0 else if i =? j then dz 1 else nan)). eexists. do 3 (split; [reflexivity|]). split; [reflexivity|]. vm_compute. reflexivity.
Qed.
(** an infinite element of a matrix of size 5 or more can vanish from the inverse, and from the solution of a linear system *)
Definition inf_diagonal : mx double := square 5 (fun i j => if i =? j then if i =? 0 then inf else dz 1 else dz 0).
Theorem infinity_inverse_hidden_refuted : exists r, is_finite (mel inf_diagonal 0 0) = false /\ matrix_inverse Babs inf_diagonal = Ok r /\
  forall a b, a < 5 -> b < 5 -> is_finite (mel r a b) = true.
Proof. eexists. split; [reflexivity|]. split; [reflexivity|]. intros a b Ha Hb. destruct a as [|[|[|[|[|a]]]]]; try lia; destruct b as [|[|[|[|[|b]]]]]; try lia; vm_compute; reflexivity. Qed.
Theorem infinity_solve_hidden_refuted : exists p x q y, lu inf_diagonal = Ok p /\ lu_solve p (repeat (dz 1) 5) = Ok x /\ forallb is_finite x = true /\
  lu_pivot Babs d_eps inf_diagonal = Ok q /\ lu_pivot_solve q (repeat (dz 1) 5) = Ok y /\ forallb is_finite y = true.
Proof.
  do 4 eexists. split; [reflexivity|]. split; [reflexivity|]. split; [vm_compute; reflexivity|]. split; [reflexivity|]. split; [reflexivity|]. vm_compute. reflexivity.
Qed.

(** sizes 2 to 4: NaN reaches every entry of the inverse.  Size 5 and more: not so *)
Theorem large_inverse_spread_refuted : exists m r : mx double, mrows m = 6 /\ mcols m = 6 /\ is_nan (mel m 2 3) = true /\ matrix_inverse Babs m = Ok r /\
  is_nan (mel r 0 3) = true /\ is_finite (mel r 0 0) = true /\ is_finite (mel r 2 2) = true.
Proof.
  exists (square 6 (fun i j => if (i =? 2) && (j =? 3) then nan else if i =? j then dz 7 else dz 1)). eexists. do 3 (split; [reflexivity|]). split; [reflexivity|].
  split; [|split]; vm_compute; reflexivity.
Qed.

(** ** Non-trivial cases meet the hypotheses *)
Example nan_dot_case : exists d, vdot [dz 1; inf; dz 3] [dz 4; dz 5; dz 6] = Ok d /\ bad 53 1024 not_finite inf /\ is_finite d = false.
Proof. eexists. split; [reflexivity|]. split; [reflexivity|]. vm_compute. reflexivity. Qed.
Example nan_cross_case : exists r, vcross3 [dz 1; dz 2; nan] [dz 4; dz 5; dz 6] = Ok r /\ map is_nan r = [true; true; false].
Proof. eexists. split; [reflexivity|]. vm_compute. reflexivity. Qed.
Example nan_determinant_case : let m := square 5 (fun i j => if (i =? 2) && (j =? 3) then nan else if i =? j then dz 7 else dz 1) in
  exists d, determinant Babs d_eps m = Ok d /\ snd (lu_pivot_inplace Babs d_eps 5 (mel m)) <> sgn_zero /\ is_nan (mel m 2 3) = true /\ is_nan d = true.
Proof. cbv zeta. eexists. split; [reflexivity|]. split; [vm_compute; discriminate|]. split; [reflexivity|]. vm_compute. reflexivity. Qed.
Example infinity_small_inverse_case : let m := square 3 (fun i j => if (i =? 0) && (j =? 1) then inf else if i =? j then dz 7 else dz 1) in
  exists r, matrix_inverse Babs m = Ok r /\ is_finite (mel m 0 1) = false /\ is_finite (mel r 2 2) = false /\ is_finite (mel r 1 0) = true.
Proof. cbv zeta. eexists. split; [reflexivity|]. repeat split; vm_compute; reflexivity. Qed.
Example nan_solve_case : let m := square 3 (fun i j => if (i =? 1) && (j =? 2) then nan else if i =? j then dz 7 else dz 1) in let b := [dz 1; dz 2; dz 3] in
  exists p x q y, lu m = Ok p /\ lu_solve p b = Ok x /\ is_nan (el x 1) = true /\ lu_pivot Babs d_eps m = Ok q /\ lu_pivot_solve q b = Ok y /\ existsb is_nan y = true.
Proof. cbv zeta. do 4 eexists. do 2 (split; [reflexivity|]). split; [vm_compute; reflexivity|]. do 2 (split; [reflexivity|]). vm_compute. reflexivity. Qed.

Print Assumptions dot_not_hidden.
Print Assumptions length_not_hidden.
Print Assumptions normalize_not_hidden.
Print Assumptions cross_not_hidden.
Print Assumptions triple_not_hidden.
Print Assumptions product_not_hidden.
Print Assumptions matrix_vector_not_hidden.
Print Assumptions vector_matrix_not_hidden.
Print Assumptions transform_vector_not_hidden.
Print Assumptions transform_point_not_hidden.
Print Assumptions quaternion_product_not_hidden.
Print Assumptions quaternion_norm_not_hidden.
Print Assumptions quaternion_inverse_not_hidden.
Print Assumptions determinant_not_hidden.
Print Assumptions small_inverse_not_hidden.
Print Assumptions large_inverse_not_hidden.
Print Assumptions lu_solve_not_hidden.
Print Assumptions pivoted_solve_not_hidden.
Print Assumptions large_determinant_hidden_refuted.
Print Assumptions infinity_inverse_hidden_refuted.
Print Assumptions infinity_solve_hidden_refuted.
Print Assumptions large_inverse_spread_refuted.
