(** C60: rounding errors of sums of products.  C61: identities that hold bit for bit.
    All in IEEE arithmetic of any precision (FloatModel.v). *)
From Coq Require Import ZArith Bool List Arith Lia Reals Lra.
From Flocq Require Import Core BinarySingleNaN.
From Verif Require Import Base BaseFacts MatModel MatSpec MatProofs MatOps RotModel VecModel ExactProducts FloatModel FloatFacts FloatDot FloatExact.
Import ListNotations.
Open Scope R_scope.

(** ** Vocabulary: unit roundoff 2^-prec, half the least positive number, exact sums *)
Lemma roundoff_values : u_round 53 = / 2 ^ 53 /\ u_round 24 = / 2 ^ 24 /\ eta_min 53 1024 = / 2 ^ 1075 /\ eta_min 24 128 = / 2 ^ 150.
Proof.
  assert (G : forall n, bpow radix2 (- Z.of_nat n) = / 2 ^ n).
  { intros n. rewrite bpow_opp. f_equal. rewrite <- IZR_Zpower by lia. rewrite pow_IZR. reflexivity. }
  unfold u_round, eta_min. repeat split; (rewrite <- G; f_equal; reflexivity).
Qed.
(** (1+u)^n - 1 is about n*u *)
Lemma growth : forall (u : R) n, 0 <= u -> INR n * u <= / 2 -> (1 + u) ^ n - 1 <= 2 * (INR n * u) /\ (1 + u) ^ n <= 2.
Proof.
  intros u n U H.
  assert (B : forall k, INR k * u <= / 2 -> (1 + u) ^ k * (1 - INR k * u) <= 1).
  { induction k as [|k IH]; intros Hk; [cbn; lra|]. rewrite S_INR in *. assert (Ik : 0 <= INR k) by apply pos_INR. cbn [pow].
    assert (0 <= INR k * u) by (apply Rmult_le_pos; auto). assert (P : 0 <= (1 + u) ^ k) by (apply pow_le; lra).
    specialize (IH ltac:(lra)). assert (0 <= (INR k + 1) * (u * u)) by (apply Rmult_le_pos; [lra|apply Rmult_le_pos; lra]).
    assert (0 <= (1 + u) ^ k * ((INR k + 1) * (u * u))) by (apply Rmult_le_pos; auto). lra. }
  specialize (B n H). set (x := INR n * u) in *. assert (X : 0 <= x) by (apply Rmult_le_pos; [apply pos_INR|auto]). set (w := (1 + u) ^ n) in *.
  assert (W : 1 <= w) by (apply one_le_pow; lra).
  assert (w <= 1 + 2 * x).
  { apply Rmult_le_reg_r with (1 - x); [lra|]. eapply Rle_trans; [exact B|]. assert (0 <= x * (1 - 2 * x)) by (apply Rmult_le_pos; lra). lra. }
  lra.
Qed.

Section IEEE.
Context (prec emax : Z) {Hprec : Prec_gt_0 prec} {Hmax : Prec_lt_emax prec emax}.
Notation F := (binary_float prec emax).
Notation u := (u_round prec).
Notation eta := (eta_min prec emax).
Notation val := (@B2R prec emax).
Notation fin x := (is_finite x = true).

(** [d] approximates the sum of the [n] products [a k * b k] *)
Definition accurate (n : nat) (a b : nat -> R) (d : R) : Prop :=
  Rabs (d - rsum n (fun k => a k * b k)) <= ((1 + u) ^ n - 1) * rsum n (fun k => Rabs (a k * b k)) + INR n * (1 + u) ^ n * eta.
Definition fits (n : nat) (a b : nat -> R) : Prop :=
  (1 + u) ^ n * rsum n (fun k => Rabs (a k * b k)) + INR n * (1 + u) ^ n * eta < bpow radix2 emax.
Definition vals (v : list F) (k : nat) : R := val (nth k v zero).

Lemma nth_fin (v : list F) : (forall x, In x v -> fin x) <-> forall k, (k < length v)%nat -> fin (nth k v zero).
Proof.
  split; intros H.
  - intros k Hk. apply H, nth_In. auto.
  - intros x Hx. apply (In_nth _ _ zero) in Hx. destruct Hx as (k & Hk & <-). auto.
Qed.
Theorem dot_accuracy : forall (v w : list F) d, vdot v w = Ok d -> fin d ->
  (forall x, In x v \/ In x w -> fin x) /\ accurate (length v) (vals v) (vals w) (val d).
Proof.
  intros v w d E Fd. unfold vdot, check_vmin, check_vsame, require in E.
  destruct (Nat.leb_spec 1 (length v)); [|discriminate]. destruct (Nat.leb_spec 1 (length w)); [|discriminate].
  destruct (Nat.eqb_spec (length v) (length w)) as [L|]; [|discriminate]. cbn [bind] in E. injection E as <-.
  destruct (length v) as [|n] eqn:Lv; [lia|]. destruct (products_err prec emax n (el v) (el w) Fd) as [A B]. split; [|exact B].
  intros x [Hx|Hx].
  - revert x Hx. apply nth_fin. intros k Hk. apply A. lia.
  - revert x Hx. apply nth_fin. intros k Hk. apply A. lia.
Qed.
Theorem dot_no_overflow : forall v w : list F, v <> [] -> length v = length w -> (forall x, In x v \/ In x w -> fin x) ->
  fits (length v) (vals v) (vals w) -> exists d, vdot v w = Ok d /\ fin d.
Proof.
  intros v w N L A Ft. exists (accumulate (length v) (fun i => mul (el v i) (el w i))).
  destruct v as [|x v]; [congruence|]. split.
  - unfold vdot, check_vmin, check_vsame, require. rewrite <- L, Nat.eqb_refl. reflexivity.
  - cbn [length] in *. apply products_fit; [|exact Ft]. intros k Hk. split; apply A; [left|right]; apply nth_In; cbn [length]; lia.
Qed.
(** the bounds in round numbers *)
Theorem accurate_linear : forall n a b d, accurate n a b d -> INR n * u <= / 2 ->
  Rabs (d - rsum n (fun k => a k * b k)) <= 2 * (INR n * u) * rsum n (fun k => Rabs (a k * b k)) + 2 * INR n * eta.
Proof.
  intros n a b d A H. pose proof (u_pos prec) as U. pose proof (eta_pos prec emax) as Eta. destruct (growth u n ltac:(lra) H) as [G1 G2].
  eapply Rle_trans; [exact A|]. apply Rplus_le_compat.
  - apply Rmult_le_compat_r; auto. apply rsum_nonneg. intros; apply Rabs_pos.
  - apply Rmult_le_compat_r; [lra|]. rewrite Rmult_comm. apply Rmult_le_compat_r; auto. apply pos_INR.
Qed.
(** length_squared: relative error, as no cancellation is possible *)
Theorem length_squared_accuracy : forall (v : list F) l, vlength_squared v = Ok l -> fin l ->
  let n := length v in let L := rsum n (fun k => vals v k * vals v k) in
  Rabs (val l - L) <= ((1 + u) ^ n - 1) * L + INR n * (1 + u) ^ n * eta.
Proof.
  intros v l E Fl n L.
  assert (D : vdot v v = Ok l).
  { rewrite <- E. unfold vdot, vlength_squared, check_vmin, check_vsame, require. rewrite Nat.eqb_refl. destruct (Nat.leb 1 (length v)); reflexivity. }
  destruct (dot_accuracy _ _ _ D Fl) as [_ A]. unfold accurate in A. fold n L in A.
  rewrite (rsum_ext n (fun k => Rabs (vals v k * vals v k)) (fun k => vals v k * vals v k)) in A; auto.
  intros k _. apply Rabs_pos_eq. apply Rle_0_sqr.
Qed.
(** matrix products, entry by entry *)
Theorem product_accuracy : forall (a b : rmat F) r n c A B bs l k, reads a r n A -> reads b n c B -> (0 < n)%nat ->
  exists m M, product a b bs l k = Ok m /\ is_mat m r c M /\
    forall i j, (i < r)%nat -> (j < c)%nat ->
      (fin (M i j) -> accurate n (fun q => val (A i q)) (fun q => val (B q j)) (val (M i j))) /\
      ((forall q, (q < n)%nat -> fin (A i q) /\ fin (B q j)) -> fits n (fun q => val (A i q)) (fun q => val (B q j)) -> fin (M i j)).
Proof.
  intros a b r n c A B bs l k Ha Hb Hn. destruct (product_acc a b r n c A B bs l k Ha Hb Hn) as (m & E & _ & _ & _ & I).
  exists m, (fun i j => accumulate n (fun q => mul (A i q) (B q j))). split; [auto|]. split; [auto|]. intros i j Hi Hj. destruct n as [|n]; [lia|]. split.
  - intros Fm. apply (products_err prec emax n (A i) (fun q => B q j) Fm).
  - intros Fq Ft. apply products_fit; auto.
Qed.
Theorem matrix_vector_accuracy : forall (a : rmat F) (v : list F) r n A, reads a r n A -> length v = n -> (0 < n)%nat ->
  exists w, mat_vec a v = Ok w /\ length w = r /\ forall i, (i < r)%nat -> fin (nth i w zero) -> accurate n (fun q => val (A i q)) (vals v) (val (nth i w zero)).
Proof.
  intros a v r n A Ha L Hn. rewrite (mat_vec_acc a v r n A zero Ha L Hn). eexists. split; [reflexivity|]. rewrite map_length, seq_length. split; auto.
  intros i Hi Fi. rewrite (nth_indep _ _ (accumulate n (fun q => mul (A 0%nat q) (nth q v zero)))) in * by (rewrite map_length, seq_length; auto).
  rewrite (map_nth (fun i => accumulate n (fun q => mul (A i q) (nth q v zero)))) in *. rewrite seq_nth in * by auto. destruct n as [|n]; [lia|].
  apply (products_err prec emax n (A i) (fun q => nth q v zero) Fi).
Qed.
Theorem vector_matrix_accuracy : forall (v : list F) (b : rmat F) n c B, length v = n -> reads b n c B -> (0 < n)%nat ->
  exists w, vec_mat v b = Ok w /\ length w = c /\ forall j, (j < c)%nat -> fin (nth j w zero) -> accurate n (vals v) (fun q => val (B q j)) (val (nth j w zero)).
Proof.
  intros v b n c B L Hb Hn. rewrite (vec_mat_acc v b n c B zero L Hb Hn). eexists. split; [reflexivity|]. rewrite map_length, seq_length. split; auto.
  intros i Hi Fi. rewrite (nth_indep _ _ (accumulate n (fun q => mul (nth q v zero) (B q 0%nat)))) in * by (rewrite map_length, seq_length; auto).
  rewrite (map_nth (fun i => accumulate n (fun q => mul (nth q v zero) (B q i)))) in *. rewrite seq_nth in * by auto. destruct n as [|n]; [lia|].
  apply (products_err prec emax n (fun q => nth q v zero) (fun q => B q i) Fi).
Qed.

(** ** C61 *)
Theorem dot_commutes_exactly : forall v w : list F, vdot v w = vdot w v.
Proof.
  intros v w. unfold vdot, check_vmin, check_vsame, require. rewrite (Nat.eqb_sym (length w)).
  destruct (Nat.leb_spec 1 (length v)), (Nat.leb_spec 1 (length w)); try reflexivity.
  destruct (Nat.eqb_spec (length v) (length w)) as [L|]; [|reflexivity]. cbn [bind]. f_equal. rewrite L. apply acc_ext; auto. intros. apply mul_comm.
Qed.
Lemma elems_ext (n : nat) (f g : nat -> F) : (forall i, (i < n)%nat -> f i = g i) -> elems n f = elems n g.
Proof. intros H. apply map_ext_in. intros i Hi. apply in_seq in Hi. apply H. lia. Qed.
Theorem sum_commutes_exactly : forall v w : list F, vadd v w = vadd w v /\ vhadamard v w = vhadamard w v.
Proof.
  intros v w. unfold vadd, vhadamard, check_vsame, require. rewrite (Nat.eqb_sym (length w)).
  destruct (Nat.eqb_spec (length v) (length w)) as [L|]; [|auto]. cbn [bind]. rewrite <- L. split; f_equal; apply elems_ext; intros; [apply add_comm|apply mul_comm].
Qed.
(** transpose(a*b) and transpose(b)*transpose(a) agree in every bit *)
Theorem product_transpose_exactly : forall (a b a' b' : rmat F) p q r A B bs l k, reads a p q A -> reads b q r B ->
  reads a' q p (fun i j => A j i) -> reads b' r q (fun i j => B j i) -> (0 < q)%nat ->
  exists m m' M, product a b bs l k = Ok m /\ product b' a' bs l k = Ok m' /\ is_mat m p r M /\ is_mat m' r p (fun i j => M j i).
Proof.
  intros a b a' b' p q r A B bs l k Ha Hb Ha' Hb' Hq.
  destruct (product_acc a b p q r A B bs l k Ha Hb Hq) as (m & E & _ & _ & _ & I).
  destruct (product_acc b' a' r q p _ _ bs l k Hb' Ha' Hq) as (m' & E' & _ & _ & _ & I').
  exists m, m', (fun i j => accumulate q (fun k => mul (A i k) (B k j))). do 3 (split; [auto|]).
  destruct I' as (I1 & I2 & I3). split; [auto|]. split; [auto|]. intros i j Hi Hj. rewrite I3 by auto. f_equal. apply acc_ext; auto. intros. apply mul_comm.
Qed.
(** M*v and v*transpose(M) agree in every bit *)
Theorem matrix_vector_exactly : forall (a a' : rmat F) v r n A, reads a r n A -> reads a' n r (fun i j => A j i) -> length v = n -> (0 < n)%nat ->
  mat_vec a v = vec_mat v a'.
Proof.
  intros a a' v r n A Ha Ha' L Hn. rewrite (mat_vec_acc a v r n A zero), (vec_mat_acc v a' n r _ zero L Ha') by auto. f_equal.
  apply map_ext. intros i. apply acc_ext; auto. intros. apply mul_comm.
Qed.
(** the opposite vector has the same length, and the opposite direction *)
Theorem opposite_exactly : forall (MO : MathOps F) (v : list F),
  vlength_squared (vneg v) = vlength_squared v /\ vlength (vneg v) = vlength v /\
  vnormalize (vneg v) = (w <- vnormalize v ;; Ok (vneg w)).
Proof.
  intros MO v.
  assert (Ln : forall f, length (elems (length v) f : list F) = length v) by (intros; unfold elems; rewrite map_length, seq_length; auto).
  assert (En : forall f i, (i < length v)%nat -> el (elems (length v) f : list F) i = f i).
  { intros f i Hi. unfold el, elems. rewrite (nth_indep _ _ (f 0%nat)) by (rewrite map_length, seq_length; auto). rewrite map_nth, seq_nth by auto. auto. }
  assert (A : vlength_squared (vneg v) = vlength_squared v).
  { unfold vlength_squared, check_vmin, require, vneg. rewrite Ln. destruct (Nat.leb_spec 1 (length v)); [|auto]. cbn [bind]. f_equal.
    apply acc_ext; [lia|]. intros k Hk. rewrite En by auto. apply mul_neg_neg. }
  assert (B : vlength (vneg v) = vlength v) by (unfold vlength; rewrite A; auto).
  split; [auto|]. split; [auto|]. unfold vnormalize. rewrite B. destruct (vlength v) as [x| |]; cbn [bind]; auto. f_equal.
  unfold vdiv, vneg. rewrite !Ln. apply elems_ext. intros i Hi. rewrite !En by auto. apply div_neg.
Qed.
(** the cross product of a vector with itself is exactly zero unless a product overflows *)
Theorem cross_self_exactly : forall (v c : list F), vcross3 v v = Ok c -> (forall x, In x c -> is_nan x = false) -> c = [zero; zero; zero].
Proof.
  intros v c E H. unfold vcross3, check_size, require in E. destruct (Nat.eqb_spec (length v) 3); [|discriminate]. cbn in E. injection E as <-.
  assert (G : forall a b : F, is_nan (sub (mul a b) (mul b a)) = false -> sub (mul a b) (mul b a) = zero).
  { intros a b N0. rewrite (mul_comm prec emax b a) in *. destruct (is_finite (mul a b)) eqn:Fm; [apply sub_self; auto|].
    destruct (mul a b) as [s|s| |s m0 e0 h0]; cbn in *; try discriminate. destruct s; cbn in *; discriminate. }
  cbn [add sub mul BOps] in *. rewrite !G; auto; apply H; cbn; auto.
Qed.
(** exchanging the operands of a cross product changes the sign only *)
Theorem cross_opposite_exactly : forall (v w c : list F), vcross3 v w = Ok c -> (forall x, In x c -> fin x) ->
  exists c', vcross3 w v = Ok c' /\ length c' = 3%nat /\ forall i, (i < 3)%nat -> fin (nth i c' zero) /\ val (nth i c' zero) = - val (nth i c zero).
Proof.
  intros v w c E H. unfold vcross3, check_size, require in E |- *. destruct (Nat.eqb_spec (length v) 3); [|discriminate]. destruct (Nat.eqb_spec (length w) 3); [|discriminate].
  cbn [bind] in E |- *. injection E as <-. eexists. split; [reflexivity|]. split; [reflexivity|].
  assert (G : forall a b x y : F, fin (sub (mul a b) (mul x y)) -> fin (sub (mul y x) (mul b a)) /\ val (sub (mul y x) (mul b a)) = - val (sub (mul a b) (mul x y))).
  { intros a b x y Fs. rewrite (mul_comm prec emax y x), (mul_comm prec emax b a). apply sub_opp, Fs. }
  intros i Hi. destruct i as [|[|[|i]]]; [..|lia]; cbn [nth]; apply G, H; cbn; auto.
Qed.
(** no NaN among the elements: the squared length and the length are not NaN and not negative,
    even when they overflow *)
Theorem length_never_nan : forall (MO : MathOps F), ieee_math prec emax MO -> forall (v : list F) l, (forall x, In x v -> is_nan x = false) ->
  (vlength_squared v = Ok l \/ vlength v = Ok l) -> is_nan l = false /\ Bsign l = false.
Proof.
  intros MO (Sq & _) v l N E.
  assert (A : forall n, (n < length v)%nat -> nonneg prec emax (accumulate (S n) (fun i => mul (el v i) (el v i)))).
  { assert (Q : forall k, (k < length v)%nat -> nonneg prec emax (mul (el v k) (el v k))) by (intros k Hk; apply square_nonneg, N, nth_In; auto).
    induction n as [|n IH]; intros Hn; [apply Q; auto|]. rewrite acc_S. apply sum_nonneg; auto. apply IH. lia. }
  assert (B : forall l, vlength_squared v = Ok l -> nonneg prec emax l).
  { intros l0 E0. unfold vlength_squared, check_vmin, require in E0. destruct (Nat.leb_spec 1 (length v)) as [L|]; [|discriminate]. cbn [bind] in E0. injection E0 as <-.
    specialize (A (length v - 1)%nat). replace (S (length v - 1)) with (length v) in A by lia. apply A. lia. }
  destruct E as [E|E]; [apply B; auto|]. unfold vlength in E. destruct (vlength_squared v) as [l0| |] eqn:E0; [|discriminate..]. cbn [bind] in E. injection E as <-.
  rewrite Sq. apply sqrt_nonneg, B. auto.
Qed.
End IEEE.

(** ** Examples in double precision *)
Definition dbl (m e : Z) : double := binary_normalize 53 1024 _ _ mode_NE m e false.
Example dot_accuracy_case : exists d, vdot [dbl 1 0; dbl 3 (-1)] [dbl 5 0; dbl 7 10] = Ok d /\ is_finite d = true /\ Beqb d (dbl 10757 0) = true.
Proof. eexists. split; [reflexivity|]. split; vm_compute; reflexivity. Qed.
(** The laws of real arithmetic do not carry over: the order of the elements changes a
    dot product, and matrix products are not associative. *)
Theorem dot_reordering_refuted : exists (v w v' w' : list double) d d',
  v' = [nth 0 v zero; nth 2 v zero; nth 1 v zero] /\ w' = [nth 0 w zero; nth 2 w zero; nth 1 w zero] /\ length v = 3%nat /\ length w = 3%nat /\
  vdot v w = Ok d /\ vdot v' w' = Ok d' /\ is_finite d = true /\ is_finite d' = true /\ Beqb d d' = false.
Proof.
  exists [dbl 1 60; dbl 1 0; dbl (-1) 60], [dbl 1 0; dbl 1 0; dbl 1 0]. do 4 eexists. split; [reflexivity|]. split; [reflexivity|].
  split; [reflexivity|]. split; [reflexivity|]. split; [reflexivity|]. split; [reflexivity|]. repeat split; vm_compute; reflexivity.
Qed.
Definition m11 (x : double) : fmat double := FM 1 1 row_basis row_major MFixed (fun _ _ => Some x).
Theorem float_product_associative_refuted : exists (a b c ab bc l r : fmat double) x y,
  product (of_fmat a) (of_fmat b) row_basis row_major MFixed = Ok ab /\ product (of_fmat b) (of_fmat c) row_basis row_major MFixed = Ok bc /\
  product (of_fmat ab) (of_fmat c) row_basis row_major MFixed = Ok l /\ product (of_fmat a) (of_fmat bc) row_basis row_major MFixed = Ok r /\
  fe l 0 0 = Some x /\ fe r 0 0 = Some y /\ is_finite x = true /\ is_finite y = true /\ Beqb x y = false.
Proof.
  exists (m11 (dbl 3602879701896397 (-55))), (m11 (dbl 3602879701896397 (-54))), (m11 (dbl 5404319552844595 (-54))).
  do 6 eexists. do 6 (split; [reflexivity|]). repeat split; vm_compute; reflexivity.
Qed.
(** hypotheses are met: a 2x3 by 3x2 product of doubles, its transpose, and finite entries *)
Example product_accuracy_case :
  let A i j := dbl (Z.of_nat (1 + i + 2 * j)) (-3) in let B i j := dbl (Z.of_nat (7 * i + j) - 5) 4 in
  let a := RM 2 3 (fun i j => Ok (A i j)) in let b := RM 3 2 (fun i j => Ok (B i j)) in
  reads a 2 3 A /\ reads b 3 2 B /\
  exists m, product a b row_basis col_major MDynamic = Ok m /\ (match fe m 1 1 with Some x => Beqb x (dbl 128 0) | None => false end) = true.
Proof. cbv zeta. split; [|split]; [repeat split..|]. eexists. split; [reflexivity|]. vm_compute. reflexivity. Qed.
(** the length of a vector of huge elements is infinite but not NaN *)
Example length_never_nan_case : exists l, vlength_squared [dbl 1 1000; dbl 0 0] = Ok l /\ is_finite l = false /\ is_nan l = false.
Proof. eexists. split; [reflexivity|]. split; vm_compute; reflexivity. Qed.
Example cross_exactly_case : exists c, vcross3 [dbl 1 0; dbl 3 (-1); dbl 1 60] [dbl 5 0; dbl 7 10; dbl 1 0] = Ok c /\ forallb is_finite c = true.
Proof. eexists. split; [reflexivity|]. vm_compute. reflexivity. Qed.

Print Assumptions dot_accuracy.
Print Assumptions dot_no_overflow.
Print Assumptions length_squared_accuracy.
Print Assumptions product_accuracy.
Print Assumptions dot_commutes_exactly.
Print Assumptions product_transpose_exactly.
Print Assumptions opposite_exactly.
Print Assumptions length_never_nan.
Print Assumptions float_product_associative_refuted.
