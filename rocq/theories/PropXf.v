(** Affine transformations over any commutative ring: C36, C37, C52. *)
From Coq Require Import List Bool Arith Lia Ring Field ZArith.
From Verif Require Import Base ZInst MiscModel QuatModel QuatSpec RotModel VecModel VecSpec VecProofs XfModel XfSpec XfProofs PropQuat.
Import ListNotations.
Open Scope nat_scope.

(** ** What the transform functions compute *)
Section Maps.
Context {T : Type} {Op : Ops T}.
Hypothesis RT : ring_theory (zero : T) one add mul sub neg eq.
Add Ring TRing : RT.
Ltac norm_maps := unfold affine_map, linear_map; cbn [seq map sum]; rewrite !coef_be; unfold el; repeat (f_equal; try ring).
Lemma point3_map (m : mx T) p : holds_affine 3 m -> length p = 3 -> transform_point m p = Ok (affine_map 3 m p).
Proof.
  intros H L. unfold transform_point. rewrite affine_ok3 by auto. unfold check_size. rewrite L. cbn [bind Nat.eqb require]. norm_maps.
Qed.
Lemma point2_map (m : mx T) p : holds_affine 2 m -> length p = 2 -> transform_point_2D m p = Ok (affine_map 2 m p).
Proof.
  intros H L. unfold transform_point_2D. rewrite affine_ok2 by auto. unfold check_size. rewrite L. cbn [bind Nat.eqb require]. norm_maps.
Qed.
Lemma vector3_map (m : mx T) p : holds_linear 3 m -> length p = 3 -> transform_vector m p = Ok (linear_map 3 m p).
Proof.
  intros [H1 H2] L. unfold transform_vector. rewrite min_okg by auto. unfold check_size. rewrite L. cbn [bind Nat.eqb require]. norm_maps.
Qed.
Lemma vector2_map (m : mx T) p : holds_linear 2 m -> length p = 2 -> transform_vector_2D m p = Ok (linear_map 2 m p).
Proof.
  intros [H1 H2] L. unfold transform_vector_2D. rewrite min_okg by auto. unfold check_size. rewrite L. cbn [bind Nat.eqb require]. norm_maps.
Qed.
Lemma vector4_map (m : mx T) p : square 4 m -> length p = 4 -> transform_vector_4D m p = Ok (linear_map 4 m p).
Proof.
  intros [H1 H2] L. unfold transform_vector_4D, check_mx_size, check_size, mx_vec, vec_mx. rewrite H1, H2, L. cbn [bind Nat.eqb require andb].
  unfold linear_map, coef. destruct (mbasis m); unfold elems; cbn [seq map sum accumulate fold_left Nat.sub]; unfold el; repeat (f_equal; try ring).
Qed.
Lemma point4_map (m : mx T) p : square 4 m -> length p = 3 ->
  transform_point_4D m p = Ok [div (hom m p 0) (hom m p 3); div (hom m p 1) (hom m p 3); div (hom m p 2) (hom m p 3)].
Proof.
  intros [H1 H2] L. unfold transform_point_4D, check_mx_size, check_size. rewrite H1, H2, L. cbn [bind Nat.eqb require andb].
  unfold hom. rewrite !coef_be. reflexivity.
Qed.
End Maps.

Theorem transform_is_map : forall (T : Type) (Op : Ops T) (m : mx T) (p : list T), is_ring T ->
  (holds_affine 3 m -> length p = 3 -> transform_point m p = Ok (affine_map 3 m p)) /\
  (holds_affine 2 m -> length p = 2 -> transform_point_2D m p = Ok (affine_map 2 m p)) /\
  (holds_linear 3 m -> length p = 3 -> transform_vector m p = Ok (linear_map 3 m p)) /\
  (holds_linear 2 m -> length p = 2 -> transform_vector_2D m p = Ok (linear_map 2 m p)) /\
  (square 4 m -> length p = 4 -> transform_vector_4D m p = Ok (linear_map 4 m p)).
Proof.
  intros T Op m p RT. repeat split; intros.
  - now apply point3_map. - now apply point2_map. - now apply vector3_map. - now apply vector2_map. - now apply vector4_map.
Qed.
(** Wrongly sized arguments throw; this holds for any scalar type, floats included. *)
Theorem transform_sizes : forall (T : Type) (Op : Ops T) (m : mx T) (p : list T),
  (~ holds_affine 3 m -> transform_point m p = Throw EMinimumMatrixSize) /\
  (holds_affine 3 m -> length p <> 3 -> transform_point m p = Throw EVectorSize) /\
  (~ holds_affine 2 m -> transform_point_2D m p = Throw EMinimumMatrixSize) /\
  (holds_affine 2 m -> length p <> 2 -> transform_point_2D m p = Throw EVectorSize) /\
  (~ holds_linear 3 m -> transform_vector m p = Throw EMinimumMatrixSize) /\
  (holds_linear 3 m -> length p <> 3 -> transform_vector m p = Throw EVectorSize) /\
  (~ holds_linear 2 m -> transform_vector_2D m p = Throw EMinimumMatrixSize) /\
  (holds_linear 2 m -> length p <> 2 -> transform_vector_2D m p = Throw EVectorSize) /\
  (~ square 4 m -> transform_vector_4D m p = Throw EMatrixSize /\ transform_point_4D m p = Throw EMatrixSize) /\
  (square 4 m -> length p <> 4 -> transform_vector_4D m p = Throw EVectorSize) /\
  (square 4 m -> length p <> 3 -> transform_point_4D m p = Throw EVectorSize).
Proof.
  intros T Op m p. unfold transform_point, transform_point_2D, transform_vector, transform_vector_2D, transform_vector_4D, transform_point_4D, check_size, check_mx_size.
  assert (S : forall n, length p <> n -> Nat.eqb (length p) n = false) by (intros; apply Nat.eqb_neq; auto).
  repeat split; intros; repeat match goal with H : _ <> _ |- _ => apply S in H; rewrite H; clear H end.
  - rewrite affine_bad3; auto. - rewrite affine_ok3; auto.
  - rewrite affine_bad2; auto. - rewrite affine_ok2; auto.
  - rewrite (linear_bad 3); auto. - destruct H; rewrite min_okg; auto.
  - rewrite (linear_bad 2); auto. - destruct H; rewrite min_okg; auto.
  - destruct (Nat.eqb_spec (mrows m) 4), (Nat.eqb_spec (mcols m) 4); auto. exfalso; apply H; split; auto.
  - destruct (Nat.eqb_spec (mrows m) 4), (Nat.eqb_spec (mcols m) 4); auto. exfalso; apply H; split; auto.
  - destruct H as [-> ->]. auto.
  - destruct H as [-> ->]. auto.
Qed.

(** ** C36 *)
Ltac shapes := repeat match goal with |- same_shape _ (set_be _ _ _ _) => eapply shape_trans; [|apply shape_set] end; apply shape_refl.
Section Inverse.
Context {T : Type} {Op : Ops T}.
Hypothesis RT : ring_theory (zero : T) one add mul sub neg eq.
Add Ring TRing2 : RT.
Lemma invert3_be (m : mx T) : holds_affine 3 m -> exists m', matrix_invert_RT_only m = Ok m' /\ same_shape m m' /\
  rt_inverse 3 m m' /\ same_elsewhere (affine_entry 3) m m'.
Proof.
  intros H. assert (HL := affine_linear _ _ H). unfold matrix_invert_RT_only. rewrite affine_ok3 by auto.
  unfold matrix_get_basis_vector. rewrite linear_ok3 by auto. cbn [bind axis_index Z.leb Z.ltb Z.compare Pos.compare Pos.compare_cont Z.of_nat Pos.of_succ_nat Pos.succ andb require Z.to_nat].
  change (Pos.to_nat 1) with 1; change (Pos.to_nat 2) with 2.
  unfold matrix_set_transposed_basis_vectors, matrix_set_transposed_basis_vector.
  rewrite linear_ok3 by auto. cbn [bind check_size length Nat.eqb axis_index Z.leb Z.ltb Z.compare Pos.compare Pos.compare_cont Z.of_nat Pos.of_succ_nat Pos.succ andb require Z.to_nat].
  change (Pos.to_nat 1) with 1; change (Pos.to_nat 2) with 2.
  set (m1 := set_be (set_be (set_be m 0 0 _) 1 0 _) 2 0 _).
  assert (S1 : same_shape m m1) by (unfold m1; shapes).
  rewrite linear_ok3 by (eapply shape_linear; eauto).
  cbn [bind check_size length Nat.eqb axis_index Z.leb Z.ltb Z.compare Pos.compare Pos.compare_cont Z.of_nat Pos.of_succ_nat Pos.succ andb require Z.to_nat].
  change (Pos.to_nat 1) with 1; change (Pos.to_nat 2) with 2.
  set (m2 := set_be (set_be (set_be m1 0 1 _) 1 1 _) 2 1 _).
  assert (S2 : same_shape m m2) by (eapply shape_trans; [exact S1|]; unfold m2; shapes).
  rewrite linear_ok3 by (eapply shape_linear; eauto).
  cbn [bind check_size length Nat.eqb axis_index Z.leb Z.ltb Z.compare Pos.compare Pos.compare_cont Z.of_nat Pos.of_succ_nat Pos.succ andb require Z.to_nat].
  change (Pos.to_nat 1) with 1; change (Pos.to_nat 2) with 2.
  set (m3 := set_be (set_be (set_be m2 0 2 _) 1 2 _) 2 2 _).
  assert (S3 : same_shape m m3) by (eapply shape_trans; [exact S2|]; unfold m3; shapes).
  unfold matrix_get_translation. rewrite affine_ok3 by (eapply shape_affine; eauto). cbn [bind].
  rewrite !(vdot_sum RT) by (discriminate || reflexivity). cbn [bind].
  unfold matrix_set_translation. rewrite affine_ok3 by (eapply shape_affine; eauto). cbn [bind].
  assert (B : forall a b, coef m3 a b = if Nat.ltb a 3 && Nat.ltb b 3 then coef m b a else coef m a b).
  { intros a b. rewrite !coef_be. unfold m3, m2, m1. rewrite !be_setg. unfold el.
    destruct a as [|[|[|a]]], b as [|[|[|b]]]; cbn [nth Nat.eqb andb Nat.ltb Nat.leb]; auto. }
  assert (BE : forall a, be m3 3 a = be m 3 a).
  { intros a. rewrite <- !coef_be, B. rewrite andb_false_r. auto. }
  rewrite !BE. clearbody m3.
  eexists; split; [reflexivity|]. split; [|split].
  - eapply shape_trans; [exact S3|]. shapes.
  - split.
    + intros i k Hi Hk. rewrite !coef_set, B. destruct i as [|[|[|i]]], k as [|[|[|k]]]; try lia; cbn [Nat.eqb andb Nat.ltb Nat.leb]; auto.
    + intros i Hi. rewrite !coef_set, B. destruct i as [|[|[|i]]]; try lia; cbn [Nat.eqb andb sum sum_prod]; rewrite !coef_be; ring.
  - intros i k N. rewrite !coef_set, B. unfold affine_entry in N.
    destruct (Nat.ltb_spec i 3), (Nat.ltb_spec k 3); simpl andb; try (exfalso; apply N; lia).
    + destruct (Nat.eqb_spec k 3); [exfalso; apply N; lia|]. auto.
    + destruct (Nat.eqb_spec k 3); [lia|]. auto.
    + destruct (Nat.eqb_spec k 3); simpl; auto. destruct i as [|[|[|i]]]; try lia; auto.
Qed.
Lemma invert2_be (m : mx T) : holds_affine 2 m -> exists m', matrix_invert_RT_only_2D m = Ok m' /\ same_shape m m' /\
  rt_inverse 2 m m' /\ same_elsewhere (affine_entry 2) m m'.
Proof.
  intros H. assert (HL := affine_linear _ _ H). unfold matrix_invert_RT_only_2D. rewrite affine_ok2 by auto.
  unfold matrix_get_basis_vector_2D. rewrite linear_ok2 by auto. cbn [bind axis_index Z.leb Z.ltb Z.compare Pos.compare Pos.compare_cont Z.of_nat Pos.of_succ_nat Pos.succ andb require Z.to_nat].
  change (Pos.to_nat 1) with 1.
  unfold matrix_set_transposed_basis_vectors_2D, matrix_set_transposed_basis_vector_2D.
  rewrite linear_ok2 by auto. cbn [bind check_size length Nat.eqb axis_index Z.leb Z.ltb Z.compare Pos.compare Pos.compare_cont Z.of_nat Pos.of_succ_nat Pos.succ andb require Z.to_nat].
  change (Pos.to_nat 1) with 1.
  set (m1 := set_be (set_be m 0 0 _) 1 0 _).
  assert (S1 : same_shape m m1) by (unfold m1; shapes).
  rewrite linear_ok2 by (eapply shape_linear; eauto).
  cbn [bind check_size length Nat.eqb axis_index Z.leb Z.ltb Z.compare Pos.compare Pos.compare_cont Z.of_nat Pos.of_succ_nat Pos.succ andb require Z.to_nat].
  change (Pos.to_nat 1) with 1.
  set (m3 := set_be (set_be m1 0 1 _) 1 1 _).
  assert (S3 : same_shape m m3) by (eapply shape_trans; [exact S1|]; unfold m3; shapes).
  unfold matrix_get_translation_2D. rewrite affine_ok2 by (eapply shape_affine; eauto). cbn [bind].
  rewrite !(vdot_sum RT) by (discriminate || reflexivity). cbn [bind].
  unfold matrix_set_translation_2D. rewrite affine_ok2 by (eapply shape_affine; eauto). cbn [bind].
  assert (B : forall a b, coef m3 a b = if Nat.ltb a 2 && Nat.ltb b 2 then coef m b a else coef m a b).
  { intros a b. rewrite !coef_be. unfold m3, m1. rewrite !be_setg. unfold el.
    destruct a as [|[|a]], b as [|[|b]]; cbn [nth Nat.eqb andb Nat.ltb Nat.leb]; auto. }
  assert (BE : forall a, be m3 2 a = be m 2 a).
  { intros a. rewrite <- !coef_be, B. rewrite andb_false_r. auto. }
  rewrite !BE. clearbody m3.
  eexists; split; [reflexivity|]. split; [|split].
  - eapply shape_trans; [exact S3|]. shapes.
  - split.
    + intros i k Hi Hk. rewrite !coef_set, B. destruct i as [|[|i]], k as [|[|k]]; try lia; cbn [Nat.eqb andb Nat.ltb Nat.leb]; auto.
    + intros i Hi. rewrite !coef_set, B. destruct i as [|[|i]]; try lia; cbn [Nat.eqb andb sum sum_prod]; rewrite !coef_be; ring.
  - intros i k N. rewrite !coef_set, B. unfold affine_entry in N.
    destruct (Nat.ltb_spec i 2), (Nat.ltb_spec k 2); simpl andb; try (exfalso; apply N; lia).
    + destruct (Nat.eqb_spec k 2); [exfalso; apply N; lia|]. auto.
    + destruct (Nat.eqb_spec k 2); [lia|]. auto.
    + destruct (Nat.eqb_spec k 2); simpl; auto. destruct i as [|[|i]]; try lia; auto.
Qed.
Lemma invertn_be n (m : mx T) : 0 < n -> affine_size n m -> exists m', matrix_invert_RT m = Ok m' /\ same_shape m m' /\
  rt_inverse n m m' /\ same_elsewhere (affine_entry n) m m'.
Proof.
  intros Hn H. unfold matrix_invert_RT.
  assert (C : check_affine m = Ok tt).
  { unfold check_affine, affine_size in *. destruct (mbasis m); destruct H as [-> [-> | ->]]; unfold require;
    destruct (Nat.eqb_spec (n + 1) n), (Nat.eqb_spec (n + 1) (n + 1)), (Nat.eqb_spec (n + 1) (S n)), (Nat.eqb_spec (n + 1) (S (n + 1))); simpl; auto; lia. }
  rewrite C. cbn [bind].
  assert (E : (if Nat.ltb (mcols m) (mrows m) then mcols m else if Nat.ltb (mrows m) (mcols m) then mrows m else mrows m - 1) = n).
  { unfold affine_size in *. destruct (mbasis m); destruct H as [-> [-> | ->]];
    destruct (Nat.ltb_spec (n + 1) n), (Nat.ltb_spec n (n + 1)), (Nat.ltb_spec (n + 1) (n + 1)); lia. }
  rewrite E. clear E C.
  destruct (transpose_linear_be n m) as [S1 B1]. set (m1 := transpose_linear n m) in *.
  set (t := matrix_get_basis_vector_nD m1 n).
  destruct (translate_loop RT n n t m1 Hn (le_n n)) as [S2 B2]. cbv zeta in B2.
  eexists. split; [reflexivity|]. split; [|split].
  - eapply shape_trans; eauto.
  - split.
    + intros i k Hi Hk. rewrite !coef_be, B2, B1. destruct (Nat.eqb_spec k n); [lia|]. simpl.
      destruct (Nat.ltb_spec k n), (Nat.ltb_spec i n); simpl; auto; lia.
    + intros i Hi. rewrite !coef_be, B2. rewrite Nat.eqb_refl. destruct (Nat.ltb_spec i n); [|lia]. simpl. f_equal.
      apply sum_ext. intros k Hk. rewrite !coef_be, B1.
      destruct (Nat.ltb_spec k n), (Nat.ltb_spec i n); try lia. simpl. f_equal.
      assert (Et : el t k = be m1 n k).
      { unfold t, matrix_get_basis_vector_nD. destruct S1 as (R1 & R2 & R3). rewrite R1, R2, R3. apply el_elems.
        unfold affine_size in H. destruct (mbasis m); lia. }
      rewrite Et, B1. destruct (Nat.ltb_spec n n); [lia|]. auto.
  - intros i k N. rewrite !coef_be, B2, B1. unfold affine_entry in N.
    destruct (Nat.eqb_spec k n), (Nat.ltb_spec k n), (Nat.ltb_spec i n); simpl; auto; exfalso; apply N; lia.
Qed.
End Inverse.

(** "Inverse" is two-sided inverse of the affine map, on all points. *)
Definition inverse_map {T} {Op : Ops T} (n : nat) (m m' : mx T) : Prop :=
  forall p, length p = n -> affine_map n m' (affine_map n m p) = p /\ affine_map n m (affine_map n m' p) = p.

Theorem invert_RT_only_inverse : forall (T : Type) (Op : Ops T) (m : mx T), is_ring T ->
  holds_affine 3 m -> orthogonal_part 3 m ->
  exists m', matrix_invert_RT_only m = Ok m' /\ same_shape m m' /\ inverse_map 3 m m' /\ same_elsewhere (affine_entry 3) m m' /\
    forall p, length p = 3 ->
      exists p' p'', transform_point m p = Ok p' /\ transform_point m' p' = Ok p /\
                     transform_point m' p = Ok p'' /\ transform_point m p'' = Ok p.
Proof.
  intros T Op m RT H O. destruct (invert3_be RT m H) as (m' & E & S & I & F). exists m'. split; auto. split; auto.
  assert (IM : inverse_map 3 m m').
  { intros p L. split; [eapply (rt_inverse_left RT)|eapply (rt_inverse_right RT)]; eauto. }
  split; [exact IM|]. split; auto. intros p L. destruct (IM p L) as [A B].
  assert (H' := shape_affine _ _ _ S H). exists (affine_map 3 m p), (affine_map 3 m' p).
  rewrite !(point3_map RT) by (auto using affine_length). rewrite A, B. auto.
Qed.
Theorem invert_RT_only_2D_inverse : forall (T : Type) (Op : Ops T) (m : mx T), is_ring T ->
  holds_affine 2 m -> orthogonal_part 2 m ->
  exists m', matrix_invert_RT_only_2D m = Ok m' /\ same_shape m m' /\ inverse_map 2 m m' /\ same_elsewhere (affine_entry 2) m m' /\
    forall p, length p = 2 ->
      exists p' p'', transform_point_2D m p = Ok p' /\ transform_point_2D m' p' = Ok p /\
                     transform_point_2D m' p = Ok p'' /\ transform_point_2D m p'' = Ok p.
Proof.
  intros T Op m RT H O. destruct (invert2_be RT m H) as (m' & E & S & I & F). exists m'. split; auto. split; auto.
  assert (IM : inverse_map 2 m m').
  { intros p L. split; [eapply (rt_inverse_left RT)|eapply (rt_inverse_right RT)]; eauto. }
  split; [exact IM|]. split; auto. intros p L. destruct (IM p L) as [A B].
  assert (H' := shape_affine _ _ _ S H). exists (affine_map 2 m p), (affine_map 2 m' p).
  rewrite !(point2_map RT) by (auto using affine_length). rewrite A, B. auto.
Qed.
(** any dimension *)
Theorem invert_RT_inverse : forall (T : Type) (Op : Ops T) (n : nat) (m : mx T), is_ring T ->
  0 < n -> affine_size n m -> orthogonal_part n m ->
  exists m', matrix_invert_RT m = Ok m' /\ same_shape m m' /\ inverse_map n m m' /\ same_elsewhere (affine_entry n) m m'.
Proof.
  intros T Op n m RT Hn H O. destruct (invertn_be RT n m Hn H) as (m' & E & S & I & F). exists m'. repeat split; try apply S; auto.
  - eapply (rt_inverse_left RT); eauto.
  - eapply (rt_inverse_right RT); eauto.
Qed.
(** for a square matrix in affine form it is the inverse matrix: both products are the identity *)
Theorem invert_RT_products : forall (T : Type) (Op : Ops T) (n : nat) (m : mx T), is_ring T ->
  0 < n -> square (n + 1) m -> affine_form n m -> orthogonal_part n m ->
  exists m' l r, matrix_invert_RT m = Ok m' /\ mx_mul m m' = Ok r /\ mx_mul m' m = Ok l /\
    forall i j, i <= n -> j <= n -> mel r i j = kron i j /\ mel l i j = kron i j.
Proof.
  intros T Op n m RT Hn [R C] AF O.
  destruct (invertn_be RT n m Hn) as (m' & E & (R' & C' & BM) & I & F). { unfold affine_size. destruct (mbasis m); lia. }
  exists m'. unfold mx_mul. rewrite R', C', R, C, Nat.eqb_refl. cbn [require bind].
  eexists; eexists. split; [exact E|]. split; [reflexivity|]. split; [reflexivity|].
  assert (AF' : forall k, k <= n -> coef m' n k = kron n k).
  { intros k Hk. rewrite F by (unfold affine_entry; lia). apply AF; lia. }
  assert (AFm : forall k, k <= n -> coef m n k = kron n k) by (intros; apply AF; lia).
  (* a product of coefficient matrices *)
  assert (P : forall a b, (forall k, k <= n -> coef a n k = kron n k) -> (forall k, k <= n -> coef b n k = kron n k) ->
    (forall p, length p = n -> affine_map n a (affine_map n b p) = p) ->
    forall i j, i <= n -> j <= n -> sum (n + 1) (fun k => mul (coef a i k) (coef b k j)) = kron i j).
  { intros a b Ha Hb HI i j Hi Hj. rewrite Nat.add_1_r. cbn [sum]. rewrite Hb by auto.
    assert (HT : forall i, i < n -> add (sum n (fun k => mul (coef a i k) (coef b k n))) (coef a i n) = zero).
    { intros i0 Hi0. assert (Z := HI (repeat zero n) (repeat_length _ _)). apply (f_equal (fun l => nth i0 l zero)) in Z.
      rewrite nth_affine in Z by auto. rewrite nth_repeat in Z. etransitivity; [|exact Z]. f_equal. apply sum_ext. intros k Hk.
      rewrite nth_affine by auto. f_equal. rewrite (sum_zero RT n). { symmetry. apply (Radd_0_l RT). }
      intros q Hq. rewrite nth_repeat. rewrite (Rmul_comm RT). apply (ARmul_0_l (Rth_ARth (Eqsth T) (Eq_ext add mul neg) RT)). }
    assert (AT := Rth_ARth (Eqsth T) (Eq_ext add mul neg) RT).
    destruct (Nat.eq_dec i n) as [->|Ni].
    - rewrite (sum_zero RT). 2:{ intros k Hk. rewrite Ha by lia. unfold kron. destruct (Nat.eqb_spec n k); [lia|]. apply (ARmul_0_l AT). }
      rewrite (Radd_0_l RT), Ha by auto. unfold kron. rewrite Nat.eqb_refl. apply (Rmul_1_l RT).
    - destruct (Nat.eq_dec j n) as [->|Nj].
      + unfold kron at 1. rewrite Nat.eqb_refl, (Rmul_comm RT _ one), (Rmul_1_l RT), HT by lia.
        unfold kron. destruct (Nat.eqb_spec i n); [lia|]. auto.
      + unfold kron at 1. destruct (Nat.eqb_spec n j); [lia|]. rewrite (Rmul_comm RT _ zero), (ARmul_0_l AT), (Radd_comm RT), (Radd_0_l RT).
        set (e := map (fun k => if Nat.eqb j k then one else zero) (seq 0 n)).
        assert (Le : length e = n) by (unfold e; rewrite map_length, seq_length; auto).
        assert (Z := HI e Le). apply (f_equal (fun l => nth i l zero)) in Z. rewrite nth_affine in Z by lia.
        assert (Ne : forall k, k < n -> nth k e zero = kron j k) by (intros; unfold e; rewrite nth_map_seq; auto).
        rewrite Ne in Z by lia. replace (kron i j) with (@kron T Op j i) by (unfold kron; rewrite Nat.eqb_sym; auto). rewrite <- Z.
        assert (D : sum n (fun k => mul (coef a i k) (nth k (affine_map n b e) zero)) =
          add (sum n (fun k => mul (coef a i k) (coef b k j))) (sum n (fun k => mul (coef a i k) (coef b k n)))).
        { rewrite <- (sum_add RT). apply sum_ext. intros k Hk. rewrite nth_affine by auto.
          rewrite (sum_ext n (fun q => mul (coef b k q) (nth q e zero)) (fun q => mul (kron j q) (coef b k q))) by (intros; rewrite Ne by auto; apply (Rmul_comm RT)).
          rewrite (sum_kron RT) by lia. rewrite !(Rmul_comm RT (coef a i k)). apply (Rdistr_l RT). }
        rewrite D, <- (Radd_assoc RT), HT by lia. rewrite (Radd_comm RT), (Radd_0_l RT). auto. }
  assert (P1 := P m m' AFm AF' (fun p L => rt_inverse_right RT n m m' p I O L)).
  assert (P2 := P m' m AF' AFm (fun p L => rt_inverse_left RT n m m' p I O L)).
  intros i j Hi Hj. cbn [mel]. rewrite !(accumulate_sum RT) by lia.
  assert (K : @kron T Op j i = kron i j) by (unfold kron; rewrite Nat.eqb_sym; auto).
  unfold coef in P1, P2. rewrite BM in P1, P2. destruct (mbasis m).
  - split; rewrite <- K; [rewrite <- (P2 j i Hj Hi)|rewrite <- (P1 j i Hj Hi)]; apply sum_ext; intros; apply (Rmul_comm RT).
  - split; [apply P1|apply P2]; auto.
Qed.
Theorem invert_RT_sizes : forall (T : Type) (Op : Ops T) (m : mx T),
  (~ holds_affine 3 m -> matrix_invert_RT_only m = Throw EMinimumMatrixSize) /\
  (~ holds_affine 2 m -> matrix_invert_RT_only_2D m = Throw EMinimumMatrixSize) /\
  (match mbasis m with row_basis => mrows m <> mcols m /\ mrows m <> mcols m + 1 | col_basis => mcols m <> mrows m /\ mcols m <> mrows m + 1 end ->
    matrix_invert_RT m = Throw EAffineMatrixSize).
Proof.
  intros T Op m. repeat split; intros H.
  - unfold matrix_invert_RT_only. rewrite affine_bad3; auto.
  - unfold matrix_invert_RT_only_2D. rewrite affine_bad2; auto.
  - unfold matrix_invert_RT, check_affine. destruct (mbasis m); destruct H as [H1 H2].
    + destruct (Nat.eqb_spec (mrows m) (mcols m)), (Nat.eqb_spec (mrows m) (S (mcols m))); auto; lia.
    + destruct (Nat.eqb_spec (mcols m) (mrows m)), (Nat.eqb_spec (mcols m) (S (mrows m))); auto; lia.
Qed.

(** ** C37 *)
Section Concat.
Context {T : Type} {Op : Ops T}.
Hypothesis RT : ring_theory (zero : T) one add mul sub neg eq.
Add Ring TRing3 : RT.
Lemma concat_coef n (m1 m2 : mx T) : 0 < n -> square n m1 -> square n m2 -> mbasis m1 = mbasis m2 ->
  exists c, matrix_concat m1 m2 = Ok c /\ square n c /\ mbasis c = mbasis m1 /\
    forall i j, coef c i j = sum n (fun k => mul (coef m2 i k) (coef m1 k j)).
Proof.
  intros Hn [R1 C1] [R2 C2] B. unfold matrix_concat, check_mx_square, mx_mul. rewrite R1, C1, R2, C2, Nat.eqb_refl. cbn [require bind].
  destruct (mbasis m1) eqn:B1.
  - eexists. split; [reflexivity|]. repeat split; auto. intros i j. unfold coef. cbn [mel mbasis]. rewrite <- B.
    rewrite B1. rewrite (accumulate_sum RT) by auto. apply sum_ext. intros; ring.
  - eexists. split; [reflexivity|]. repeat split; auto. intros i j. unfold coef. cbn [mel mbasis]. rewrite <- B, B1.
    rewrite (accumulate_sum RT) by auto. reflexivity.
Qed.
Lemma sum_assoc n q (a c : nat -> T) (b : nat -> nat -> T) :
  sum n (fun j => mul (sum q (fun k => mul (a k) (b k j))) (c j)) = sum q (fun k => mul (a k) (sum n (fun j => mul (b k j) (c j)))).
Proof.
  rewrite (sum_ext n _ (fun j => sum q (fun k => mul (mul (a k) (b k j)) (c j)))) by (intros; symmetry; apply (sum_scale_r RT)).
  rewrite (sum_swap RT). apply sum_ext. intros k Hk. rewrite <- (sum_scale RT). apply sum_ext. intros; ring.
Qed.
Lemma sum_split n q (f : nat -> T) : q <= n -> (forall k, q <= k -> k < n -> f k = zero) -> sum n f = sum q f.
Proof. intros; apply (sum_tail RT); auto. Qed.
(** dimension d, matrices of size n > d *)
Lemma concat_affine d n (m1 m2 c : mx T) p : d < n -> square n m1 -> affine_form d m1 ->
  (forall i j, coef c i j = sum n (fun k => mul (coef m2 i k) (coef m1 k j))) -> length p = d ->
  affine_map d c p = affine_map d m2 (affine_map d m1 p).
Proof.
  intros Hd [R C] A Hc L. apply map_seq_list; [apply affine_length|]. intros i Hi. rewrite nth_affine by auto.
  rewrite (sum_ext d (fun k => mul (coef c i k) _) (fun j => mul (sum n (fun k => mul (coef m2 i k) (coef m1 k j))) (nth j p zero))) by (intros; rewrite Hc; auto).
  rewrite sum_assoc, Hc, <- (sum_add RT).
  rewrite (sum_split n (S d)); [|lia|].
  2:{ intros k K1 K2. rewrite (A k d) by lia.
      rewrite (sum_zero RT d) by (intros j Hj; rewrite (A k j) by lia; unfold kron; destruct (Nat.eqb_spec k j); [lia|ring]).
      unfold kron. destruct (Nat.eqb_spec k d); [lia|ring]. }
  cbn [sum]. rewrite (A d d) by lia. rewrite (sum_zero RT d (fun j => mul (coef m1 d j) _)).
  2:{ intros j Hj. rewrite (A d j) by lia. unfold kron. destruct (Nat.eqb_spec d j); [lia|ring]. }
  unfold kron. rewrite Nat.eqb_refl. rewrite (sum_ext d _ (fun k => mul (coef m2 i k) (nth k (affine_map d m1 p) zero))).
  2:{ intros k Hk. rewrite nth_affine by auto. ring. }
  ring.
Qed.
Lemma concat_linear d n (m1 m2 c : mx T) p : d <= n -> square n m1 -> vector_form d m1 ->
  (forall i j, coef c i j = sum n (fun k => mul (coef m2 i k) (coef m1 k j))) -> length p = d ->
  linear_map d c p = linear_map d m2 (linear_map d m1 p).
Proof.
  intros Hd [R C] A Hc L. apply map_seq_list; [apply linear_length|]. intros i Hi. unfold linear_map at 1. rewrite nth_map_seq by auto.
  rewrite (sum_ext d (fun k => mul (coef c i k) _) (fun j => mul (sum n (fun k => mul (coef m2 i k) (coef m1 k j))) (nth j p zero))) by (intros; rewrite Hc; auto).
  rewrite sum_assoc.
  rewrite (sum_split n d); [|lia|].
  2:{ intros k K1 K2. rewrite (sum_zero RT d) by (intros j Hj; rewrite (A k j) by lia; ring). ring. }
  apply sum_ext. intros k Hk. unfold linear_map. rewrite nth_map_seq by auto. auto.
Qed.
End Concat.

(** The concatenation applied to a point is m2 applied to m1 applied to the point. *)
Theorem concat_transforms_points : forall (T : Type) (Op : Ops T) (n : nat) (m1 m2 : mx T) (p : list T), is_ring T ->
  square n m1 -> square n m2 -> mbasis m1 = mbasis m2 ->
  exists c, matrix_concat m1 m2 = Ok c /\
    (4 <= n -> affine_form 3 m1 -> length p = 3 ->
      exists q r, transform_point m1 p = Ok q /\ transform_point m2 q = Ok r /\ transform_point c p = Ok r) /\
    (3 <= n -> affine_form 2 m1 -> length p = 2 ->
      exists q r, transform_point_2D m1 p = Ok q /\ transform_point_2D m2 q = Ok r /\ transform_point_2D c p = Ok r).
Proof.
  intros T Op n m1 m2 p RT S1 S2 B. destruct (Nat.eq_dec n 0) as [->|N].
  { unfold matrix_concat, check_mx_square, mx_mul. destruct S1 as [-> ->], S2 as [-> ->]. simpl.
    destruct (mbasis m1); eexists; (split; [reflexivity|split; intros; lia]). }
  destruct (concat_coef RT n m1 m2) as (c & E & Sc & Bc & Hc); auto; [lia|]. exists c. split; auto.
  assert (HA : forall d (m : mx T), d < n -> square n m -> holds_affine d m).
  { intros d m Hd [R C]. unfold holds_affine. destruct (mbasis m); lia. }
  split; intros Hn A L.
  - exists (affine_map 3 m1 p), (affine_map 3 m2 (affine_map 3 m1 p)).
    rewrite !(point3_map RT) by (auto using affine_length; apply HA; auto; lia).
    repeat split; auto. f_equal. eapply (concat_affine RT); eauto; lia.
  - exists (affine_map 2 m1 p), (affine_map 2 m2 (affine_map 2 m1 p)).
    rewrite !(point2_map RT) by (auto using affine_length; apply HA; auto; lia).
    repeat split; auto. f_equal. eapply (concat_affine RT); eauto; lia.
Qed.
Theorem concat_transforms_vectors : forall (T : Type) (Op : Ops T) (n : nat) (m1 m2 : mx T) (p : list T), is_ring T ->
  square n m1 -> square n m2 -> mbasis m1 = mbasis m2 ->
  exists c, matrix_concat m1 m2 = Ok c /\
    (3 <= n -> vector_form 3 m1 -> length p = 3 ->
      exists q r, transform_vector m1 p = Ok q /\ transform_vector m2 q = Ok r /\ transform_vector c p = Ok r) /\
    (2 <= n -> vector_form 2 m1 -> length p = 2 ->
      exists q r, transform_vector_2D m1 p = Ok q /\ transform_vector_2D m2 q = Ok r /\ transform_vector_2D c p = Ok r) /\
    (n = 4 -> length p = 4 ->
      exists q r, transform_vector_4D m1 p = Ok q /\ transform_vector_4D m2 q = Ok r /\ transform_vector_4D c p = Ok r).
Proof.
  intros T Op n m1 m2 p RT S1 S2 B. destruct (Nat.eq_dec n 0) as [->|N].
  { unfold matrix_concat, check_mx_square, mx_mul. destruct S1 as [-> ->], S2 as [-> ->]. simpl.
    destruct (mbasis m1); eexists; (split; [reflexivity|repeat split; intros; lia]). }
  destruct (concat_coef RT n m1 m2) as (c & E & Sc & Bc & Hc); auto; [lia|]. exists c. split; auto.
  assert (HA : forall d (m : mx T), d <= n -> square n m -> holds_linear d m).
  { intros d m Hd [R C]. unfold holds_linear. lia. }
  repeat split; intros.
  - exists (linear_map 3 m1 p), (linear_map 3 m2 (linear_map 3 m1 p)).
    rewrite !(vector3_map RT) by (auto using linear_length).
    repeat split; auto. f_equal. eapply (concat_linear RT); eauto; lia.
  - exists (linear_map 2 m1 p), (linear_map 2 m2 (linear_map 2 m1 p)).
    rewrite !(vector2_map RT) by (auto using linear_length).
    repeat split; auto. f_equal. eapply (concat_linear RT); eauto; lia.
  - subst n. exists (linear_map 4 m1 p), (linear_map 4 m2 (linear_map 4 m1 p)).
    rewrite !(vector4_map RT) by (auto using linear_length).
    repeat split; auto. f_equal. eapply (concat_linear RT); eauto.
    destruct S1 as [R1 C1]. intros i k. lia.
Qed.
(** Projective transformations of points compose too, where the w coordinates do not vanish. *)
Section Projective.
Context {T : Type} {Op : Ops T}.
Hypothesis FT : field_theory (zero : T) one add mul sub neg div (fun x => div one x) eq.
Add Field TField : FT.
Lemma hom_concat (m1 m2 c : mx T) p i : length p = 3 -> (forall i j, coef c i j = sum 4 (fun k => mul (coef m2 i k) (coef m1 k j))) ->
  hom m1 p 3 <> zero ->
  hom c p i = mul (hom m2 [div (hom m1 p 0) (hom m1 p 3); div (hom m1 p 1) (hom m1 p 3); div (hom m1 p 2) (hom m1 p 3)] i) (hom m1 p 3).
Proof.
  intros L Hc W. unfold hom at 2. cbn [nth].
  transitivity (add (add (add (mul (coef m2 i 0) (hom m1 p 0)) (mul (coef m2 i 1) (hom m1 p 1))) (mul (coef m2 i 2) (hom m1 p 2))) (mul (coef m2 i 3) (hom m1 p 3))).
  - unfold hom. rewrite !Hc. cbn [sum]. ring.
  - field. auto.
Qed.
Lemma div_cancel a b w : b <> zero -> w <> zero -> div (mul a w) (mul b w) = div a b.
Proof. intros. field. auto. Qed.
End Projective.
Theorem concat_transforms_points_4D : forall (T : Type) (Op : Ops T) (m1 m2 : mx T) (p : list T), is_field T ->
  square 4 m1 -> square 4 m2 -> mbasis m1 = mbasis m2 -> length p = 3 ->
  exists c q r, matrix_concat m1 m2 = Ok c /\ transform_point_4D m1 p = Ok q /\ transform_point_4D m2 q = Ok r /\
    (hom m1 p 3 <> zero -> hom m2 q 3 <> zero -> transform_point_4D c p = Ok r).
Proof.
  intros T Op m1 m2 p FT S1 S2 B L. assert (RT := is_field_ring FT).
  destruct (concat_coef RT 4 m1 m2) as (c & E & Sc & Bc & Hc); auto.
  exists c. rewrite (point4_map m1 p S1 L).
  eexists. eexists. split; [exact E|]. split; [reflexivity|]. rewrite (point4_map m2) by (auto || reflexivity). split; [reflexivity|].
  intros W W2. rewrite (point4_map c p Sc L). rewrite !(hom_concat FT m1 m2 c p) by auto.
  rewrite !(div_cancel FT) by auto. reflexivity.
Qed.
(** for a matrix in affine form the projection leaves the affine map *)
Theorem transform_point_4D_affine : forall (T : Type) (Op : Ops T) (m : mx T) (p : list T), is_field T ->
  square 4 m -> affine_form 3 m -> length p = 3 -> transform_point_4D m p = transform_point m p.
Proof.
  intros T Op m p FT [R C] A L. assert (RT := is_field_ring FT). rewrite (point4_map m p) by (auto; split; auto).
  rewrite (point3_map RT) by (auto; unfold holds_affine; destruct (mbasis m); lia).
  destruct (len3 p L) as (x & y & z & ->).
  assert (AT := Rth_ARth (Eqsth T) (Eq_ext add mul neg) RT).
  assert (H3 : hom m [x; y; z] 3 = one).
  { unfold hom. rewrite !A by lia. unfold kron. cbn [Nat.eqb]. rewrite !(ARmul_0_l AT), !(Radd_0_l RT). auto. }
  rewrite H3. assert (D : forall a, div a one = a).
  { intros a. rewrite (Fdiv_def FT). assert (I := Finv_l FT one (F_1_neq_0 FT)). rewrite (Rmul_comm RT), (Rmul_1_l RT) in I.
    rewrite I, (Rmul_comm RT). apply (Rmul_1_l RT). }
  rewrite !D. unfold affine_map, hom. cbn [seq map sum nth]. rewrite !(Radd_0_l RT). reflexivity.
Qed.
Theorem concat_sizes : forall (T : Type) (Op : Ops T) (m1 m2 : mx T), mbasis m1 = mbasis m2 ->
  (mrows m1 <> mcols m1 \/ mrows m2 <> mcols m2 -> matrix_concat m1 m2 = Throw ENonSquareMatrix) /\
  (mrows m1 = mcols m1 -> mrows m2 = mcols m2 -> mrows m1 <> mrows m2 -> matrix_concat m1 m2 = Throw EIncompatibleMatrixInnerSize).
Proof.
  intros T Op m1 m2 _. unfold matrix_concat, check_mx_square, mx_mul. split.
  - intros H. destruct (Nat.eqb_spec (mrows m1) (mcols m1)), (Nat.eqb_spec (mrows m2) (mcols m2)); auto. lia.
  - intros H1 H2 H3. rewrite H1, H2, !Nat.eqb_refl. cbn [require bind]. destruct (mbasis m1).
    + destruct (Nat.eqb_spec (mcols m1) (mrows m2)); [lia|]. destruct (Nat.eqb_spec (mcols m1) (mcols m2)); [lia|auto].
    + destruct (Nat.eqb_spec (mcols m2) (mrows m1)); [lia|]. destruct (Nat.eqb_spec (mcols m2) (mcols m1)); [lia|auto].
Qed.

(** ** C52 *)
Definition translation_entry (n i k : nat) : Prop := i < n /\ k = n.
(** p + t, elementwise *)
Notation plus := (zip add) (only parsing).
Section Helpers.
Context {T : Type} {Op : Ops T}.
Hypothesis RT : ring_theory (zero : T) one add mul sub neg eq.
Add Ring TRing4 : RT.
Lemma affine_linear_plus n (m m' : mx T) t p : length t = n -> (forall i k, i < n -> k < n -> coef m' i k = coef m i k) ->
  (forall i, i < n -> coef m' i n = nth i t zero) -> affine_map n m' p = plus (linear_map n m p) t.
Proof.
  intros L A B. apply map_seq_list.
  { rewrite zip_length; rewrite linear_length; auto. }
  intros i Hi. assert (Z : forall (f : T -> T -> T) u v i, length u = length v -> i < length u -> nth i (zip f u v) zero = f (nth i u zero) (nth i v zero)).
  { clear. induction u as [|a u IH]; intros [|b v] i L H; simpl in *; try lia. destruct i; auto. apply IH; lia. }
  rewrite Z by (rewrite linear_length; auto). rewrite B by auto. f_equal. unfold linear_map. rewrite nth_map_seq by auto. apply sum_ext.
  intros. rewrite A; auto.
Qed.
Lemma linear_identity n (m : mx T) p : length p = n -> linear_map n (mx_identity m) p = p.
Proof.
  intros L. apply map_seq_list; auto. intros i Hi. rewrite (sum_ext n _ (fun k => mul (kron i k) (nth k p zero))) by (intros; rewrite coef_identity; auto).
  apply (sum_kron RT); auto.
Qed.
Lemma linear_ext n (m m' : mx T) p : (forall i k, i < n -> k < n -> coef m' i k = coef m i k) -> linear_map n m' p = linear_map n m p.
Proof.
  intros A. apply map_ext_in. intros i Hi. apply in_seq in Hi. apply sum_ext. intros. rewrite A; auto; lia.
Qed.
Lemma diag3 (m : mx T) a b c x y z : (forall i k, i < 3 -> k <= 3 -> coef m i k = if Nat.eqb i k then nth i [a; b; c] zero else zero) ->
  affine_map 3 m [x; y; z] = [mul a x; mul b y; mul c z] /\ linear_map 3 m [x; y; z] = [mul a x; mul b y; mul c z].
Proof.
  intros V. unfold affine_map, linear_map. cbn [seq map sum nth]. rewrite !V by lia. cbn [Nat.eqb nth].
  split; repeat (f_equal; try ring).
Qed.
Lemma diag2 (m : mx T) a b x y : (forall i k, i < 2 -> k <= 2 -> coef m i k = if Nat.eqb i k then nth i [a; b] zero else zero) ->
  affine_map 2 m [x; y] = [mul a x; mul b y] /\ linear_map 2 m [x; y] = [mul a x; mul b y].
Proof.
  intros V. unfold affine_map, linear_map. cbn [seq map sum nth]. rewrite !V by lia. cbn [Nat.eqb nth].
  split; repeat (f_equal; try ring).
Qed.
Lemma set3 (m : mx T) a b c : holds_affine 3 m -> exists m', matrix_set_translation m a b c = Ok m' /\ same_shape m m' /\
  same_elsewhere (translation_entry 3) m m' /\ forall i, i < 3 -> coef m' i 3 = nth i [a; b; c] zero.
Proof.
  intros H. unfold matrix_set_translation. rewrite affine_ok3 by auto. cbn [bind]. eexists. split; [reflexivity|]. split; [shapes|]. split.
  - intros i k N. rewrite !coef_set. unfold translation_entry in N. destruct (Nat.eqb_spec k 3); simpl; auto.
    destruct i as [|[|[|i]]]; auto; exfalso; apply N; lia.
  - intros i Hi. rewrite !coef_set. destruct i as [|[|[|i]]]; auto; lia.
Qed.
Lemma set2 (m : mx T) a b : holds_affine 2 m -> exists m', matrix_set_translation_2D m a b = Ok m' /\ same_shape m m' /\
  same_elsewhere (translation_entry 2) m m' /\ forall i, i < 2 -> coef m' i 2 = nth i [a; b] zero.
Proof.
  intros H. unfold matrix_set_translation_2D. rewrite affine_ok2 by auto. cbn [bind]. eexists. split; [reflexivity|]. split; [shapes|]. split.
  - intros i k N. rewrite !coef_set. unfold translation_entry in N. destruct (Nat.eqb_spec k 2); simpl; auto.
    destruct i as [|[|i]]; auto; exfalso; apply N; lia.
  - intros i Hi. rewrite !coef_set. destruct i as [|[|i]]; auto; lia.
Qed.
End Helpers.

(** Setting the translation changes the translation only. *)
Theorem set_translation_spec : forall (T : Type) (Op : Ops T) (m : mx T) (a b c : T), is_ring T -> holds_affine 3 m ->
  exists m', matrix_set_translation m a b c = Ok m' /\ same_shape m m' /\ same_elsewhere (translation_entry 3) m m' /\
    matrix_get_translation m' = Ok [a; b; c] /\
    forall p, length p = 3 -> transform_point m' p = Ok (plus (linear_map 3 m p) [a; b; c]) /\ transform_vector m' p = transform_vector m p.
Proof.
  intros T Op m a b c RT H. destruct (set3 m a b c H) as (m' & E & S & F & V). exists m'. repeat split; try apply S; auto.
  - assert (HA := shape_affine _ _ _ S H). unfold matrix_get_translation. rewrite affine_ok3 by auto. cbn [bind].
    rewrite <- !coef_be, !V by lia. auto.
  - assert (HA := shape_affine _ _ _ S H). rewrite (point3_map RT) by auto. f_equal. apply affine_linear_plus; auto.
    intros. apply F. unfold translation_entry. lia.
  - assert (HA := shape_affine _ _ _ S H). rewrite !(vector3_map RT) by (auto using affine_linear). f_equal. apply linear_ext.
    intros. apply F. unfold translation_entry. lia.
Qed.
Theorem set_translation_2D_spec : forall (T : Type) (Op : Ops T) (m : mx T) (a b : T), is_ring T -> holds_affine 2 m ->
  exists m', matrix_set_translation_2D m a b = Ok m' /\ same_shape m m' /\ same_elsewhere (translation_entry 2) m m' /\
    matrix_get_translation_2D m' = Ok [a; b] /\
    forall p, length p = 2 -> transform_point_2D m' p = Ok (plus (linear_map 2 m p) [a; b]) /\ transform_vector_2D m' p = transform_vector_2D m p.
Proof.
  intros T Op m a b RT H. destruct (set2 m a b H) as (m' & E & S & F & V). exists m'. repeat split; try apply S; auto.
  - assert (HA := shape_affine _ _ _ S H). unfold matrix_get_translation_2D. rewrite affine_ok2 by auto. cbn [bind].
    rewrite <- !coef_be, !V by lia. auto.
  - assert (HA := shape_affine _ _ _ S H). rewrite (point2_map RT) by auto. f_equal. apply affine_linear_plus; auto.
    intros. apply F. unfold translation_entry. lia.
  - assert (HA := shape_affine _ _ _ S H). rewrite !(vector2_map RT) by (auto using affine_linear). f_equal. apply linear_ext.
    intros. apply F. unfold translation_entry. lia.
Qed.
(** A translation matrix moves points, leaves vectors alone, and is the identity elsewhere. *)
Theorem translation_moves_points : forall (T : Type) (Op : Ops T) (m : mx T) (a b c : T), is_ring T -> holds_affine 3 m ->
  exists m', matrix_translation m a b c = Ok m' /\ same_shape m m' /\ same_elsewhere (translation_entry 3) (mx_identity m) m' /\
    forall p, length p = 3 -> transform_point m' p = Ok (plus p [a; b; c]) /\ transform_vector m' p = Ok p.
Proof.
  intros T Op m a b c RT H. unfold matrix_translation.
  destruct (set_translation_spec T Op (mx_identity m) a b c RT) as (m' & E & S & F & _ & V). { apply (shape_affine _ m); auto. apply shape_identity. }
  exists m'. split; auto. split; [exact S|]. split; auto. intros p L. destruct (V p L) as [V1 V2]. rewrite V1, V2.
  rewrite (linear_identity RT) by auto. split; auto. rewrite (vector3_map RT); auto. rewrite (linear_identity RT) by auto. auto.
  apply affine_linear in H. exact H.
Qed.
Theorem translation_2D_moves_points : forall (T : Type) (Op : Ops T) (m : mx T) (a b : T), is_ring T -> holds_affine 2 m ->
  exists m', matrix_translation_2D m a b = Ok m' /\ same_shape m m' /\ same_elsewhere (translation_entry 2) (mx_identity m) m' /\
    forall p, length p = 2 -> transform_point_2D m' p = Ok (plus p [a; b]) /\ transform_vector_2D m' p = Ok p.
Proof.
  intros T Op m a b RT H. unfold matrix_translation_2D.
  destruct (set_translation_2D_spec T Op (mx_identity m) a b RT) as (m' & E & S & F & _ & V). { apply (shape_affine _ m); auto. apply shape_identity. }
  exists m'. split; auto. split; [exact S|]. split; auto. intros p L. destruct (V p L) as [V1 V2]. rewrite V1, V2.
  rewrite (linear_identity RT) by auto. split; auto. rewrite (vector2_map RT); auto. rewrite (linear_identity RT) by auto. auto.
  apply affine_linear in H. exact H.
Qed.
(** Translations given by a vector of 2 or 3 elements; other sizes throw.  Any scalar type. *)
Theorem translation_vectors : forall (T : Type) (Op : Ops T) (m : mx T) (v : list T),
  (forall a b c, v = [a; b; c] -> matrix_set_translation_v m v = matrix_set_translation m a b c /\ matrix_translation_v m v = matrix_translation m a b c) /\
  (forall a b, v = [a; b] ->
    matrix_set_translation_v m v = matrix_set_translation m a b zero /\ matrix_translation_v m v = matrix_translation m a b zero /\
    matrix_set_translation_xy m a b = matrix_set_translation m a b zero /\ matrix_translation_xy m a b = matrix_translation m a b zero /\
    matrix_set_translation_2D_v m v = matrix_set_translation_2D m a b /\ matrix_translation_2D_v m v = matrix_translation_2D m a b) /\
  (length v <> 2 -> length v <> 3 -> matrix_set_translation_v m v = Throw EVectorSizeRange /\ matrix_translation_v m v = Throw EVectorSizeRange) /\
  (length v <> 2 -> matrix_set_translation_2D_v m v = Throw EVectorSize /\ matrix_translation_2D_v m v = Throw EVectorSize).
Proof.
  intros T Op m v. repeat split; intros; subst; try reflexivity.
  - unfold matrix_set_translation_v, check_size_range. destruct (Nat.leb_spec 2 (length v)), (Nat.leb_spec (length v) 3); auto; lia.
  - unfold matrix_translation_v, matrix_set_translation_v, check_size_range. destruct (Nat.leb_spec 2 (length v)), (Nat.leb_spec (length v) 3); auto; lia.
  - unfold matrix_set_translation_2D_v, check_size. destruct (Nat.eqb_spec (length v) 2); auto; lia.
  - unfold matrix_translation_2D_v, matrix_set_translation_2D_v, check_size. destruct (Nat.eqb_spec (length v) 2); auto; lia.
Qed.
Theorem helpers_sizes : forall (T : Type) (Op : Ops T) (MO : MathOps T) (m : mx T) (a b c : T),
  (~ holds_affine 3 m -> forall l v,
    matrix_set_translation m a b c = Throw EMinimumMatrixSize /\ matrix_get_translation m = Throw EMinimumMatrixSize /\
    matrix_translation m a b c = Throw EMinimumMatrixSize /\ matrix_scale m a b c = Throw EMinimumMatrixSize /\
    matrix_inverse_scale m a b c = Throw EMinimumMatrixSize /\ matrix_affine_transform m l v = Throw EMinimumMatrixSize /\
    forall p t u h, matrix_look_at m p t u h = Throw EMinimumMatrixSize) /\
  (~ holds_affine 2 m ->
    matrix_set_translation_2D m a b = Throw EMinimumMatrixSize /\ matrix_get_translation_2D m = Throw EMinimumMatrixSize /\
    matrix_translation_2D m a b = Throw EMinimumMatrixSize /\ matrix_scale_2D m a b = Throw EMinimumMatrixSize /\
    matrix_inverse_scale_2D m a b = Throw EMinimumMatrixSize) /\
  (forall l, ~ holds_linear 3 m \/ ~ holds_linear 3 l -> matrix_linear_transform m l = Throw EMinimumMatrixSize).
Proof.
  intros T Op MO m a b c. split; [|split].
  - intros H l v. assert (H' : ~ holds_affine 3 (mx_identity m)) by exact H.
    unfold matrix_set_translation, matrix_get_translation, matrix_translation, matrix_set_translation, matrix_inverse_scale, matrix_scale, matrix_affine_transform, matrix_look_at.
    rewrite !(affine_bad3 m H), !(affine_bad3 _ H'). repeat split.
  - intros H. assert (H' : ~ holds_affine 2 (mx_identity m)) by exact H.
    unfold matrix_set_translation_2D, matrix_get_translation_2D, matrix_translation_2D, matrix_set_translation_2D, matrix_inverse_scale_2D, matrix_scale_2D.
    rewrite !(affine_bad2 m H), !(affine_bad2 _ H'). repeat split.
  - intros l [H|H]; unfold matrix_linear_transform, check_linear_3D.
    + rewrite (linear_bad 3); auto.
    + rewrite (linear_bad 3 l) by auto. unfold check_minimum_size, require. destruct (_ && _); auto.
Qed.
(** Scaling multiplies each coordinate; the translation is zero. *)
Theorem scale_spec : forall (T : Type) (Op : Ops T) (m : mx T) (a b c : T), is_ring T -> holds_affine 3 m ->
  exists m', matrix_scale m a b c = Ok m' /\ same_shape m m' /\ same_elsewhere (fun i k => i < 3 /\ k < 3) (mx_identity m) m' /\
    forall x y z, transform_point m' [x; y; z] = Ok [mul a x; mul b y; mul c z] /\ transform_vector m' [x; y; z] = Ok [mul a x; mul b y; mul c z].
Proof.
  intros T Op m a b c RT H. unfold matrix_scale. rewrite affine_ok3 by auto. cbn [bind]. eexists. split; [reflexivity|]. split.
  { eapply shape_trans; [apply shape_identity|]. shapes. }
  split.
  { intros i k N. rewrite !coef_set. destruct (Nat.eqb_spec k 2), (Nat.eqb_spec i 2), (Nat.eqb_spec k 1), (Nat.eqb_spec i 1), (Nat.eqb_spec k 0), (Nat.eqb_spec i 0); simpl; auto; exfalso; apply N; lia. }
  set (m' := set_be _ 2 2 c). assert (S : same_shape m m') by (unfold m'; eapply shape_trans; [apply shape_identity|]; shapes).
  assert (V : forall i k, i < 3 -> k <= 3 -> coef m' i k = if Nat.eqb i k then nth i [a; b; c] zero else zero).
  { intros i k Hi Hk. unfold m'. rewrite !coef_set, coef_identity. unfold kron. destruct i as [|[|[|i]]], k as [|[|[|[|k]]]]; try lia; reflexivity. }
  intros x y z. rewrite (point3_map RT), (vector3_map RT) by (auto; eauto using shape_affine, shape_linear, affine_linear).
  clearbody m'. destruct (diag3 RT m' a b c x y z V) as [-> ->]. auto.
Qed.
Theorem scale_2D_spec : forall (T : Type) (Op : Ops T) (m : mx T) (a b : T), is_ring T -> holds_affine 2 m ->
  exists m', matrix_scale_2D m a b = Ok m' /\ same_shape m m' /\ same_elsewhere (fun i k => i < 2 /\ k < 2) (mx_identity m) m' /\
    forall x y, transform_point_2D m' [x; y] = Ok [mul a x; mul b y] /\ transform_vector_2D m' [x; y] = Ok [mul a x; mul b y].
Proof.
  intros T Op m a b RT H. unfold matrix_scale_2D. rewrite affine_ok2 by auto. cbn [bind]. eexists. split; [reflexivity|]. split.
  { eapply shape_trans; [apply shape_identity|]. shapes. }
  split.
  { intros i k N. rewrite !coef_set. destruct (Nat.eqb_spec k 1), (Nat.eqb_spec i 1), (Nat.eqb_spec k 0), (Nat.eqb_spec i 0); simpl; auto; exfalso; apply N; lia. }
  set (m' := set_be _ 1 1 b). assert (S : same_shape m m') by (unfold m'; eapply shape_trans; [apply shape_identity|]; shapes).
  assert (V : forall i k, i < 2 -> k <= 2 -> coef m' i k = if Nat.eqb i k then nth i [a; b] zero else zero).
  { intros i k Hi Hk. unfold m'. rewrite !coef_set, coef_identity. unfold kron. destruct i as [|[|i]], k as [|[|[|k]]]; try lia; reflexivity. }
  intros x y. rewrite (point2_map RT), (vector2_map RT) by (auto; eauto using shape_affine, shape_linear, affine_linear).
  clearbody m'. destruct (diag2 RT m' a b x y V) as [-> ->]. auto.
Qed.
(** the other ways of giving the factors *)
Theorem scale_variants : forall (T : Type) (Op : Ops T) (m : mx T) (a b c : T) (v : list T),
  matrix_uniform_scale m a = matrix_scale m a a a /\ matrix_uniform_scale_2D m a = matrix_scale_2D m a a /\
  matrix_scale_v m [a; b; c] = matrix_scale m a b c /\ matrix_scale_2D_v m [a; b] = matrix_scale_2D m a b /\
  matrix_inverse_scale_v m [a; b; c] = matrix_inverse_scale m a b c /\ matrix_inverse_scale_2D_v m [a; b] = matrix_inverse_scale_2D m a b /\
  (length v <> 3 -> matrix_scale_v m v = Throw EVectorSize /\ matrix_inverse_scale_v m v = Throw EVectorSize) /\
  (length v <> 2 -> matrix_scale_2D_v m v = Throw EVectorSize /\ matrix_inverse_scale_2D_v m v = Throw EVectorSize).
Proof.
  intros T Op m a b c v. do 6 (split; [reflexivity|]). unfold matrix_scale_v, matrix_inverse_scale_v, matrix_scale_2D_v, matrix_inverse_scale_2D_v, check_size.
  split; intros H; apply Nat.eqb_neq in H; rewrite H; auto.
Qed.
(** Inverse scaling undoes scaling, in a field, by nonzero factors. *)
Theorem inverse_scale_undoes : forall (T : Type) (Op : Ops T) (m : mx T) (a b c : T), is_field T -> a <> zero -> b <> zero -> c <> zero ->
  (holds_affine 3 m -> exists s i, matrix_scale m a b c = Ok s /\ matrix_inverse_scale m a b c = Ok i /\
    forall p, length p = 3 -> exists q r, transform_point s p = Ok q /\ transform_point i q = Ok p /\ transform_point i p = Ok r /\ transform_point s r = Ok p) /\
  (holds_affine 2 m -> exists s i, matrix_scale_2D m a b = Ok s /\ matrix_inverse_scale_2D m a b = Ok i /\
    forall p, length p = 2 -> exists q r, transform_point_2D s p = Ok q /\ transform_point_2D i q = Ok p /\ transform_point_2D i p = Ok r /\ transform_point_2D s r = Ok p).
Proof.
  intros T Op m a b c FT Ha Hb Hc. assert (RT := is_field_ring FT).
  assert (I : forall u x : T, u <> zero -> mul (div one u) (mul u x) = x /\ mul u (mul (div one u) x) = x).
  { intros u x Hu. assert (K := Finv_l FT u Hu). split; rewrite (Rmul_assoc RT).
    - rewrite K. apply (Rmul_1_l RT).
    - rewrite (Rmul_comm RT u), K. apply (Rmul_1_l RT). }
  split; intros H.
  - destruct (scale_spec T Op m a b c RT H) as (s & E & _ & _ & V).
    destruct (scale_spec T Op m (div one a) (div one b) (div one c) RT H) as (i & E' & _ & _ & V').
    exists s, i. split; auto. split; auto. intros p L. destruct (len3 p L) as (x & y & z & ->).
    eexists; eexists. split; [apply V|]. split; [|split; [apply V'|]].
    + rewrite (proj1 (V' _ _ _)). repeat f_equal; apply I; auto.
    + rewrite (proj1 (V _ _ _)). repeat f_equal; apply I; auto.
  - destruct (scale_2D_spec T Op m a b RT H) as (s & E & _ & _ & V).
    destruct (scale_2D_spec T Op m (div one a) (div one b) RT H) as (i & E' & _ & _ & V').
    exists s, i. split; auto. split; auto. intros p L. destruct (len2 p L) as (x & y & ->).
    eexists; eexists. split; [apply V|]. split; [|split; [apply V'|]].
    + rewrite (proj1 (V' _ _)). repeat f_equal; apply I; auto.
    + rewrite (proj1 (V _ _)). repeat f_equal; apply I; auto.
Qed.

(** Copying the linear part of another matrix, which may have the other orientation and any larger size. *)
Lemma copy_linear_coef {T} {Op : Ops T} (m l : mx T) : same_shape m (copy_linear m (fun _ => l)) /\
  forall i k, coef (copy_linear m (fun _ => l)) i k = if Nat.ltb i 3 && Nat.ltb k 3 then coef l i k else coef m i k.
Proof.
  unfold copy_linear. cbn [seq fold_left]. split; [shapes|].
  intros i k. rewrite !coef_set. rewrite !coef_be.
  destruct i as [|[|[|i]]], k as [|[|[|k]]]; cbn [Nat.eqb andb Nat.ltb Nat.leb]; auto.
Qed.
Theorem linear_transform_spec : forall (T : Type) (Op : Ops T) (m l : mx T), is_ring T -> holds_linear 3 m -> holds_linear 3 l ->
  exists m', matrix_linear_transform m l = Ok m' /\ same_shape m m' /\ same_elsewhere (fun i k => i < 3 /\ k < 3) (mx_identity m) m' /\
    forall p, length p = 3 -> transform_vector m' p = transform_vector l p /\
      (holds_affine 3 m -> transform_point m' p = transform_vector l p).
Proof.
  intros T Op m l RT Hm Hl. unfold matrix_linear_transform. rewrite !linear_ok3 by auto. cbn [bind].
  destruct (copy_linear_coef (mx_identity m) l) as [S V]. eexists. split; [reflexivity|]. split; [exact S|]. split.
  { intros i k N. rewrite V. destruct (Nat.ltb_spec i 3), (Nat.ltb_spec k 3); simpl; auto. exfalso; apply N; lia. }
  intros p L.
  assert (X : forall i k, i < 3 -> k < 3 -> coef (copy_linear (mx_identity m) (fun _ => l)) i k = coef l i k).
  { intros i k Hi Hk. rewrite V. destruct (Nat.ltb_spec i 3), (Nat.ltb_spec k 3); simpl; auto; lia. }
  split.
  - rewrite !(vector3_map RT); auto. { f_equal. apply linear_ext. auto. } eapply shape_linear; [exact S|]. auto.
  - intros HA. rewrite (vector3_map RT) by auto. rewrite (point3_map RT) by (auto; eapply (shape_affine _ _ _ S); auto using affine_linear).
    f_equal. assert (AT := Rth_ARth (Eqsth T) (Eq_ext add mul neg) RT).
    apply map_ext_in. intros i Hi. apply in_seq in Hi. rewrite V. rewrite andb_false_r, coef_identity.
    unfold kron. destruct (Nat.eqb_spec i 3); [lia|]. rewrite (Radd_comm RT), (Radd_0_l RT). apply sum_ext. intros. rewrite X by lia. auto.
Qed.
(** ... but not when it is the matrix being written: then the result is the identity. *)
Theorem linear_transform_self_identity : forall (T : Type) (Op : Ops T) (m : mx T), holds_linear 3 m ->
  exists m', matrix_linear_transform_own m = Ok m' /\ same_shape m m' /\ forall i k, mel m' i k = if Nat.eqb i k then one else zero.
Proof.
  intros T Op m H. unfold matrix_linear_transform_own. rewrite !linear_ok3 by auto. cbn [bind]. eexists. split; [reflexivity|].
  assert (K : forall m0 : mx T, forall i j, same_shape m0 (set_be m0 i j (be m0 i j)) /\ forall a b, be (set_be m0 i j (be m0 i j)) a b = be m0 a b).
  { intros m0 i j. split; [apply shape_set|]. intros a b. rewrite be_setg. destruct (Nat.eqb_spec a i), (Nat.eqb_spec b j); simpl; subst; auto. }
  assert (G : forall ls (m0 : mx T), let m' := fold_left (fun m i => fold_left (fun m j => set_be m i j (be m i j)) (seq 0 3) m) ls m0 in
    same_shape m0 m' /\ forall a b, be m' a b = be m0 a b).
  { induction ls as [|i ls IH]; intros m0; [split; [apply shape_refl|auto]|]. cbn [fold_left].
    assert (J : forall js (m0 : mx T), let m' := fold_left (fun m j => set_be m i j (be m i j)) js m0 in same_shape m0 m' /\ forall a b, be m' a b = be m0 a b).
    { induction js as [|j js IJ]; intros m1; [split; [apply shape_refl|auto]|]. cbn [fold_left]. destruct (IJ (set_be m1 i j (be m1 i j))) as [A B].
      destruct (K m1 i j) as [C D]. split; [eapply shape_trans; eauto|]. intros. rewrite B. apply D. }
    destruct (J (seq 0 3) m0) as [A B]. destruct (IH (fold_left (fun m j => set_be m i j (be m i j)) (seq 0 3) m0)) as [C D].
    split; [eapply shape_trans; eauto|]. intros. rewrite D. apply B. }
  destruct (G (seq 0 3) (mx_identity m)) as [A B]. split; [exact A|]. intros i k. unfold copy_linear. cbv zeta in B, A.
  assert (BE : forall x : mx T, mel x i k = match mbasis x with row_basis => be x i k | col_basis => be x k i end).
  { intros x. unfold be. destruct (mbasis x); auto. }
  rewrite BE. destruct A as (_ & _ & ->). cbn [mbasis mx_identity]. destruct (mbasis m) eqn:E; rewrite B; unfold be; cbn [mbasis mx_identity mel]; rewrite E; auto.
Qed.
Theorem linear_transform_self_refuted : exists (m m' : mx Z) (p : list Z), holds_linear 3 m /\ length p = 3 /\
  matrix_linear_transform_own m = Ok m' /\ transform_vector m' p <> transform_vector m p.
Proof.
  set (m := Mx 3 3 col_basis (fun i j => if Nat.eqb i j then 2%Z else 0%Z)).
  exists m. destruct (linear_transform_self_identity Z ZOps m) as (m' & E & (R & C & B) & V); [split; auto|].
  exists m', [1%Z; 0%Z; 0%Z]. split; [split; auto|]. split; auto. split; auto.
  unfold transform_vector, check_minimum_size, be. rewrite R, C, B. cbn [m mbasis mrows mcols Nat.leb andb require bind]. rewrite !V. vm_compute. discriminate.
Qed.
(** Affine transformation from a linear part and a translation *)
Theorem affine_transform_spec : forall (T : Type) (Op : Ops T) (m l : mx T) (t : list T) (t3 : list T), is_ring T -> holds_affine 3 m -> holds_linear 3 l ->
  t = t3 /\ length t3 = 3 \/ length t = 2 /\ t3 = t ++ [zero] ->
  exists m', matrix_affine_transform m l t = Ok m' /\ same_shape m m' /\ same_elsewhere (affine_entry 3) (mx_identity m) m' /\
    forall p q, transform_vector l p = Ok q -> transform_vector m' p = Ok q /\ transform_point m' p = Ok (plus q t3).
Proof.
  intros T Op m l t t3 RT Hm Hl Ht. unfold matrix_affine_transform. rewrite affine_ok3 by auto. cbn [bind].
  destruct (linear_transform_spec T Op m l RT (affine_linear _ _ Hm) Hl) as (m1 & -> & S1 & F1 & V1). cbn [bind].
  assert (Et : exists a b c, t3 = [a; b; c] /\ matrix_set_translation_v m1 t = matrix_set_translation m1 a b c).
  { destruct Ht as [[-> L]|[L ->]].
    - destruct (len3 _ L) as (a & b & c & ->). exists a, b, c. split; auto.
    - destruct (len2 _ L) as (a & b & ->). exists a, b, zero. split; auto. }
  destruct Et as (a & b & c & -> & ->).
  destruct (set_translation_spec T Op m1 a b c RT (shape_affine _ _ _ S1 Hm)) as (m' & E & S2 & F2 & _ & V2).
  exists m'. split; auto. split; [eapply shape_trans; eauto|]. split.
  { intros i k N. unfold affine_entry, translation_entry in *. rewrite F2, F1; auto; [|unfold translation_entry]; lia. }
  intros p q Q. assert (L : length p = 3).
  { unfold transform_vector, check_size in Q. destruct (check_minimum_size l 3 3); try discriminate Q. cbn [bind] in Q.
    destruct (Nat.eqb_spec (length p) 3); auto. discriminate Q. }
  destruct (V2 p L) as [P2 W2]. destruct (V1 p L) as [W1 _]. rewrite W2, W1, P2, Q. split; auto. f_equal. f_equal.
  assert (W := W1). rewrite Q, (vector3_map RT) in W by (auto; eapply (shape_linear _ _ _ S1); auto using affine_linear). congruence.
Qed.
(** The skew-symmetric matrix of v is w -> cross(v, w). *)
Section Skew.
Context {T : Type} {Op : Ops T}.
Hypothesis RT : ring_theory (zero : T) one add mul sub neg eq.
Add Ring TRing5 : RT.
Lemma skew_maps (m m' : mx T) a b c x y z : matrix_skew_symmetric m [a; b; c] = Ok m' ->
  linear_map 3 m' [x; y; z] = [sub (mul b z) (mul c y); sub (mul c x) (mul a z); sub (mul a y) (mul b x)].
Proof.
  unfold matrix_skew_symmetric. destruct (check_linear_3D m); try discriminate. cbn [bind check_size length Nat.eqb require].
  intros E; injection E as <-. unfold linear_map. cbn [seq map sum nth]. rewrite !coef_set. cbn [Nat.eqb andb].
  unfold el. cbn [nth]. assert (Z : forall i k, coef (mx_zero m) i k = zero) by (intros; unfold coef; destruct (mbasis (mx_zero m)); auto).
  rewrite !Z. repeat (f_equal; try ring).
Qed.
Lemma mxvec3_map (m : mx T) p : square 3 m -> length p = 3 ->
  match mbasis m with col_basis => mx_vec m p | row_basis => vec_mx p m end = Ok (linear_map 3 m p).
Proof.
  intros [H1 H2] L. unfold mx_vec, vec_mx. rewrite H1, H2, L. cbn [bind Nat.eqb require andb].
  unfold linear_map, coef. destruct (mbasis m); unfold elems; cbn [seq map sum accumulate fold_left Nat.sub]; unfold el; repeat (f_equal; try ring).
Qed.
Lemma skew2_maps (m m' : mx T) s x y : matrix_skew_symmetric_2D m s = Ok m' -> linear_map 2 m' [x; y] = [neg (mul s y); mul s x].
Proof.
  unfold matrix_skew_symmetric_2D. destruct (check_linear_2D m); try discriminate. cbn [bind].
  intros E; injection E as <-. unfold linear_map. cbn [seq map sum nth]. rewrite !coef_set. cbn [Nat.eqb andb].
  assert (Z : forall i k, coef (mx_zero m) i k = zero) by (intros; unfold coef; destruct (mbasis (mx_zero m)); auto).
  rewrite !Z. repeat (f_equal; try ring).
Qed.
End Skew.
Theorem skew_symmetric_is_cross : forall (T : Type) (Op : Ops T) (m : mx T) (v w : list T), is_ring T -> holds_linear 3 m -> length v = 3 -> length w = 3 ->
  exists m', matrix_skew_symmetric m v = Ok m' /\ same_shape m m' /\ transform_vector m' w = vcross3 v w /\
    (square 3 m -> match mbasis m with col_basis => mx_vec m' w | row_basis => vec_mx w m' end = vcross3 v w) /\
    forall i j, mel m' i j = neg (mel m' j i) \/ mel m' i j = zero /\ mel m' j i = zero.
Proof.
  intros T Op m v w RT H Lv Lw. destruct (len3 v Lv) as (a & b & c & ->), (len3 w Lw) as (x & y & z & ->).
  assert (E : exists m', matrix_skew_symmetric m [a; b; c] = Ok m') by (unfold matrix_skew_symmetric; rewrite linear_ok3 by auto; eexists; reflexivity).
  destruct E as (m' & E). exists m'. split; auto.
  assert (S : same_shape m m').
  { unfold matrix_skew_symmetric in E. rewrite linear_ok3 in E by auto. injection E as <-. apply shape_trans with (b := mx_zero m); [repeat split|]. shapes. }
  split; [exact S|]. assert (K := skew_maps RT m m' a b c x y z E).
  assert (V : transform_vector m' [x; y; z] = vcross3 [a; b; c] [x; y; z]).
  { rewrite (vector3_map RT) by (auto; eapply shape_linear; eauto). rewrite K. reflexivity. }
  split; [exact V|]. split.
  - intros [R C]. rewrite vcross3_val, <- K. destruct S as (SR & SC & SB). rewrite <- SB. apply (mxvec3_map RT); auto. split; congruence.
  - unfold matrix_skew_symmetric in E. rewrite linear_ok3 in E by auto. injection E as <-. intros i j.
    assert (NN : forall u : T, u = neg (neg u)). { intros u. symmetry. apply (Ropp_opp (Eqsth T) (Eq_ext add mul neg) RT). }
    assert (BE : forall (x : mx T) i k, mel x i k = match mbasis x with row_basis => be x i k | col_basis => be x k i end).
    { intros q i0 k0. unfold be. destruct (mbasis q); auto. }
    rewrite !BE. rewrite !be_setg. match goal with |- context [match ?q with row_basis => _ | col_basis => _ end] => destruct q end;
    unfold el; cbn [nth]; unfold be; cbn [mx_zero mel mbasis];
    destruct i as [|[|[|i]]], j as [|[|[|j]]]; cbn [Nat.eqb andb]; destruct (mbasis m); auto.
Qed.
Theorem skew_symmetric_2D_spec : forall (T : Type) (Op : Ops T) (m : mx T) (s x y : T), is_ring T -> holds_linear 2 m ->
  exists m', matrix_skew_symmetric_2D m s = Ok m' /\ same_shape m m' /\ transform_vector_2D m' [x; y] = Ok [neg (mul s y); mul s x].
Proof.
  intros T Op m s x y RT H.
  assert (E : exists m', matrix_skew_symmetric_2D m s = Ok m') by (unfold matrix_skew_symmetric_2D; rewrite linear_ok2 by auto; eexists; reflexivity).
  destruct E as (m' & E). exists m'. split; auto.
  assert (S : same_shape m m').
  { unfold matrix_skew_symmetric_2D in E. rewrite linear_ok2 in E by auto. injection E as <-. apply shape_trans with (b := mx_zero m); [repeat split|]. shapes. }
  split; [exact S|]. rewrite (vector2_map RT) by (auto; eapply shape_linear; eauto). f_equal. eapply (skew2_maps RT); eauto.
Qed.
(** Basis vectors: the images of the coordinate axes, and what setting one changes. *)
Definition axis_vector {T} {Op : Ops T} (n k : nat) : list T := map (fun i => if Nat.eqb i k then one else zero) (seq 0 n).
Lemma axis_index_ok n i : (0 <= i < Z.of_nat n)%Z -> axis_index n i = Ok (Z.to_nat i).
Proof.
  intros [A B]. unfold axis_index, require. apply Z.leb_le in A. apply Z.ltb_lt in B. rewrite A, B. auto.
Qed.
Lemma axis_index_bad n i : ~ (0 <= i < Z.of_nat n)%Z -> axis_index n i = Throw EInvalidArgument.
Proof.
  intros H. unfold axis_index, require. destruct (Z.leb_spec 0 i), (Z.ltb_spec i (Z.of_nat n)); auto. exfalso; apply H; lia.
Qed.
Theorem basis_vector_is_image : forall (T : Type) (Op : Ops T) (m : mx T) (i : Z), is_ring T ->
  (holds_linear 3 m -> (0 <= i < 3)%Z -> matrix_get_basis_vector m i = transform_vector m (axis_vector 3 (Z.to_nat i))) /\
  (holds_linear 2 m -> (0 <= i < 2)%Z -> matrix_get_basis_vector_2D m i = transform_vector_2D m (axis_vector 2 (Z.to_nat i))).
Proof.
  intros T Op m i RT.
  assert (G : forall d, (0 <= i < Z.of_nat d)%Z -> linear_map d m (axis_vector d (Z.to_nat i)) = map (fun j => be m (Z.to_nat i) j) (seq 0 d)).
  { intros d Hi. apply map_ext_in. intros j Hj. apply in_seq in Hj.
    rewrite (sum_ext d _ (fun k => mul (kron (Z.to_nat i) k) (coef m j k))).
    - rewrite (sum_kron RT) by lia. apply coef_be.
    - intros k Hk. unfold axis_vector. rewrite nth_map_seq by auto. unfold kron. rewrite Nat.eqb_sym. apply (Rmul_comm RT). }
  split; intros H Hi.
  - unfold matrix_get_basis_vector. rewrite linear_ok3, (axis_index_ok 3) by (auto; lia). cbn [bind].
    rewrite (vector3_map RT) by auto. rewrite G by (simpl; lia). reflexivity.
  - unfold matrix_get_basis_vector_2D. rewrite linear_ok2, (axis_index_ok 2) by (auto; lia). cbn [bind].
    rewrite (vector2_map RT) by auto. rewrite G by (simpl; lia). reflexivity.
Qed.
Theorem set_basis_vector_spec : forall (T : Type) (Op : Ops T) (m : mx T) (i : Z) (v : list T), holds_linear 3 m -> (0 <= i < 3)%Z -> length v = 3 ->
  (exists m', matrix_set_basis_vector m i v = Ok m' /\ same_shape m m' /\ same_elsewhere (fun a k => a < 3 /\ k = Z.to_nat i) m m' /\
    matrix_get_basis_vector m' i = Ok v /\ forall j, j <> i -> matrix_get_basis_vector m' j = matrix_get_basis_vector m j) /\
  (exists m', matrix_set_transposed_basis_vector m i v = Ok m' /\ same_shape m m' /\ same_elsewhere (fun a k => a = Z.to_nat i /\ k < 3) m m' /\
    matrix_get_transposed_basis_vector m' i = Ok v /\ forall j, j <> i -> matrix_get_transposed_basis_vector m' j = matrix_get_transposed_basis_vector m j).
Proof.
  intros T Op m i v H Hi L. destruct (len3 v L) as (a & b & c & ->).
  assert (Other : forall j, j <> i -> axis_index 3 j = Throw EInvalidArgument \/ exists j', axis_index 3 j = Ok j' /\ j' <> Z.to_nat i /\ j' < 3).
  { intros j Nj. destruct (Z_lt_dec j 0); [left; apply axis_index_bad; lia|]. destruct (Z_lt_dec j 3); [|left; apply axis_index_bad; simpl; lia].
    right. exists (Z.to_nat j). rewrite axis_index_ok by (simpl; lia). split; auto. lia. }
  split.
  - unfold matrix_set_basis_vector. rewrite linear_ok3, (axis_index_ok 3) by (auto; lia). cbn [bind check_size length Nat.eqb require].
    set (n := Z.to_nat i) in *. eexists. split; [reflexivity|]. set (m' := set_be _ n 2 _). assert (S : same_shape m m') by (unfold m'; shapes).
    assert (V : forall x y, be m' x y = if Nat.eqb x n && Nat.ltb y 3 then nth y [a; b; c] zero else be m x y).
    { intros x y. unfold m'. rewrite !be_setg. unfold el. destruct (Nat.eqb_spec x n); cbn [andb]; auto. destruct y as [|[|[|y]]]; reflexivity. }
    split; [exact S|]. split; [|split].
    + intros x k N. rewrite !coef_be, V. destruct (Nat.eqb_spec k n), (Nat.ltb_spec x 3); simpl; auto. exfalso; apply N; auto.
    + unfold matrix_get_basis_vector. rewrite linear_ok3, (axis_index_ok 3) by (try lia; eapply shape_linear; eauto). cbn [bind]. fold n. rewrite !V, Nat.eqb_refl. auto.
    + intros j Nj. unfold matrix_get_basis_vector. rewrite !linear_ok3 by (auto; eapply shape_linear; eauto). cbn [bind].
      destruct (Other j Nj) as [->|(j' & -> & N' & _)]; auto. cbn [bind]. rewrite !V. destruct (Nat.eqb_spec j' n); [congruence|]. auto.
  - unfold matrix_set_transposed_basis_vector. rewrite linear_ok3, (axis_index_ok 3) by (auto; lia). cbn [bind check_size length Nat.eqb require].
    set (n := Z.to_nat i) in *. eexists. split; [reflexivity|]. set (m' := set_be _ 2 n _). assert (S : same_shape m m') by (unfold m'; shapes).
    assert (V : forall x y, be m' x y = if Nat.eqb y n && Nat.ltb x 3 then nth x [a; b; c] zero else be m x y).
    { intros x y. unfold m'. rewrite !be_setg. unfold el. destruct (Nat.eqb_spec y n); rewrite ?andb_true_r, ?andb_false_r; cbn [andb]; auto. destruct x as [|[|[|x]]]; reflexivity. }
    split; [exact S|]. split; [|split].
    + intros x k N. rewrite !coef_be, V. destruct (Nat.eqb_spec x n), (Nat.ltb_spec k 3); simpl; auto. exfalso; apply N; auto.
    + unfold matrix_get_transposed_basis_vector. rewrite linear_ok3, (axis_index_ok 3) by (try lia; eapply shape_linear; eauto). cbn [bind]. fold n. rewrite !V, Nat.eqb_refl. auto.
    + intros j Nj. unfold matrix_get_transposed_basis_vector. rewrite !linear_ok3 by (auto; eapply shape_linear; eauto). cbn [bind].
      destruct (Other j Nj) as [->|(j' & -> & N' & _)]; auto. cbn [bind]. rewrite !V. destruct (Nat.eqb_spec j' n); [congruence|]. auto.
Qed.
Theorem basis_vector_errors : forall (T : Type) (Op : Ops T) (m : mx T) (i : Z) (v : list T),
  (~ holds_linear 3 m -> matrix_get_basis_vector m i = Throw EMinimumMatrixSize /\ matrix_set_basis_vector m i v = Throw EMinimumMatrixSize /\
    matrix_set_transposed_basis_vector m i v = Throw EMinimumMatrixSize) /\
  (holds_linear 3 m -> length v <> 3 -> matrix_set_basis_vector m i v = Throw EVectorSize /\ matrix_set_transposed_basis_vector m i v = Throw EVectorSize) /\
  (holds_linear 3 m -> length v = 3 -> ~ (0 <= i < 3)%Z -> matrix_get_basis_vector m i = Throw EInvalidArgument /\
    matrix_set_basis_vector m i v = Throw EInvalidArgument /\ matrix_set_transposed_basis_vector m i v = Throw EInvalidArgument).
Proof.
  intros T Op m i v. unfold matrix_get_basis_vector, matrix_set_basis_vector, matrix_set_transposed_basis_vector, check_linear_3D, check_size. split; [|split].
  - intros H. rewrite (linear_bad 3) by auto. auto.
  - intros [A B] L. rewrite min_okg by auto. apply Nat.eqb_neq in L. rewrite L. auto.
  - intros [A B] L I. rewrite min_okg by auto. rewrite L. cbn [bind require Nat.eqb]. rewrite axis_index_bad by (simpl; lia). auto.
Qed.

(** ** Concrete cases: a quarter turn about z followed by a translation, in both orientations and
    three shapes, over the integers. *)
Definition turn (r c : nat) (b : basis) : mx Z :=
  Mx r c b (fun i j => let '(i, j) := match b with col_basis => (i, j) | row_basis => (j, i) end in
    match i, j with
    | 0, 1 => (-1)%Z | 1, 0 => (1)%Z | 2, 2 => (1)%Z | 0, 3 => (5)%Z | 1, 3 => (6)%Z | 2, 3 => (7)%Z | 3, 3 => (1)%Z | _, _ => (0)%Z end).
Definition turn2 (r c : nat) (b : basis) : mx Z :=
  Mx r c b (fun i j => let '(i, j) := match b with col_basis => (i, j) | row_basis => (j, i) end in
    match i, j with 0, 1 => (-1)%Z | 1, 0 => (1)%Z | 0, 2 => (5)%Z | 1, 2 => (6)%Z | 2, 2 => (1)%Z | _, _ => (0)%Z end).
Example affine_case :
  (forall b, holds_affine 3 (turn 4 4 b) /\ orthogonal_part 3 (turn 4 4 b) /\ square 4 (turn 4 4 b) /\ affine_form 3 (turn 4 4 b) /\
     vector_form 3 (turn 4 4 b) /\ affine_size 3 (turn 4 4 b) /\ holds_affine 2 (turn2 3 3 b) /\ orthogonal_part 2 (turn2 3 3 b)) /\
  affine_size 3 (turn 4 3 row_basis) /\ affine_size 3 (turn 3 4 col_basis) /\ ~ holds_affine 3 (turn 3 4 row_basis) /\
  transform_point (turn 4 4 col_basis) [1; 2; 3]%Z = Ok [3; 7; 10]%Z /\ transform_point (turn 4 3 row_basis) [1; 2; 3]%Z = Ok [3; 7; 10]%Z /\
  (m <- matrix_invert_RT (turn 4 3 row_basis) ;; transform_point m [3; 7; 10]%Z) = Ok [1; 2; 3]%Z /\
  (m <- matrix_invert_RT_only (turn 3 4 col_basis) ;; transform_point m [3; 7; 10]%Z) = Ok [1; 2; 3]%Z /\
  (m <- matrix_invert_RT_only_2D (turn2 3 3 row_basis) ;; transform_point_2D m [3; 7]%Z) = Ok [1; 2]%Z /\
  (t <- matrix_translation (turn 4 4 row_basis) 10 20 30 ;; c <- matrix_concat (turn 4 4 row_basis) t ;; transform_point c [1; 2; 3])%Z = Ok [13; 27; 40]%Z /\
  (t <- matrix_translation (turn 4 4 col_basis) 10 20 30 ;; c <- matrix_concat (turn 4 4 col_basis) t ;; transform_point c [1; 2; 3])%Z = Ok [13; 27; 40]%Z.
Proof.
  split.
  { intros b. repeat split; try (destruct b; vm_compute; repeat constructor; fail).
    - destruct i as [|[|[|i]]], j as [|[|[|j]]]; try lia; destruct b; reflexivity.
    - destruct i as [|[|[|i]]], j as [|[|[|j]]]; try lia; destruct b; reflexivity.
    - intros i k A B C D. cbn [turn mrows mcols] in *. assert (i = 3) by lia; subst i. destruct k as [|[|[|[|k]]]]; try lia; destruct b; reflexivity.
    - intros i k A B C D. cbn [turn mrows mcols] in *. assert (i = 3) by lia; subst i. destruct k as [|[|[|k]]]; try lia; destruct b; reflexivity.
    - destruct i as [|[|i]], j as [|[|j]]; try lia; destruct b; reflexivity.
    - destruct i as [|[|i]], j as [|[|j]]; try lia; destruct b; reflexivity. }
  split; [cbn; lia|]. split; [cbn; lia|]. split; [cbn; lia|]. repeat split; vm_compute; reflexivity.
Qed.
Example helpers_case :
  (m <- matrix_scale (turn 3 4 col_basis) 2 3 4 ;; transform_point m [1; 1; 1])%Z = Ok [2; 3; 4]%Z /\
  (m <- matrix_affine_transform (turn 4 4 row_basis) (turn 3 3 col_basis) [1; 2] ;; transform_point m [1; 2; 3])%Z = Ok [-1; 3; 3]%Z /\
  (m <- matrix_skew_symmetric (turn 3 3 row_basis) [1; 2; 3] ;; transform_vector m [4; 5; 6])%Z = Ok [-3; 6; -3]%Z /\
  (m <- matrix_set_basis_vector (turn 3 3 row_basis) 1 [7; 8; 9] ;; transform_vector m [0; 1; 0])%Z = Ok [7; 8; 9]%Z.
Proof. repeat split; vm_compute; reflexivity. Qed.

Print Assumptions invert_RT_products.
Print Assumptions concat_transforms_points_4D.
Print Assumptions affine_transform_spec.
Print Assumptions skew_symmetric_is_cross.
Print Assumptions set_basis_vector_spec.
