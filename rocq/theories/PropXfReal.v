(** Look-at, alignment and rigid transformations over the reals: C36, C40, C52, C54. *)
From Coq Require Import Reals List Bool Lra Lia ZArith.
From Verif Require Import Base RInst ZInst QuatModel QuatSpec MiscModel MiscSpec RotModel RotSpec RotFacts RotProofs RotQuat RotAngle
  VecModel VecSpec VecProofs VecReal XfModel XfSpec XfProofs PropQuat PropRotQuat PropRotAngle PropVec PropXf.
Import ListNotations.
Open Scope R_scope.

Lemma holds3_linear m : holds3 m <-> holds_linear 3 m. Proof. reflexivity. Qed.
Lemma coef_beR (m : mx R) i k : coef m i k = be m k i. Proof. apply coef_be. Qed.
(** Rotations have orthogonal linear parts, so invert_RT_only inverts them. *)
Theorem rotation_orthogonal : forall m : mx R, is_rotation m -> orthogonal_part 3 m.
Proof.
  intros m O%orth_rotation. assert (C := orth_cols _ O). destruct O as (A1 & A2 & A3 & A4 & A5 & A6 & _), C as (C1 & C2 & C3 & C4 & C5 & C6).
  intros i j Hi Hj. cbn [sum]. rewrite !coef_beR.
  split; cases3 Hi; cases3 Hj; unfold kron; cbn [Nat.eqb zero one ROps add mul]; lra.
Qed.
Theorem rigid_inverse : forall m : mx R, holds_affine 3 m -> is_rotation m ->
  exists m', matrix_invert_RT_only m = Ok m' /\ is_rotation m' /\ inverse_map 3 m m'.
Proof.
  intros m H O. assert (P := rotation_orthogonal m O).
  destruct (invert3_be RR m H) as (m' & E & S & I & _). exists m'. split; auto. split.
  - apply orth_rotation in O. apply orth_rotation. assert (C := orth_cols _ O). destruct O as (_ & _ & _ & _ & _ & _ & D), C as (C1 & C2 & C3 & C4 & C5 & C6).
    assert (B : forall i j, (i < 3)%nat -> (j < 3)%nat -> be m' i j = be m j i).
    { intros. rewrite <- !coef_beR. apply I; auto. }
    unfold orth. rewrite !B by lia. repeat split; lra.
  - intros p L. split; [eapply (rt_inverse_left RR)|eapply (rt_inverse_right RR)]; eauto.
Qed.

(** ** C40 *)
Definition plus3 (u v : vec3) : vec3 := V3 (vx u + vx v) (vy u + vy v) (vz u + vz v).
Definition minus3 (u v : vec3) : vec3 := V3 (vx u - vx v) (vy u - vy v) (vz u - vz v).
Lemma linear_act (m : mx R) v : linear_map 3 m (vlist v) = vlist (act m v).
Proof.
  rewrite act_be. unfold linear_map, vlist. cbn [seq map sum nth vx vy vz]. rewrite !coef_beR. cbn [add mul zero ROps].
  repeat (apply f_equal2; [ring|]). auto.
Qed.
Lemma affine_act (m : mx R) v : affine_map 3 m (vlist v) = vlist (plus3 (act m v) (V3 (be m 3 0) (be m 3 1) (be m 3 2))).
Proof.
  rewrite act_be. unfold affine_map, vlist, plus3. cbn [seq map sum nth vx vy vz]. rewrite !coef_beR. cbn [add mul zero ROps].
  repeat (apply f_equal2; [ring|]). auto.
Qed.
Section LookAt.
Variables (x y z : vec3).
Hypotheses (Ux : unit x) (Uz : unit z) (Oxz : dot x z = 0) (Hy : y = cross z x).
Lemma la_y1 : unit y. Proof. unfold unit. rewrite Hy, lagrange, Ux, Uz, (dot_comm z x), Oxz. ring. Qed.
Lemma la_yx : dot x y = 0. Proof. rewrite Hy. unfold dot, cross; cbn; ring. Qed.
Lemma la_yz : dot z y = 0. Proof. rewrite Hy. unfold dot, cross; cbn; ring. Qed.
Lemma la_orth b : (forall i j, (i < 3)%nat -> (j < 3)%nat -> b i j = nth i (vlist (nth j [x; y; z] x)) 0) -> orth (fun i j => b j i).
Proof.
  intros B. unfold orth. rewrite !B by lia. cbn [nth vlist].
  assert (A := la_y1). assert (C := la_yx). assert (D := la_yz). assert (Tr : triple x y z = 1).
  { unfold triple. replace (cross y z) with x. { exact Ux. }
    transitivity (cross (cross z x) z); [|now rewrite Hy].
    transitivity (vopp (cross z (cross z x))); [|apply v3_eq; unfold cross, vopp; cbn; ring].
    assert (Z := Uz). unfold unit, dot in Z. assert (W := Oxz). unfold dot in W.
    apply v3_eq; unfold vopp, cross; cbn [vx vy vz].
    - transitivity (vx x * (vx z * vx z + vy z * vy z + vz z * vz z) - vx z * (vx x * vx z + vy x * vy z + vz x * vz z)); [rewrite Z, W|]; ring.
    - transitivity (vy x * (vx z * vx z + vy z * vy z + vz z * vz z) - vy z * (vx x * vx z + vy x * vy z + vz x * vz z)); [rewrite Z, W|]; ring.
    - transitivity (vz x * (vx z * vx z + vy z * vy z + vz z * vz z) - vz z * (vx x * vx z + vy x * vy z + vz x * vz z)); [rewrite Z, W|]; ring. }
  unfold triple, unit, dot, cross in *. cbn [vx vy vz] in *. repeat split; lra.
Qed.
End LookAt.

Lemma orth_transpose b : orth (fun i j => b j i) -> orth b.
Proof.
  intros O. assert (C := orth_cols _ O). destruct O as (_ & _ & _ & _ & _ & _ & D), C as (C1 & C2 & C3 & C4 & C5 & C6). unfold orth. repeat split; lra.
Qed.

(** the matrix look_at builds, in terms of its axes *)
Lemma look_at_run m (e t u : vec3) h : holds_affine 3 m ->
  let s := match h with left_handed => 1 | right_handed => -1 end in
  let d := minus3 t e in
  let z := vscl s (vscl (/ norm (vlist d)) d) in
  let x := vscl (/ norm (vlist (cross u z))) (cross u z) in
  let y := cross z x in
  exists m', matrix_look_at m (vlist e) (vlist t) (vlist u) h = Ok m' /\ same_shape m m' /\
    same_elsewhere (affine_entry 3) (mx_identity m) m' /\
    (forall i j, (i < 3)%nat -> (j < 3)%nat -> be m' i j = nth i (vlist (nth j [x; y; z] x)) 0) /\
    be m' 3 0 = - dot e x /\ be m' 3 1 = - dot e y /\ be m' 3 2 = - dot e z.
Proof.
  intros H s d z x y. unfold matrix_look_at. rewrite affine_ok3 by auto. cbn [bind].
  rewrite vsub_zip by reflexivity. cbn [bind]. change (zip sub (vlist t) (vlist e)) with (vlist d).
  rewrite vnormalize_scaled by apply vlist_nil. cbn [bind].
  assert (Ez : vscale (match h with left_handed => one | right_handed => neg one end) (scaled (/ norm (vlist d)) (vlist d)) = vlist z).
  { rewrite (vscale_scaled RR). unfold z, s. destruct h; reflexivity. }
  rewrite Ez, cross3_vlist. cbn [bind]. rewrite vnormalize_scaled by apply vlist_nil. cbn [bind].
  change (scaled (/ norm (vlist (cross u z))) (vlist (cross u z))) with (vlist x).
  rewrite cross3_vlist. cbn [bind]. change (cross z x) with y. clearbody x y z. clear Ez d s.
  assert (HL : holds_linear 3 (mx_identity m)) by (apply (affine_linear 3 m); auto).
  assert (Set' : forall m0 i v, holds_linear 3 m0 -> (0 <= i < 3)%Z -> exists m1, matrix_set_transposed_basis_vector m0 i (vlist v) = Ok m1 /\
    same_shape m0 m1 /\ forall a b, be m1 a b = if Nat.eqb b (Z.to_nat i) && Nat.ltb a 3 then nth a (vlist v) 0 else be m0 a b).
  { intros m0 i v Hm Hi. unfold matrix_set_transposed_basis_vector. rewrite linear_ok3, (axis_index_ok 3) by (auto; simpl; lia).
    cbn [bind check_size length vlist Nat.eqb require]. eexists. split; [reflexivity|]. split; [shapes|].
    intros a b. rewrite !be_setg. unfold el. destruct (Nat.eqb_spec b (Z.to_nat i)); rewrite ?andb_true_r, ?andb_false_r; cbn [andb]; auto.
    destruct a as [|[|[|a]]]; reflexivity. }
  unfold matrix_set_transposed_basis_vectors.
  destruct (Set' (mx_identity m) 0%Z x HL ltac:(lia)) as (m1 & -> & S1 & B1). cbn [bind].
  destruct (Set' m1 1%Z y (shape_linear _ _ _ S1 HL) ltac:(lia)) as (m2 & -> & S2 & B2). cbn [bind].
  assert (S2' := shape_trans _ _ _ S1 S2).
  destruct (Set' m2 2%Z z (shape_linear _ _ _ S2' HL) ltac:(lia)) as (m3 & -> & S3 & B3). cbn [bind].
  assert (S3' := shape_trans _ _ _ S2' S3).
  rewrite !R_dot_sum by (apply vlist_nil || reflexivity). cbn [bind]. rewrite !sp3.
  unfold matrix_set_translation. rewrite affine_ok3 by (apply (shape_affine _ _ _ S3'); auto). cbn [bind].
  eexists. split; [reflexivity|].
  assert (B : forall a b, be m3 a b = if Nat.ltb a 3 && Nat.ltb b 3 then nth a (vlist (nth b [x; y; z] x)) 0 else be (mx_identity m) a b).
  { intros a b. rewrite B3, B2, B1. change (Z.to_nat 0) with 0%nat. change (Z.to_nat 1) with 1%nat. change (Z.to_nat 2) with 2%nat.
    destruct (Nat.ltb_spec a 3); rewrite ?andb_true_r, ?andb_false_r; cbn [andb]; auto. destruct b as [|[|[|b]]]; reflexivity. }
  split; [eapply shape_trans; [exact S3'|]; shapes|]. split; [|split].
  - intros i k N. unfold affine_entry in N. rewrite !coef_beR, !be_setg, B.
    destruct (Nat.eqb_spec k 3) as [->|Nk].
    + destruct i as [|[|[|i]]]; cbn [Nat.eqb andb]; try (exfalso; apply N; lia). reflexivity.
    + cbn [andb]. destruct (Nat.ltb_spec k 3), (Nat.ltb_spec i 3); cbn [andb]; auto. exfalso; apply N; lia.
  - intros i j Hi Hj. rewrite !be_setg. destruct (Nat.eqb_spec i 3); [lia|]. cbn [andb]. rewrite B.
    destruct (Nat.ltb_spec i 3), (Nat.ltb_spec j 3); try lia. reflexivity.
  - rewrite !be_setg. cbn [Nat.eqb andb]. repeat split.
Qed.

(** The camera at [e] looking at [t]: the eye goes to the origin, the target to the (left-handed) positive
    or (right-handed) negative z axis at its distance, [u] into the upper half of the yz plane, and the
    linear part is a rotation.  Outside the 3x4 block the matrix is the identity. *)
Theorem look_at_spec : forall (m : mx R) (e t u : vec3) (h : handedness), holds_affine 3 m ->
  nonzero (vlist (cross u (minus3 t e))) ->
  exists m', matrix_look_at m (vlist e) (vlist t) (vlist u) h = Ok m' /\ same_shape m m' /\
    same_elsewhere (affine_entry 3) (mx_identity m) m' /\ is_rotation m' /\
    transform_point m' (vlist e) = Ok [0; 0; 0] /\
    transform_point m' (vlist t) = Ok [0; 0; match h with left_handed => 1 | right_handed => -1 end * norm (vlist (minus3 t e))] /\
    exists a b, transform_vector m' (vlist u) = Ok [0; a; b] /\ 0 < a.
Proof.
  intros m e t u h H N.
  destruct (look_at_run m e t u h H) as (m' & E & S & F & B & T0 & T1 & T2).
  set (s := match h with left_handed => 1 | right_handed => -1 end) in *. set (d := minus3 t e) in *.
  set (z := vscl s (vscl (/ norm (vlist d)) d)) in *. set (x := vscl (/ norm (vlist (cross u z))) (cross u z)) in *.
  exists m'. split; auto. split; auto. split; auto.
  assert (Hs : s * s = 1) by (unfold s; destruct h; lra).
  assert (Nd : nonzero (vlist d)).
  { apply sp_nonzero. destruct (sp_pos (vlist d)) as [|Z]; auto. exfalso. rewrite sp3 in Z. symmetry in Z.
    apply sp_nonzero in N. rewrite sp3, lagrange, Z in N. assert (0 <= dot u d * dot u d) by apply Rle_0_sqr. lra. }
  assert (Pd := norm_pos _ Nd). assert (Qd : norm (vlist d) * norm (vlist d) = dot d d) by (rewrite norm_sqr, sp3; auto).
  set (l := norm (vlist d)) in *.
  assert (Uz : unit z).
  { unfold unit, z. rewrite !dot_vscl. rewrite (dot_comm d), !dot_vscl, <- Qd. transitivity (s * s); [field; lra|auto]. }
  assert (Ez : d = vscl (s * l) z).
  { assert (G : forall c, c = s * l * (s * (/ l * c))).
    { intros c. transitivity (s * s * c); [rewrite Hs; ring|field; lra]. }
    unfold z. apply v3_eq; unfold vscl at 1; cbn [vx vy vz]; apply G. }
  assert (Cz : cross u d = vscl (s * l) (cross u z)).
  { rewrite Ez at 1. apply v3_eq; unfold cross, vscl; cbn; ring. }
  assert (Nx : nonzero (vlist (cross u z))).
  { apply sp_nonzero. destruct (sp_pos (vlist (cross u z))) as [|Z]; auto. exfalso. rewrite sp3 in Z. symmetry in Z.
    apply sp_nonzero in N. rewrite sp3, Cz, dot_vscl, dot_comm, dot_vscl, Z in N. lra. }
  assert (Px := norm_pos _ Nx). assert (Qx : norm (vlist (cross u z)) * norm (vlist (cross u z)) = dot (cross u z) (cross u z)) by (rewrite norm_sqr, sp3; auto).
  set (n := norm (vlist (cross u z))) in *.
  assert (Ux : unit x). { unfold unit, x. rewrite !dot_vscl. rewrite dot_comm, dot_vscl, <- Qx. field. lra. }
  assert (Oxz : dot x z = 0). { unfold x. rewrite dot_vscl, dot_cross_r. ring. }
  assert (Oxu : dot x u = 0). { unfold x. rewrite dot_vscl, dot_cross_l. ring. }
  set (y := cross z x) in *.
  assert (Hy : y = cross z x) by reflexivity.
  assert (Oyz := la_yz x y z Hy).
  assert (Act : forall v, act m' v = V3 (dot x v) (dot y v) (dot z v)).
  { intros v. rewrite act_be, !B by lia. cbn [nth vlist]. unfold dot. apply v3_eq; cbn; ring. }
  assert (HA := shape_affine _ _ _ S H).
  assert (Pt : forall v, transform_point m' (vlist v) = Ok [dot x (minus3 v e); dot y (minus3 v e); dot z (minus3 v e)]).
  { intros v. rewrite (point3_map RR) by auto. rewrite affine_act, Act, T0, T1, T2. f_equal. unfold plus3, vlist, minus3, dot. cbn.
    repeat (apply f_equal2; [ring|]). auto. }
  split; [apply orth_rotation, orth_transpose, (la_orth x y z); auto|].
  assert (En : cross u z = vscl n x) by (unfold x; apply v3_eq; unfold vscl; cbn; field; lra).
  clearbody x y z n l. clear T0 T1 T2 B. split; [|split].
  - rewrite Pt. f_equal. unfold minus3, dot; cbn. repeat (apply f_equal2; [ring|]). auto.
  - rewrite Pt. fold d. rewrite Ez. rewrite !(dot_comm _ (vscl _ _)), !dot_vscl, (dot_comm z x), Oxz, Oyz, Uz.
    f_equal. repeat (apply f_equal2; [ring|]). auto.
  - exists (dot y u), (dot z u). rewrite (vector3_map RR) by (auto using affine_linear). rewrite linear_act, Act. unfold vlist; cbn [vx vy vz].
    rewrite Oxu. split; auto. replace (dot y u) with (dot x (cross u z)) by (rewrite Hy; unfold dot, cross; cbn; ring).
    rewrite En, dot_comm, dot_vscl, Ux. lra.
Qed.
Example look_at_case : nonzero (vlist (cross (V3 0 1 0) (minus3 (V3 1 2 3) (V3 1 2 8)))) /\ norm (vlist (minus3 (V3 1 2 3) (V3 1 2 8))) = 5 /\
  holds_affine 3 (Mx 4 4 col_basis (fun _ _ => 0)).
Proof.
  split; [exists (1 * (3 - 8) - 0 * (2 - 2)); split; [left; reflexivity|lra]|]. split.
  - apply sqrt_eq; cbn; lra.
  - split; cbn; lia.
Qed.
(** LH and RH differ by a half turn about y: x and z are negated. *)
Theorem look_at_hands : forall (m : mx R) (e t u v : vec3), holds_affine 3 m -> nonzero (vlist (cross u (minus3 t e))) ->
  exists l r a b c, matrix_look_at m (vlist e) (vlist t) (vlist u) left_handed = Ok l /\
    matrix_look_at m (vlist e) (vlist t) (vlist u) right_handed = Ok r /\
    transform_point l (vlist v) = Ok [a; b; c] /\ transform_point r (vlist v) = Ok [- a; b; - c].
Proof.
  intros m e t u v H N.
  destruct (look_at_run m e t u left_handed H) as (l & El & Sl & _ & Bl & L0 & L1 & L2).
  destruct (look_at_run m e t u right_handed H) as (r & Er & Sr & _ & Br & R0 & R1 & R2).
  set (d := minus3 t e) in *. set (z := vscl 1 (vscl (/ norm (vlist d)) d)) in *. set (z' := vscl (-1) (vscl (/ norm (vlist d)) d)) in *.
  assert (Ez : z' = vopp z) by (apply v3_eq; unfold z', z, vopp, vscl; cbn; ring).
  assert (Ec : cross u z' = vopp (cross u z)) by (rewrite Ez; apply v3_eq; unfold cross, vopp; cbn; ring).
  assert (En : norm (vlist (cross u z')) = norm (vlist (cross u z))).
  { unfold norm. rewrite !sp3, Ec. f_equal. unfold dot, vopp; cbn; ring. }
  rewrite En in *. set (n := / norm (vlist (cross u z))) in *. set (x := vscl n (cross u z)) in *.
  assert (Ex : vscl n (cross u z') = vopp x) by (rewrite Ec; apply v3_eq; unfold x, vscl, vopp; cbn; ring).
  rewrite Ex in *. assert (Ey : cross z' (vopp x) = cross z x) by (rewrite Ez; apply v3_eq; unfold cross, vopp; cbn; ring).
  rewrite Ey in *. rewrite Ez in *. clearbody x z. set (y := cross z x) in *. clearbody y.
  exists l, r, (dot x (minus3 v e)), (dot y (minus3 v e)), (dot z (minus3 v e)). split; auto. split; auto.
  rewrite !(point3_map RR) by (auto; eapply shape_affine; eauto). rewrite !affine_act, !act_be, L0, L1, L2, R0, R1, R2, !Bl, !Br by lia.
  unfold plus3, minus3, vopp, dot, vlist. cbn. split; f_equal; repeat (apply f_equal2; [ring|]); auto.
Qed.
Theorem look_at_sizes : forall (m : mx R) (e t u : list R) (h : handedness), holds_affine 3 m ->
  (length e <> length t -> matrix_look_at m e t u h = Throw EIncompatibleVectorSize) /\
  (length e = length t -> e <> [] -> (length u <> 3 \/ length e <> 3)%nat -> matrix_look_at m e t u h = Throw EVectorSize).
Proof.
  intros m e t u h H. unfold matrix_look_at. rewrite affine_ok3 by auto. cbn [bind]. unfold vsub, check_vsame. split.
  - intros L. assert (L' : length t <> length e) by auto. apply Nat.eqb_neq in L'. rewrite L'. reflexivity.
  - intros L Ne L3. rewrite L, Nat.eqb_refl. cbn [require bind].
    rewrite vnormalize_scaled. 2:{ intros Z. apply (f_equal (@length R)) in Z. rewrite elems_length in Z. destruct e, t; simpl in *; congruence. }
    cbn [bind]. rewrite (vscale_scaled RR). set (w := scaled _ _). assert (Lw : length w = length t) by (unfold w; rewrite !scaled_length; apply elems_length).
    clearbody w. assert (X := vcross3_errors u w). destruct (vcross3 u w) as [c|ex|]; cbn [bind].
    + exfalso. lia.
    + destruct ex; tauto.
    + tauto.
Qed.

(** ** Axis-angle affine transformations (C52) *)
Theorem affine_transform_axis_spec : forall (m : mx R) (n t : vec3) (a : R) (normalize : bool), holds_affine 3 m ->
  nonzero (vlist n) -> normalize = true \/ unit n ->
  exists m' k, matrix_affine_transform_axis m (vlist n) a (vlist t) normalize = Ok m' /\ same_shape m m' /\ is_rotation m' /\
    unit k /\ (exists s, 0 < s /\ k = vscl s n) /\
    forall p, transform_point m' (vlist p) = Ok (vlist (plus3 (rodrigues k a p) t)).
Proof.
  intros m n t a normalize H N K. assert (P := norm_pos _ N).
  assert (E : exists k, (if normalize then vnormalize (vlist n) else Ok (vlist n)) = Ok (vlist k) /\ unit k /\ exists s, 0 < s /\ k = vscl s n).
  { destruct normalize.
    - exists (vscl (/ norm (vlist n)) n). split; [apply vnormalize_scaled, vlist_nil|]. split.
      + unfold unit. rewrite <- sp3, <- scaled_vlist. apply normalized_unit; auto.
      + exists (/ norm (vlist n)). split; auto. now apply Rinv_0_lt_compat.
    - exists n. split; auto. split; [destruct K; [discriminate|auto]|]. exists 1. split; [lra|]. apply v3_eq; unfold vscl; cbn; ring. }
  destruct E as (k & E & Uk & Sk).
  unfold matrix_affine_transform_axis. rewrite affine_ok3 by auto. cbn [bind]. rewrite E. cbn [bind].
  assert (H3 : holds3 m) by (apply affine_linear; auto).
  destruct (rotation_axis_angle_b m k a H3) as (m1 & E1 & (F1 & F2 & F3 & F4) & B1). rewrite E1. cbn [bind].
  assert (S1 : same_shape m m1) by (repeat split; auto).
  change (matrix_set_translation_v m1 (vlist t)) with (matrix_set_translation m1 (vx t) (vy t) (vz t)).
  destruct (set3 m1 (vx t) (vy t) (vz t) (shape_affine _ _ _ S1 H)) as (m' & E' & S' & F & V).
  exists m', k. split; auto. split; [eapply shape_trans; eauto|].
  assert (B : forall i j, (i < 3)%nat -> (j < 3)%nat -> be m' i j = be m1 i j).
  { intros i j Hi Hj. rewrite <- !coef_beR. apply F. unfold translation_entry. lia. }
  assert (SA : forall v, act m' v = act m1 v) by (apply same_action_be; intros i j Hi Hj; apply B; auto).
  assert (Act : forall v, act m1 v = rodrigues k a v).
  { intros v. rewrite (act_actb _ _ _ B1). apply baa_rodrigues. }
  split.
  - destruct (axis_angle_rotates m k a H3 Uk) as (m1' & E1' & _ & I1 & _). rewrite E1' in E1. injection E1 as ->.
    unfold is_rotation in *. destruct I1 as [I1 I2]. split; intros; rewrite !SA; auto.
  - split; auto. split; auto. intros p. rewrite (point3_map RR) by (auto; eapply (shape_affine 3 m); auto; eapply shape_trans; eauto).
    rewrite affine_act, SA, Act. f_equal. f_equal. f_equal. rewrite <- !coef_beR, !V by lia. destruct t; auto.
Qed.

(** ** C54: alignment.
    The image of the first axis of the order is along [align]; the image of the last is perpendicular to
    [reference]; the image of the second is as close to [reference] as the first allows. *)
Definition aligned (m : mx R) (align reference : vec3) (o : axis_order) : Prop :=
  let '(i, j, k) := ao_name o in
  (exists s, 0 < s /\ act m (cardinal i) = vscl s align) /\
  dot (act m (cardinal k)) reference = 0 /\
  forall w, unit w -> dot w align = 0 -> dot w reference <= dot (act m (cardinal j)) reference.
Lemma vlist_inj u v : vlist u = vlist v -> u = v.
Proof. intros H. injection H as A B C. apply v3_eq; auto. Qed.
Lemma set_basis_b m (x y z : vec3) : holds3 m -> exists m', matrix_set_basis_vectors (mx_identity m) (vlist x) (vlist y) (vlist z) = Ok m' /\ frame 3 m m' /\
  forall i j, (i < 3)%nat -> (j < 3)%nat -> be m' i j = nth j (vlist (nth i [x; y; z] x)) 0.
Proof.
  intros H. unfold matrix_set_basis_vectors.
  assert (Set' : forall m0 i v, holds_linear 3 m0 -> (0 <= i < 3)%Z -> frame 3 m m0 -> exists m1, matrix_set_basis_vector m0 i (vlist v) = Ok m1 /\
    holds_linear 3 m1 /\ frame 3 m m1 /\ forall a b, be m1 a b = if Nat.eqb a (Z.to_nat i) && Nat.ltb b 3 then nth b (vlist v) 0 else be m0 a b).
  { intros m0 i v Hm Hi Fr. unfold matrix_set_basis_vector. rewrite linear_ok3, (axis_index_ok 3) by (auto; simpl; lia).
    cbn [bind check_size length vlist Nat.eqb require]. eexists. split; [reflexivity|]. split; [eapply shape_linear; [|exact Hm]; shapes|].
    split; [repeat apply frame_set; auto; lia|].
    intros a b. rewrite !be_setg. unfold el. destruct (Nat.eqb_spec a (Z.to_nat i)); cbn [andb]; auto.
    destruct b as [|[|[|b]]]; reflexivity. }
  assert (HL : holds_linear 3 (mx_identity m)) by exact H.
  destruct (Set' (mx_identity m) 0%Z x HL ltac:(lia) (frame_identity 3 m)) as (m1 & -> & H1 & F1 & B1). cbn [bind].
  destruct (Set' m1 1%Z y H1 ltac:(lia) F1) as (m2 & -> & H2 & F2 & B2). cbn [bind].
  destruct (Set' m2 2%Z z H2 ltac:(lia) F2) as (m3 & -> & H3 & F3 & B3).
  exists m3. split; auto. split; auto. intros i j Hi Hj. rewrite B3, B2, B1. assert (J : Nat.ltb j 3 = true) by (apply Nat.ltb_lt; auto). rewrite J.
  change (Z.to_nat 0) with 0%nat. change (Z.to_nat 1) with 1%nat. change (Z.to_nat 2) with 2%nat. cases3 Hi; reflexivity.
Qed.
Theorem rotation_align_spec : forall (m : mx R) (a r : vec3) (normalize : bool) (o : axis_order), holds3 m ->
  nonzero (vlist (cross a r)) -> normalize = true \/ unit a ->
  exists m', matrix_rotation_align m (vlist a) (vlist r) normalize (ao_value o) = Ok m' /\ frame 3 m m' /\ is_rotation m' /\ aligned m' a r o.
Proof.
  intros m a r normalize o H N K.
  destruct (orthonormal_basis_frame (vlist a) (vlist r) normalize o eq_refl eq_refl N) as (x' & y' & z' & E & Lx & Ly & Lz & Ux & Uy & Uz & Oxy & Oxz & Oyz & C & A).
  { destruct K as [K|K]; auto. right. unfold unit_vector. rewrite sp3. exact K. }
  destruct (vlist_of x' Lx) as [x ->], (vlist_of y' Ly) as [y ->], (vlist_of z' Lz) as [z ->].
  unfold matrix_rotation_align. rewrite E. cbn [bind].
  destruct (set_basis_b m x y z H) as (m' & Em & F & B). exists m'. split; auto. split; auto.
  unfold unit_vector, orthogonal in *. rewrite sp3 in Ux, Uy, Uz, Oxy, Oxz, Oyz.
  change (cross_of (vlist x) (vlist y)) with (vlist (cross x y)) in C. apply vlist_inj in C.
  split.
  - apply orth_rotation. unfold orth. rewrite !B by lia. cbn [nth vlist].
    assert (Tr : dot z (cross x y) = 1) by (rewrite C; auto).
    unfold dot, cross in *. cbn [vx vy vz] in *. repeat split; lra.
  - assert (Act : forall n, (0 <= n < 3)%Z -> vlist (act m' (cardinal n)) = nth (Z.to_nat n) [vlist x; vlist y; vlist z] []).
    { intros n Hn. rewrite act_be, !B by lia. assert (D : n = 0%Z \/ n = 1%Z \/ n = 2%Z) by lia.
      destruct D as [-> | [-> | ->]]; cbn [cardinal Z.to_nat Pos.to_nat Pos.iter_op Nat.add nth vlist vx vy vz]; unfold vlist; cbn [vx vy vz]; repeat (apply f_equal2; [ring|]); auto. }
    assert (R3 : let '(i, j, k) := ao_name o in (0 <= i < 3)%Z /\ (0 <= j < 3)%Z /\ (0 <= k < 3)%Z) by (destruct o; cbn; lia).
    unfold aligned. destruct (ao_name o) as [[i j] k]. destruct R3 as (Ri & Rj & Rk). rewrite <- !Act in A by auto.
    destruct A as ((s & Ps & A1) & A2 & A3). split; [|split].
    + exists s. split; auto. apply vlist_inj. exact A1.
    + rewrite sp3 in A2. auto.
    + intros w Uw Ow. rewrite <- !sp3. apply A3; auto; [unfold unit in Uw|]; rewrite sp3; auto.
Qed.
Theorem rotation_aim_at_spec : forall (m : mx R) (pos target r : vec3) (o : axis_order), holds3 m ->
  nonzero (vlist (cross (minus3 target pos) r)) ->
  exists m', matrix_rotation_aim_at m (vlist pos) (vlist target) (vlist r) (ao_value o) = Ok m' /\ frame 3 m m' /\ is_rotation m' /\
    aligned m' (minus3 target pos) r o.
Proof.
  intros m pos target r o H N. unfold matrix_rotation_aim_at. rewrite vsub_zip by reflexivity. cbn [bind].
  apply (rotation_align_spec m (minus3 target pos) r true o); auto.
Qed.
(** the quaternion versions give a unit quaternion whose matrix is such a matrix *)
Theorem quaternion_align_spec : forall (od : order) (q : quat R) (a r : vec3) (normalize : bool) (o : axis_order),
  nonzero (vlist (cross a r)) -> normalize = true \/ unit a ->
  exists q', quaternion_rotation_align od q (vlist a) (vlist r) normalize (ao_value o) = Ok q' /\ unit_quat od q' /\
    forall n, holds3 n -> exists n', matrix_rotation_quaternion n od q' = Ok n' /\ is_rotation n' /\ aligned n' a r o.
Proof.
  intros od q a r normalize o N K. unfold quaternion_rotation_align.
  set (m0 := Mx 3 3 col_basis _). assert (H0 : holds3 m0) by (split; cbn; lia).
  destruct (rotation_align_spec m0 a r normalize o H0 N K) as (m & -> & (F1 & F2 & _) & Rm & A). cbn [bind].
  assert (Hm : holds3 m) by (split; rewrite ?F1, ?F2; cbn; lia).
  destruct (matrix_to_quaternion m od q Hm Rm) as (q' & E & U & Q). exists q'. split; auto. split; auto.
  intros n Hn. destruct (Q n Hn) as (n' & En & Sn). exists n'. split; auto. split.
  - destruct Rm as [R1 R2]. split; intros; rewrite !Sn; auto.
  - unfold aligned in *. destruct (ao_name o) as [[i j] k]. rewrite !Sn. auto.
Qed.
Theorem quaternion_aim_at_spec : forall (od : order) (q : quat R) (pos target r : vec3) (o : axis_order),
  nonzero (vlist (cross (minus3 target pos) r)) ->
  exists q', quaternion_rotation_aim_at od q (vlist pos) (vlist target) (vlist r) (ao_value o) = Ok q' /\ unit_quat od q' /\
    forall n, holds3 n -> exists n', matrix_rotation_quaternion n od q' = Ok n' /\ is_rotation n' /\ aligned n' (minus3 target pos) r o.
Proof.
  intros od q pos target r o N.
  destruct (quaternion_align_spec od q (minus3 target pos) r true o N (or_introl eq_refl)) as (q' & E & R').
  exists q'. split; auto.
Qed.
(** 2D: a rotation of the plane taking the first axis of the order to the direction of [align] *)
Theorem rotation_align_2D_spec : forall (m : mx R) (align : list R) (normalize yx : bool), holds_linear 2 m -> length align = 2%nat -> nonzero align ->
  normalize = true \/ unit_vector align ->
  exists m' t s, matrix_rotation_align_2D m align normalize (ao_value (if yx then ao_yxz else ao_xyz)) = Ok m' /\ frame 2 m m' /\
    (forall p, length p = 2%nat -> transform_vector_2D m' p = Ok (rotate2 t p)) /\ 0 < s /\
    transform_vector_2D m' (if yx then [0; 1] else [1; 0]) = Ok (scaled s align).
Proof.
  intros m align normalize yx H L N K.
  destruct (orthonormal_basis_2D_frame align normalize yx L N K) as (x & y & E & Lx & Ly & Ux & Uy & O & Q & s & Ps & A).
  unfold matrix_rotation_align_2D. rewrite linear_ok2 by auto. cbn [bind]. rewrite E. cbn [bind].
  destruct (len2 x Lx) as (a & b & ->). unfold rotate2 in Q. rewrite sin_PI2, cos_PI2 in Q. cbn [nth] in Q.
  replace (0 * a - 1 * b) with (- b) in Q by ring. replace (1 * a + 0 * b) with a in Q by ring. subst y.
  unfold unit_vector in Ux. cbn [sum_prod add mul zero ROps] in Ux.
  assert (Ux' : a * a + b * b = 1) by lra. destruct (atan2_unit a b Ux') as [Sb Ca].
  unfold matrix_set_basis_vectors_2D, matrix_set_basis_vector_2D. rewrite linear_ok2 by exact H.
  rewrite (axis_index_ok 2 0) by (simpl; lia). rewrite (axis_index_ok 2 1) by (simpl; lia). cbn [bind check_size length Nat.eqb require el nth].
  rewrite linear_ok2 by (eapply shape_linear; [|exact H]; eapply shape_trans; [apply shape_identity|]; shapes). cbn [bind].
  change (Z.to_nat 0) with 0%nat. change (Z.to_nat 1) with 1%nat.
  set (m' := set_be (set_be (set_be (set_be _ 0 0 _) 0 1 _) 1 0 _) 1 1 _).
  assert (F : frame 2 m m') by (unfold m'; repeat apply frame_set; try lia; apply frame_identity).
  assert (H' : holds_linear 2 m') by (destruct F as (F1 & F2 & _); unfold holds_linear; rewrite F1, F2; exact H).
  assert (V : forall p0 p1, linear_map 2 m' [p0; p1] = [a * p0 - b * p1; b * p0 + a * p1]).
  { intros p0 p1. unfold linear_map. cbn [seq map sum nth]. rewrite !coef_beR. unfold m'. rewrite !be_setg. cbn [Nat.eqb andb add mul zero neg ROps el nth].
    repeat (apply f_equal2; [ring|]). auto. }
  exists m', (Ratan2 b a), s. split; auto. split; auto. split; [|split; auto].
  - intros p Lp. destruct (len2 p Lp) as (p0 & p1 & ->). rewrite (vector2_map RR) by auto. rewrite V. unfold rotate2. cbn [nth]. rewrite Sb, Ca. auto.
  - rewrite <- A. destruct yx; rewrite (vector2_map RR) by auto; rewrite V; f_equal; repeat (apply f_equal2; [ring|]); auto.
Qed.
Theorem align_sizes : forall (m : mx R) (a r : vec3) (normalize : bool) (o : axis_order),
  ~ holds3 m -> nonzero (vlist (cross a r)) -> normalize = true \/ unit a ->
  matrix_rotation_align m (vlist a) (vlist r) normalize (ao_value o) = Throw EMinimumMatrixSize.
Proof.
  intros m a r normalize o H N K.
  destruct (orthonormal_basis_frame (vlist a) (vlist r) normalize o eq_refl eq_refl N) as (x' & y' & z' & E & _).
  { destruct K as [K|K]; auto. right. unfold unit_vector. rewrite sp3. exact K. }
  unfold matrix_rotation_align. rewrite E. cbn [bind]. unfold matrix_set_basis_vectors, matrix_set_basis_vector, check_linear_3D.
  rewrite (linear_bad 3); auto.
Qed.
Example align_case : nonzero (vlist (cross (V3 0 0 2) (V3 0 1 1))) /\ holds3 (Mx 3 3 row_basis (fun _ _ => 0)) /\ nonzero [3; 4] /\ unit (V3 0 (3/5) (4/5)).
Proof.
  split; [exists (0 * 1 - 2 * 1); split; [left; reflexivity|lra]|]. split; [split; cbn; lia|]. split; [exists 3; split; [left; auto|lra]|].
  unfold unit, dot; cbn; lra.
Qed.

Print Assumptions rigid_inverse.
Print Assumptions look_at_spec.
Print Assumptions affine_transform_axis_spec.
Print Assumptions quaternion_aim_at_spec.
Print Assumptions rotation_align_2D_spec.
