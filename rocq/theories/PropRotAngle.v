(** Rotations about an axis: C19, C20. *)
From Coq Require Import Reals List Bool Lra Lia ZArith.
From Verif Require Import Base RInst ScalarModel ScalarProofs MiscModel QuatModel QuatSpec QuatProofs RotModel RotSpec RotFacts RotProofs RotQuat RotAngle.
Import ListNotations.
Open Scope R_scope.

Ltac same E E' := match type of E with _ = Ok ?a => match type of E' with _ = Ok ?b => let H := fresh in assert (H : a = b) by congruence; subst a end end.

(** ** C19 *)
Theorem axis_angle_rotates : forall m n t, holds3 m -> unit n ->
  exists m', matrix_rotation_axis_angle m (vlist n) t = Ok m' /\ frame 3 m m' /\ is_rotation m' /\
    act m' n = n /\ trace_3x3 m' = 1 + 2 * cos t /\ (forall v, act m' v = rodrigues n t v).
Proof.
  intros m n t H U. destruct (rotation_axis_angle_b m n t H) as (m' & E & F & B). exists m'.
  assert (A : forall v, act m' v = rodrigues n t v). { intros v. rewrite (act_actb _ _ _ B). apply baa_rodrigues. }
  split; [auto|]. split; [auto|]. split.
  { apply (block_rotation _ _ B). apply baa_orth; auto. apply sc. }
  split; [rewrite A; apply rodrigues_axis; auto|]. split; auto.
  rewrite trace_be. unfold tr. rewrite !B by lia. apply (baa_trace n (sin t) (cos t) U).
Qed.
(** rotate_vector is the same rotation *)
Theorem rotate_vector_is_rotation : forall n t v, rotate_vector (vlist v) (vlist n) t = Ok (vlist (rodrigues n t v)).
Proof.
  intros [x y z] t [a b c]. unfold rotate_vector, vlist. cbn. unfold rodrigues, cross, dot. cbn.
  apply f_equal. repeat (apply f_equal2; [ring|]). reflexivity.
Qed.
Theorem axis_angle_additive : forall m n s t ms mt mst, holds3 m -> unit n ->
  matrix_rotation_axis_angle m (vlist n) s = Ok ms -> matrix_rotation_axis_angle m (vlist n) t = Ok mt ->
  matrix_rotation_axis_angle m (vlist n) (s + t) = Ok mst -> is_product mst ms mt /\ is_product mst mt ms.
Proof.
  intros m n s t ms mt mst H U E1 E2 E3.
  destruct (rotation_axis_angle_b m n s H) as (x & X & F1 & B1). same X E1.
  destruct (rotation_axis_angle_b m n t H) as (x & X' & F2 & B2). same X' E2.
  destruct (rotation_axis_angle_b m n (s + t) H) as (x & X'' & F3 & B3). same X'' E3.
  destruct F1 as (_ & _ & F1 & _), F2 as (_ & _ & F2 & _), F3 as (_ & _ & F3 & _).
  assert (K1 : block mst (bprod (be ms) (be mt))).
  { intros i j Hi Hj. rewrite B3 by auto. rewrite sin_plus, cos_plus, baa_add by auto. unfold bprod. rewrite !B1, !B2 by lia. auto. }
  assert (K2 : block mst (bprod (be mt) (be ms))).
  { intros i j Hi Hj. rewrite B3 by auto. rewrite (Rplus_comm s t), sin_plus, cos_plus, baa_add by auto. unfold bprod. rewrite !B1, !B2 by lia. auto. }
  apply block_product in K1; [|congruence|congruence]. apply block_product in K2; [|congruence|congruence].
  destruct (mbasis mst); auto.
Qed.
Theorem axis_angle_opposite : forall m n t mt mo, holds3 m ->
  matrix_rotation_axis_angle m (vlist n) t = Ok mt -> matrix_rotation_axis_angle m (vlist n) (- t) = Ok mo -> is_transpose mo mt.
Proof.
  intros m n t mt mo H E1 E2.
  destruct (rotation_axis_angle_b m n t H) as (x & X & F1 & B1). same X E1.
  destruct (rotation_axis_angle_b m n (- t) H) as (x & X' & F2 & B2). same X' E2.
  destruct F1 as (_ & _ & F1 & _), F2 as (_ & _ & F2 & _).
  intros i j Hi Hj. rewrite !be_mel, F1, F2. rewrite sin_neg, cos_neg in B2.
  destruct (mbasis m); rewrite B1, B2 by auto; apply baa_neg; auto.
Qed.
(** the quaternion of the same axis and angle is a unit quaternion with the same matrix *)
Theorem axis_angle_quaternion : forall m o q n t, holds3 m -> unit n ->
  exists q' m1 m2, quaternion_rotation_axis_angle o q (vlist n) t = Ok q' /\ unit_quat o q' /\
    matrix_rotation_quaternion m o q' = Ok m1 /\ matrix_rotation_axis_angle m (vlist n) t = Ok m2 /\ same_action m1 m2.
Proof.
  intros m o q n t H U. destruct (quaternion_axis_angle_b o q n t) as (q' & E & P).
  destruct (rotation_quaternion_b m o q' H) as (m1 & E1 & _ & B1).
  destruct (rotation_axis_angle_b m n t H) as (m2 & E2 & _ & B2).
  exists q', m1, m2. split; auto. split. { unfold unit_quat. rewrite P. apply haa_unit; auto. }
  split; auto. split; auto. apply same_action_be. intros i j Hi Hj. rewrite B1, B2, P by auto. apply haa_block; auto.
Qed.
(** rotations about the cardinal axes agree with the world-axis functions in every element *)
Theorem world_axis_is_axis_angle : forall m a t, holds3 m -> (0 <= a <= 2)%Z ->
  exists m1 m2, matrix_rotation_world_axis m a t = Ok m1 /\ matrix_rotation_axis_angle m (vlist (cardinal a)) t = Ok m2 /\
    mrows m1 = mrows m2 /\ mcols m1 = mcols m2 /\ mbasis m1 = mbasis m2 /\ forall i j, mel m1 i j = mel m2 i j.
Proof.
  intros m a t H Ha. destruct (rotation_world_axis_b m a t H Ha) as (m1 & E1 & F1 & B1).
  destruct (rotation_axis_angle_b m (cardinal a) t H) as (m2 & E2 & F2 & B2).
  exists m1, m2. destruct F1 as (R1 & C1 & S1 & F1), F2 as (R2 & C2 & S2 & F2).
  repeat split; try congruence. intros i j.
  destruct (le_lt_dec 3 i); [rewrite F1, F2 by lia; auto|]. destruct (le_lt_dec 3 j); [rewrite F1, F2 by lia; auto|].
  rewrite !be_mel, S1, S2. destruct (mbasis m); rewrite B1, B2 by auto; symmetry; apply baxis_cardinal; auto.
Qed.
Theorem world_axis_quaternion : forall o q a t, (0 <= a <= 2)%Z ->
  exists q' q'', quaternion_rotation_world_axis o q a t = Ok q' /\
    quaternion_rotation_axis_angle o q (vlist (cardinal a)) t = Ok q'' /\ parts o q' = parts o q''.
Proof.
  intros o q a t Ha. destruct (quaternion_axis_angle_b o q (cardinal a) t) as (q'' & E & P).
  unfold quaternion_rotation_world_axis.
  destruct (range3 a Ha) as [->|[->| ->]]; destruct o;
  repeat match goal with |- context [Z.to_nat ?a] => let e := constr:(Z.to_nat a) in let f := eval vm_compute in e in change e with f end;
  (eexists; exists q''; split; [reflexivity|split; [exact E|rewrite P]]);
    destruct q; unfold haa; unfold parts, parts_of; cbn; replace (1 + 1) with 2 by ring; f_equal; ring.
Qed.
(** invalid arguments *)
Theorem rotation_bad_arguments : forall (m : mx R) a (v : list R) t,
  (~ holds3 m -> matrix_rotation_axis_angle m v t = Throw EMinimumMatrixSize /\ matrix_rotation_world_axis m a t = Throw EMinimumMatrixSize) /\
  (holds3 m -> length v <> 3%nat -> matrix_rotation_axis_angle m v t = Throw EVectorSize) /\
  (holds3 m -> (a < 0 \/ 2 < a)%Z -> matrix_rotation_world_axis m a t = Throw EInvalidArgument) /\
  (forall o q, (a < 0 \/ 2 < a)%Z -> quaternion_rotation_world_axis o q a t = Throw EInvalidArgument) /\
  (forall o q, length v <> 3%nat -> quaternion_rotation_axis_angle o q v t = Throw EVectorSize).
Proof.
  intros m a v t. unfold matrix_rotation_axis_angle, matrix_rotation_world_axis, quaternion_rotation_world_axis, quaternion_rotation_axis_angle.
  split; [|split; [|split; [|split]]]; intros.
  - unfold check_linear_3D, check_minimum_size, require.
    destruct (Nat.leb_spec 3 (mrows m)), (Nat.leb_spec 3 (mcols m)); cbn; auto. destruct H. split; auto.
  - rewrite (holds_ok m H). unfold check_size, require. apply Nat.eqb_neq in H0. rewrite H0. reflexivity.
  - rewrite (holds_ok m H). unfold require. cbn [bind]. destruct (Z.leb_spec 0 a), (Z.leb_spec a 2); cbn; auto; lia.
  - unfold require. destruct (Z.leb_spec 0 a), (Z.leb_spec a 2); cbn; auto; lia.
  - unfold check_size, require. apply Nat.eqb_neq in H. rewrite H. reflexivity.
Qed.
(** the plane: counter-clockwise by t, in either orientation *)
Definition act2 (m : mx R) (x y : R) : R * R :=
  match mbasis m with
  | col_basis => (mel m 0 0 * x + mel m 0 1 * y, mel m 1 0 * x + mel m 1 1 * y)
  | row_basis => (x * mel m 0 0 + y * mel m 1 0, x * mel m 0 1 + y * mel m 1 1)
  end.
Theorem rotation_2D : forall m t, (2 <= mrows m)%nat -> (2 <= mcols m)%nat ->
  exists m', matrix_rotation_2D m t = Ok m' /\ frame 2 m m' /\
    (forall x y, act2 m' x y = (x * cos t - y * sin t, x * sin t + y * cos t)) /\
    (forall r s, act2 m' (r * cos s) (r * sin s) = (r * cos (s + t), r * sin (s + t))).
Proof.
  intros m t H1 H2. unfold matrix_rotation_2D. unfold check_linear_2D. rewrite min_ok by auto. cbn [bind].
  eexists. split; [reflexivity|]. split; [frm|].
  assert (A : forall x y, act2 (set_be (set_be (set_be (set_be (mx_identity m) 0 0 (mcos t)) 0 1 (msin t)) 1 0 (neg (msin t))) 1 1 (mcos t)) x y
     = (x * cos t - y * sin t, x * sin t + y * cos t)).
  { intros x y. unfold act2. rewrite !be_mel. rewrite !mbasis_set. cbn [mbasis mx_identity].
    destruct (mbasis m); rewrite !be_set, ?be_identity; cbn; f_equal; ring. }
  split; [exact A|]. intros r s. rewrite A, cos_plus, sin_plus. f_equal; ring.
Qed.

(** ** C20 *)
Lemma to_list v l : map (fun x => div x l) (vlist v) = vlist (V3 (vx v / l) (vy v / l) (vz v / l)).
Proof. destruct v; reflexivity. Qed.
(** From a rotation matrix: away from the tolerance band, and when the matrix is exactly
    symmetric, the axis and angle rebuild the matrix; inside the band the angle is 0 or pi. *)
Theorem matrix_axis_angle_round_trip : forall m tol, holds3 m -> is_rotation m -> 0 <= tol ->
  exists n t, matrix_to_axis_angle m tol = Ok (vlist n, t) /\ 0 <= t <= PI /\
    (tol < asymmetry m \/ asymmetry m = 0 ->
       (unit n \/ n = V3 0 0 0 /\ t = 0) /\
       forall a, holds3 a -> exists a', matrix_rotation_axis_angle a (vlist n) t = Ok a' /\ same_action a' m) /\
    (asymmetry m <= tol -> t = 0 \/ t = PI).
Proof.
  intros m tol H Rm T. assert (O : orth (be m)) by (apply orth_rotation; auto).
  assert (SK := skew_norm _ O). assert (PP := PI_RGT_0).
  unfold matrix_to_axis_angle. rewrite (holds_ok m H). cbn [bind].
  change [sub (be m 1 2) (be m 2 1); sub (be m 2 0) (be m 0 2); sub (be m 0 1) (be m 1 0)] with (vlist (skew (be m))).
  rewrite len3_vlist, <- asym_skew, trace_be. cbn [ltb ROps zero sub one].
  assert (A0 : 0 <= asymmetry m) by apply sqrt_pos.
  assert (AA : asymmetry m * asymmetry m = dot (skew (be m)) (skew (be m))).
  { rewrite asym_skew. apply sqrt_sqrt. apply dot_pos. }
  destruct (Rltb tol (asymmetry m)) eqn:L.
  - apply Rltb_true in L. assert (P : 0 < asymmetry m) by lra.
    rewrite to_list. eexists. eexists. split; [reflexivity|]. cbn [matan2 RMath].
    assert (U := atan2_upper (asymmetry m) (tr (be m) - 1) P). split; [lra|]. split; [|lra].
    intros _. destruct (atan2_polar (tr (be m) - 1) (asymmetry m) 2) as [S C]; [lra|rewrite AA, SK; ring|].
    destruct (axis_of_skew (be m) (asymmetry m) _ _ O P AA eq_refl S C) as [Un B].
    split; [auto|]. intros a Ha. destruct (rotation_axis_angle_b a (V3 (vx (skew (be m)) / asymmetry m) (vy (skew (be m)) / asymmetry m) (vz (skew (be m)) / asymmetry m)) (Ratan2 (asymmetry m) (tr (be m) - 1)) Ha) as (a' & E & _ & Ba).
    exists a'. split; [exact E|]. apply same_action_be. intros i j Hi Hj. rewrite Ba by auto. apply B; auto.
  - apply Rltb_false in L.
    assert (Zs : asymmetry m = 0 -> skew (be m) = V3 0 0 0). { intros Z. apply dot_zero. rewrite <- AA, Z. ring. }
    destruct (Rltb 0 (tr (be m) - 1)) eqn:Tm.
    + apply Rltb_true in Tm. exists (V3 0 0 0), 0. split; [reflexivity|]. split; [lra|]. split; [|auto].
      intros [Bad|Z]; [lra|]. split; [auto|]. intros a Ha.
      destruct (rotation_axis_angle_b a (V3 0 0 0) 0 Ha) as (a' & E & _ & Ba). exists a'. split; [exact E|].
      apply same_action_be. intros i j Hi Hj. rewrite Ba, (identity_turn _ O (Zs Z)) by (auto; lra).
      rewrite sin_0, cos_0. unfold baa, bid. cases3 Hi; cases3 Hj; cbn [b3 Nat.eqb]; ring.
    + apply Rltb_false in Tm.
      destruct (index_of_max3_l R_total_order (be m 0 0) (be m 1 1) (be m 2 2)) as [Hk Mx].
      set (k := index_of_max3 (be m 0 0) (be m 1 1) (be m 2 2)) in *. clearbody k.
      assert (M0 := Mx 0%nat ltac:(lia)). assert (M1 := Mx 1%nat ltac:(lia)). assert (M2 := Mx 2%nat ltac:(lia)).
      cbn [ltb ROps] in M0, M1, M2. rewrite Rltb_false in M0, M1, M2. clear Mx.
      assert (Fin : forall n, (asymmetry m = 0 -> unit n /\ forall i j, (i < 3)%nat -> (j < 3)%nat -> baa n (sin PI) (cos PI) i j = be m i j) ->
         0 <= PI <= PI /\ (tol < asymmetry m \/ asymmetry m = 0 ->
       (unit n \/ n = V3 0 0 0 /\ PI = 0) /\
       forall a, holds3 a -> exists a', matrix_rotation_axis_angle a (vlist n) PI = Ok a' /\ same_action a' m) /\
         (asymmetry m <= tol -> PI = 0 \/ PI = PI)).
      { intros n K. split; [lra|]. split; [|auto]. intros [Bad|Z]; [lra|]. destruct (K Z) as [Un B]. split; auto.
        intros a Ha. destruct (rotation_axis_angle_b a n PI Ha) as (a' & E & _ & Ba). exists a'. split; [exact E|].
        apply same_action_be. intros i j Hi Hj. rewrite Ba by auto. apply B; auto. }
      assert (X : asymmetry m = 0 -> tr (be m) = -1). { intros Z. apply (half_turn _ O (Zs Z)). lra. }
      unfold tr in Tm, X.
      cases3 Hk; cbn [arg3] in *;
      match goal with |- context [cyclic_permutation3 ?a] => let e := constr:(cyclic_permutation3 a) in let f := eval vm_compute in e in change e with f end;
      cbn [bind]; repeat match goal with |- context [Z.to_nat ?a] => let e := constr:(Z.to_nat a) in let f := eval vm_compute in e in change e with f end.
      * eexists (V3 _ _ _), PI. split; [reflexivity|]. apply Fin. intros Z. assert (X' := X Z).
        apply (half_turn_axis (be m) _ 0%nat O (Zs Z)); cbn [vx vy vz]; try (unfold tr); try lra; try lia.
        -- unfold el. cbn. replace (1 + 1) with 2 by ring. apply (f_equal (fun x => sqrt x / 2)). lra.
        -- intros [|[|[|l]]] Hl Nl; try lia; unfold el; cbn; replace (1 + 1) with 2 by ring; unfold Rdiv; ring.
      * eexists (V3 _ _ _), PI. split; [reflexivity|]. apply Fin. intros Z. assert (X' := X Z).
        apply (half_turn_axis (be m) _ 1%nat O (Zs Z)); cbn [vx vy vz]; try (unfold tr); try lra; try lia.
        -- unfold el. cbn. replace (1 + 1) with 2 by ring. apply (f_equal (fun x => sqrt x / 2)). lra.
        -- intros [|[|[|l]]] Hl Nl; try lia; unfold el; cbn; replace (1 + 1) with 2 by ring; unfold Rdiv; ring.
      * eexists (V3 _ _ _), PI. split; [reflexivity|]. apply Fin. intros Z. assert (X' := X Z).
        apply (half_turn_axis (be m) _ 2%nat O (Zs Z)); cbn [vx vy vz]; try (unfold tr); try lra; try lia.
        -- unfold el. cbn. replace (1 + 1) with 2 by ring. apply (f_equal (fun x => sqrt x / 2)). lra.
        -- intros [|[|[|l]]] Hl Nl; try lia; unfold el; cbn; replace (1 + 1) with 2 by ring; unfold Rdiv; ring.
Qed.
(** From a unit quaternion: away from the band the axis and angle rebuild the quaternion
    itself; on a real quaternion they rebuild the rotation; inside the band the angle is 0. *)
Theorem quaternion_axis_angle_round_trip : forall o q tol, unit_quat o q -> 0 <= tol ->
  let l := sqrt (hx (parts o q) * hx (parts o q) + hy (parts o q) * hy (parts o q) + hz (parts o q) * hz (parts o q)) in
  exists n t, quaternion_to_axis_angle o q tol = (vlist n, t) /\ 0 <= t < 2 * PI /\
    (tol < l -> unit n /\ forall o' p, exists p', quaternion_rotation_axis_angle o' p (vlist n) t = Ok p' /\ parts o' p' = parts o q) /\
    (l <= tol -> n = V3 0 0 0 /\ t = 0) /\
    (l = 0 -> forall m, holds3 m -> exists a b, matrix_rotation_axis_angle m (vlist n) t = Ok a /\ matrix_rotation_quaternion m o q = Ok b /\ same_action a b).
Proof.
  intros o q tol U T. unfold unit_quat in U. unfold quaternion_to_axis_angle.
  assert (EI : [imag o (qget q) 0; imag o (qget q) 1; imag o (qget q) 2] = vlist (V3 (hx (parts o q)) (hy (parts o q)) (hz (parts o q)))).
  { destruct o; reflexivity. }
  rewrite EI. change (qget q (oW o)) with (hw (parts o q)). rewrite len3_vlist.
  unfold dot. cbn [vx vy vz].
  assert (PB : forall m, holds3 m -> exists b, matrix_rotation_quaternion m o q = Ok b /\ block b (bquat (parts o q))).
  { intros m Hm. destruct (rotation_quaternion_b m o q Hm) as (b & E & _ & B). eauto. }
  destruct (parts o q) as [w x y z]. unfold hnorm in U. cbn [hw hx hy hz add mul ROps] in *.
  set (l := sqrt (x * x + y * y + z * z)). assert (P := PI_RGT_0).
  assert (L0 : 0 <= l) by apply sqrt_pos.
  assert (LL : l * l = x * x + y * y + z * z). { apply sqrt_sqrt. assert (A := dot_pos (V3 x y z)). exact A. }
  cbn [ltb ROps]. destruct (Rltb tol l) eqn:Lt.
  - apply Rltb_true in Lt. assert (Lp : 0 < l) by lra. rewrite to_list. cbn [vx vy vz].
    eexists. eexists. split; [reflexivity|]. cbn [mul two add one ROps matan2 RMath].
    replace (1 + 1) with 2 by ring.
    assert (B := atan2_upper l w Lp). split; [lra|].
    destruct (atan2_unit w l) as [S C]; [lra|].
    split; [|split; [lra|intros Z; lra]]. intros _.
    assert (Un : unit (V3 (x / l) (y / l) (z / l))).
    { unfold unit, dot. cbn [vx vy vz]. match goal with |- ?a = 1 => replace a with ((x * x + y * y + z * z) / (l * l)) by (field; lra) end. rewrite <- LL. field. lra. }
    split; auto. intros o' p. destruct (quaternion_axis_angle_b o' p (V3 (x / l) (y / l) (z / l)) (2 * Ratan2 l w)) as (p' & E & Pp).
    exists p'. split; [exact E|]. rewrite Pp. unfold haa. replace (2 * Ratan2 l w / 2) with (Ratan2 l w) by field.
    rewrite S, C. cbn [vx vy vz]. f_equal; field; lra.
  - apply Rltb_false in Lt. exists (V3 0 0 0), 0. split; [reflexivity|]. split; [lra|]. split; [lra|]. split; [auto|].
    intros Z m Hm. destruct (PB m Hm) as (b & Eb & Bb). destruct (rotation_axis_angle_b m (V3 0 0 0) 0 Hm) as (a & Ea & _ & Ba).
    exists a, b. split; auto. split; auto. apply same_action_be. intros i j Hi Hj. rewrite Ba, Bb by auto.
    rewrite Z in LL. destruct (four_squares x y z 0) as (-> & -> & -> & _); [lra|].
    rewrite sin_0, cos_0. unfold baa, bquat. cases3 Hi; cases3 Hj; cbn [b3]; ring.
Qed.

(** ** Cases meeting the hypotheses *)
Definition m33 : mx R := Mx 3 3 col_basis (fun _ _ => 5).
Example axis_cases : unit (V3 (2/3) (-1/3) (2/3)) /\ holds3 m33.
Proof. unfold unit, dot, holds3; cbn. split; [lra|lia]. Qed.
(** a quarter turn is far from the band, a half turn is exactly symmetric *)
Definition quarter_turn : mx R := Mx 3 3 row_basis (b3 0 1 0 (-1) 0 0 0 0 1).
Definition half_turn_y : mx R := Mx 3 3 row_basis (b3 (-1) 0 0 0 1 0 0 0 (-1)).
Example extraction_cases : is_rotation quarter_turn /\ asymmetry quarter_turn = 2 /\ is_rotation half_turn_y /\ asymmetry half_turn_y = 0 /\
  unit_quat imaginary_first (Quat (3/5) 0 0 (4/5)) /\ unit_quat real_first (Quat (-1) 0 0 0).
Proof.
  split; [apply orth_rotation; unfold orth, be; cbn; repeat split; ring|].
  split. { unfold asymmetry; cbn. apply sqrt_eq; lra. }
  split; [apply orth_rotation; unfold orth, be; cbn; repeat split; ring|].
  split. { unfold asymmetry; cbn. apply sqrt_eq; lra. }
  unfold unit_quat, hnorm; cbn. split; lra.
Qed.

Print Assumptions axis_angle_rotates.
Print Assumptions rotate_vector_is_rotation.
Print Assumptions axis_angle_additive.
Print Assumptions axis_angle_opposite.
Print Assumptions axis_angle_quaternion.
Print Assumptions world_axis_is_axis_angle.
Print Assumptions world_axis_quaternion.
Print Assumptions rotation_bad_arguments.
Print Assumptions rotation_2D.
Print Assumptions matrix_axis_angle_round_trip.
Print Assumptions quaternion_axis_angle_round_trip.
