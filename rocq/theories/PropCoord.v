(** C41: conversions between Cartesian, polar, cylindrical and spherical coordinates. *)
From Coq Require Import Reals List Bool Lra Lia ZArith.
From Verif Require Import Base RInst ScalarModel MiscModel RotModel RotProofs VecModel VecSpec VecProofs VecReal XfModel GeoModel GeoSpec.
Import ListNotations.
Open Scope R_scope.

(** ** Angles *)
Lemma cos1_zero x : cos x = 1 -> - (2 * PI) < x < 2 * PI -> x = 0.
Proof.
  intros C H. assert (S : sin (x / 2) = 0).
  { assert (D := cos_2a_sin (x / 2)). replace (2 * (x / 2)) with x in D by field. rewrite C in D.
    assert (Q : sin (x / 2) * sin (x / 2) = 0) by lra. apply Rmult_integral in Q. tauto. }
  destruct (Rtotal_order x 0) as [L|[E|G]]; auto; exfalso.
  - assert (P : 0 < sin (- (x / 2))) by (apply sin_gt_0; lra). rewrite sin_neg in P. lra.
  - assert (P : 0 < sin (x / 2)) by (apply sin_gt_0; lra). lra.
Qed.
Lemma angle_unique a b : cos a = cos b -> sin a = sin b -> - PI < a <= PI -> - PI < b <= PI -> a = b.
Proof.
  intros C S A B. assert (D : cos (a - b) = 1).
  { rewrite cos_minus, C, S. assert (P := sin2_cos2 b). unfold Rsqr in P. lra. }
  apply cos1_zero in D; lra.
Qed.
Lemma atan2_of r t : 0 < r -> - PI < t <= PI -> Ratan2 (r * sin t) (r * cos t) = t.
Proof.
  intros R0 H. assert (P := sin2_cos2 t). unfold Rsqr in P.
  destruct (polar (r * cos t) (r * sin t) r R0) as [S C].
  { replace (r * cos t * (r * cos t) + r * sin t * (r * sin t)) with (r * r * (sin t * sin t + cos t * cos t)) by ring. rewrite P. ring. }
  apply Rmult_eq_reg_l in S; [|lra]. apply Rmult_eq_reg_l in C; [|lra]. apply angle_unique; auto using atan2_range.
Qed.
Lemma len2_sqr x y : length2 x y * length2 x y = x * x + y * y.
Proof. unfold length2, length_squared2. cbn [msqrt RMath add mul ROps]. apply sqrt_sqrt. nra. Qed.
Lemma len2_pos (x y : R) : 0 <= length2 x y. Proof. apply sqrt_pos. Qed.
Lemma len2_polar x y : 0 < length2 x y -> y = length2 x y * sin (Ratan2 y x) /\ x = length2 x y * cos (Ratan2 y x).
Proof. intros H. apply polar; auto. apply len2_sqr. Qed.
Lemma len2_0 x y : length2 x y = 0 -> x = 0 /\ y = 0.
Proof. intros H. assert (Q := len2_sqr x y). rewrite H in Q. assert (0 <= x * x) by nra. assert (0 <= y * y) by nra. split; apply Rsqr_0_uniq; unfold Rsqr; lra. Qed.
Lemma len2_of r x y : 0 <= r -> x * x + y * y = r * r -> length2 x y = r.
Proof. intros H E. unfold length2, length_squared2. cbn [msqrt RMath add mul ROps]. rewrite E. apply sqrt_square; auto. Qed.
(** the angle the code stores, and what the conversion back makes of it *)
Lemma back2 x y tol : tol <= length2 x y \/ length2 x y = 0 ->
  let th := if Rltb (length2 x y) tol then 0 else Ratan2 y x in length2 x y * cos th = x /\ length2 x y * sin th = y.
Proof.
  intros H. cbv zeta. set (r := length2 x y) in *. assert (P := len2_pos x y). fold r in P. destruct (Rle_lt_or_eq_dec 0 r P) as [L|Z].
  - destruct H as [H|H]; [|lra]. unfold Rltb. destruct (Rlt_dec r tol); [lra|]. destruct (len2_polar x y L) as [S C]. fold r in S, C. split; congruence.
  - rewrite <- Z. assert (Q := len2_0 x y (eq_sym Z)). destruct Q as [-> ->]. split; ring.
Qed.
Lemma near2 x y tol : 0 <= tol -> let th := if Rltb (length2 x y) tol then 0 else Ratan2 y x in
  (length2 x y * cos th - x) * (length2 x y * cos th - x) + (length2 x y * sin th - y) * (length2 x y * sin th - y) <= 2 * tol * (2 * tol).
Proof.
  intros T0. cbv zeta. destruct (Rle_dec tol (length2 x y)) as [L|G].
  - destruct (back2 x y tol (or_introl L)) as [A B]. rewrite A, B. nra.
  - unfold Rltb. destruct (Rlt_dec (length2 x y) tol); [|lra]. rewrite cos_0, sin_0. assert (Q := len2_sqr x y). assert (P := len2_pos x y).
    set (k := length2 x y) in *. assert (- k <= x) by (assert (0 <= y * y) by nra; nra). nra.
Qed.
Lemma theta_range x y tol : - PI < (if Rltb (length2 x y) tol then 0 else Ratan2 y x) <= PI.
Proof. assert (P := PI_RGT_0). destruct (Rltb _ _); [lra|apply atan2_range]. Qed.

(** ** Polar *)
Lemma norm2 x y : norm [x; y] = length2 x y.
Proof. unfold norm, length2, length_squared2. cbn [sum_prod msqrt RMath add mul zero ROps]. f_equal. ring. Qed.
Lemma polar_run (v : list R) r th : length v = 2%nat -> polar_to_cartesian v r th = Ok [r * cos th; r * sin th].
Proof.
  intros L. destruct (len2 v L) as (x & y & ->). unfold polar_to_cartesian, vset. cbn. f_equal. repeat (apply f_equal2; [ring|]). auto.
Qed.
Theorem polar_to_cartesian_spec : forall (v : list R) r th, length v = 2%nat -> polar_to_cartesian v r th = Ok [r * cos th; r * sin th].
Proof. exact polar_run. Qed.
Lemma to_polar_run x y tol : cartesian_to_polar [x; y] tol = Ok (length2 x y, if Rltb (length2 x y) tol then 0 else Ratan2 y x).
Proof. unfold cartesian_to_polar. rewrite vlength_norm by discriminate. rewrite norm2. reflexivity. Qed.
Theorem polar_round_trip : forall (v : list R) tol, length v = 2%nat ->
  exists r th, cartesian_to_polar v tol = Ok (r, th) /\ r = norm v /\ - PI < th <= PI /\ (r < tol -> th = 0) /\
    forall u, length u = 2%nat -> exists v', polar_to_cartesian u r th = Ok v' /\
      (tol <= r \/ r = 0 -> v' = v) /\ (0 <= tol -> distance v' v <= 2 * tol).
Proof.
  intros v tol L. destruct (len2 v L) as (x & y & ->). rewrite to_polar_run, norm2. eexists. eexists. split; [reflexivity|].
  split; auto. split; [apply theta_range|]. split; [unfold Rltb; destruct (Rlt_dec _ _); auto; lra|].
  intros u Lu. eexists. split; [apply polar_run; auto|]. split.
  - intros H. destruct (back2 x y tol H) as [-> ->]. auto.
  - intros H. unfold distance. cbn [zip sub ROps]. rewrite norm2. assert (N := near2 x y tol H). cbv zeta in N.
    apply Rsqr_incr_0; [|apply len2_pos|lra]. unfold Rsqr. rewrite len2_sqr. exact N.
Qed.
Theorem polar_recovered : forall (u v : list R) r th tol, length u = 2%nat -> 0 < r -> tol <= r -> - PI < th <= PI ->
  polar_to_cartesian u r th = Ok v -> cartesian_to_polar v tol = Ok (r, th).
Proof.
  intros u v r th tol L R0 T0 H E. rewrite polar_run in E by auto. injection E as <-. rewrite to_polar_run.
  assert (K : length2 (r * cos th) (r * sin th) = r).
  { apply len2_of; [lra|]. assert (P := sin2_cos2 th). unfold Rsqr in P.
    replace (r * cos th * (r * cos th) + r * sin th * (r * sin th)) with (r * r * (sin th * sin th + cos th * cos th)) by ring. rewrite P. ring. }
  rewrite K. unfold Rltb. destruct (Rlt_dec r tol); [lra|]. rewrite atan2_of; auto.
Qed.

(** ** Axes *)
Lemma cycle_run axis (v : list R) : length v = 3%nat -> (0 <= axis <= 2)%Z ->
  axis_cycle axis v = Ok (match axis with 0%Z => (0, 1, 2) | 1%Z => (1, 2, 0) | _ => (2, 0, 1) end)%nat.
Proof.
  intros L H. unfold axis_cycle. replace (Z.leb 0 axis && Z.leb axis 2)%bool with true by (symmetry; apply andb_true_iff; split; apply Z.leb_le; lia).
  unfold check_size. rewrite L. cbn [require bind Nat.eqb]. assert (D : axis = 0%Z \/ axis = 1%Z \/ axis = 2%Z) by lia. destruct D as [-> | [-> | ->]]; reflexivity.
Qed.
Ltac axes3 H := match type of H with (0 <= ?a <= 2)%Z =>
  let D := fresh in assert (D : a = 0%Z \/ a = 1%Z \/ a = 2%Z) by lia; destruct D as [-> | [-> | ->]] end.
(** every vector is placed; [axial], [first], [second] are its components *)
Lemma placed axis (v : list R) : length v = 3%nat -> (0 <= axis <= 2)%Z -> exists a b c, v = place axis a b c.
Proof. intros L H. destruct (len3 v L) as (x & y & z & ->). axes3 H; cbn [place]; [exists x, y, z|exists y, z, x|exists z, x, y]; auto. Qed.
Lemma cyl_run (v : list R) axis r th h : length v = 3%nat -> (0 <= axis <= 2)%Z ->
  cylindrical_to_cartesian v axis r th h = Ok (cylinder_point axis r th h).
Proof.
  intros L H. unfold cylindrical_to_cartesian. rewrite cycle_run by auto. destruct (len3 v L) as (x & y & z & ->).
  axes3 H; cbn [bind]; unfold vset, cylinder_point; cbn; f_equal; repeat (apply f_equal2; [ring|]); auto.
Qed.
Lemma to_cyl_run axis a b c tol : (0 <= axis <= 2)%Z -> cartesian_to_cylindrical (place axis a b c) axis tol =
  Ok (length2 b c, if Rltb (length2 b c) tol then 0 else Ratan2 c b, a).
Proof.
  intros H. unfold cartesian_to_cylindrical. rewrite cycle_run by (auto; axes3 H; reflexivity). axes3 H; reflexivity.
Qed.
Lemma place_eq axis a b c a' b' c' : a = a' -> b = b' -> c = c' -> place axis a b c = place axis a' b' c'.
Proof. congruence. Qed.
Lemma place_distance axis a b c a' b' c' k : 0 <= k -> (a' - a) * (a' - a) + (b' - b) * (b' - b) + (c' - c) * (c' - c) <= k * k ->
  distance (place axis a' b' c') (place axis a b c) <= k.
Proof.
  intros K H. unfold distance, norm.
  replace (sum_prod _ _) with ((a' - a) * (a' - a) + (b' - b) * (b' - b) + (c' - c) * (c' - c)).
  { rewrite <- (sqrt_square k) by auto. apply sqrt_le_1_alt. auto. }
  unfold place. destruct axis as [|[p|p|]|p]; cbn [zip sum_prod sub add mul zero ROps]; ring.
Qed.
Lemma place_norm axis a b c : norm (place axis a b c) = length2 a (length2 b c).
Proof.
  unfold norm, length2 at 1, length_squared2 at 1. cbn [msqrt RMath]. f_equal. cbn [add mul ROps]. rewrite len2_sqr.
  unfold place. destruct axis as [|[p|p|]|p]; cbn [sum_prod add mul zero ROps]; ring.
Qed.
(** ** Cylindrical *)
Theorem cylindrical_to_cartesian_spec : forall (v : list R) axis r th h, length v = 3%nat -> (0 <= axis <= 2)%Z ->
  cylindrical_to_cartesian v axis r th h = Ok (cylinder_point axis r th h).
Proof. exact cyl_run. Qed.
Theorem cylindrical_round_trip : forall (v : list R) axis tol, length v = 3%nat -> (0 <= axis <= 2)%Z ->
  exists r th h, cartesian_to_cylindrical v axis tol = Ok (r, th, h) /\ 0 <= r /\ - PI < th <= PI /\ h = nth (Z.to_nat axis) v 0 /\
    r * r + h * h = sum_prod v v /\ (r < tol -> th = 0) /\
    forall u, length u = 3%nat -> exists v', cylindrical_to_cartesian u axis r th h = Ok v' /\
      (tol <= r \/ r = 0 -> v' = v) /\ (0 <= tol -> distance v' v <= 2 * tol).
Proof.
  intros v axis tol L H. destruct (placed axis v L H) as (a & b & c & ->). rewrite to_cyl_run by auto.
  eexists. eexists. eexists. split; [reflexivity|]. split; [apply len2_pos|]. split; [apply theta_range|]. split; [axes3 H; reflexivity|].
  split. { rewrite len2_sqr. axes3 H; cbn [place sum_prod add mul zero ROps]; ring. }
  split; [unfold Rltb; destruct (Rlt_dec _ _); auto; lra|].
  intros u Lu. eexists. split; [apply cyl_run; auto|]. unfold cylinder_point. split.
  - intros Q. destruct (back2 b c tol Q) as [-> ->]. auto.
  - intros Q. apply place_distance; [lra|]. assert (N := near2 b c tol Q). cbv zeta in N. lra.
Qed.
Theorem cylindrical_recovered : forall (u v : list R) axis r th h tol, length u = 3%nat -> (0 <= axis <= 2)%Z -> 0 < r -> tol <= r -> - PI < th <= PI ->
  cylindrical_to_cartesian u axis r th h = Ok v -> cartesian_to_cylindrical v axis tol = Ok (r, th, h).
Proof.
  intros u v axis r th h tol L H R0 T0 A E. rewrite cyl_run in E by auto. injection E as <-. unfold cylinder_point. rewrite to_cyl_run by auto.
  assert (K : length2 (r * cos th) (r * sin th) = r).
  { apply len2_of; [lra|]. assert (P := sin2_cos2 th). unfold Rsqr in P.
    replace (r * cos th * (r * cos th) + r * sin th * (r * sin th)) with (r * r * (sin th * sin th + cos th * cos th)) by ring. rewrite P. ring. }
  rewrite K. unfold Rltb. destruct (Rlt_dec r tol); [lra|]. rewrite atan2_of; auto.
Qed.
(** ** Spherical *)
Lemma sph_run (v : list R) axis type r th phi : length v = 3%nat -> (0 <= axis <= 2)%Z ->
  spherical_to_cartesian v axis type r th phi = Ok (sphere_point axis type r th phi).
Proof.
  intros L H. unfold spherical_to_cartesian. rewrite cycle_run by auto. destruct (len3 v L) as (x & y & z & ->).
  assert (S : sin (PI / (1 + 1) - phi) = cos phi) by (replace (1 + 1) with 2 by ring; rewrite <- cos_shift; f_equal; lra).
  assert (C : cos (PI / (1 + 1) - phi) = sin phi) by (replace (1 + 1) with 2 by ring; apply cos_shift).
  axes3 H; cbn [bind]; unfold vset, sphere_point, two; destruct type; cbn; rewrite ?S, ?C; f_equal; repeat (apply f_equal2; [ring|]); auto.
Qed.
Theorem spherical_to_cartesian_spec : forall (v : list R) axis type r th phi, length v = 3%nat -> (0 <= axis <= 2)%Z ->
  spherical_to_cartesian v axis type r th phi = Ok (sphere_point axis type r th phi).
Proof. exact sph_run. Qed.
Definition phi_of (type : latitude_type) (p : R) : R := match type with colatitude => p | latitude => PI / 2 - p end.
Lemma to_sph_run axis type a b c tol : (0 <= axis <= 2)%Z -> cartesian_to_spherical (place axis a b c) axis type tol =
  Ok (length2 a (length2 b c), if Rltb (length2 b c) tol then 0 else Ratan2 c b,
      if Rltb (length2 a (length2 b c)) tol then 0 else phi_of type (Ratan2 (length2 b c) a)).
Proof.
  intros H. unfold cartesian_to_spherical. rewrite cycle_run by (auto; axes3 H; reflexivity).
  axes3 H; cbn [bind place el nth]; destruct type; cbn [phi_of]; unfold two; cbn [mpi RMath div sub one add ltb matan2 ROps zero];
    replace (1 + 1) with 2 by ring; reflexivity.
Qed.
Lemma sphere_phi axis type r th p : sphere_point axis type r th (phi_of type p) = place axis (r * cos p) (r * sin p * cos th) (r * sin p * sin th).
Proof.
  destruct type; cbn [sphere_point phi_of]; auto. rewrite cos_shift, sin_shift. auto.
Qed.
Lemma sphere_norm axis type r th phi : sum_prod (sphere_point axis type r th phi) (sphere_point axis type r th phi) = r * r.
Proof.
  assert (P := sin2_cos2 th). assert (Q := sin2_cos2 phi). unfold Rsqr in P, Q.
  transitivity (r * r * (sin phi * sin phi + cos phi * cos phi)); [|rewrite Q; ring].
  destruct type; unfold sphere_point, place; [transitivity (r * r * (sin phi * sin phi + cos phi * cos phi * (sin th * sin th + cos th * cos th)))|
    transitivity (r * r * (cos phi * cos phi + sin phi * sin phi * (sin th * sin th + cos th * cos th)))];
    try (rewrite P; ring); destruct axis as [|[|p|]|]; cbn [sum_prod add mul zero ROps]; ring.
Qed.
Lemma distance_le u v k : length u = 3%nat -> length v = 3%nat -> 0 <= k -> sum_prod u u <= k * k -> sum_prod v v <= k * k -> distance u v <= 2 * k.
Proof.
  intros Lu Lv K U V. destruct (len3 u Lu) as (a & b & c & ->), (len3 v Lv) as (x & y & z & ->). unfold distance, norm.
  rewrite <- (sqrt_square (2 * k)) by lra. apply sqrt_le_1_alt. cbn [zip sum_prod sub add mul zero ROps] in *.
  assert (A := Rle_0_sqr (a + x)). assert (B := Rle_0_sqr (b + y)). assert (C := Rle_0_sqr (c + z)). unfold Rsqr in A, B, C. lra.
Qed.
Lemma sphere_length axis type r th phi : length (sphere_point axis type r th phi) = 3%nat.
Proof. destruct type, axis as [|[|p|]|]; reflexivity. Qed.
Lemma place_length axis a b c : length (place axis a b c) = 3%nat.
Proof. destruct axis as [|[|p|]|]; reflexivity. Qed.
Theorem spherical_round_trip : forall (v : list R) axis type tol, length v = 3%nat -> (0 <= axis <= 2)%Z ->
  exists r th phi, cartesian_to_spherical v axis type tol = Ok (r, th, phi) /\ r = norm v /\ - PI < th <= PI /\ phi_range type phi /\
    exists len, 0 <= len /\ len * len + nth (Z.to_nat axis) v 0 * nth (Z.to_nat axis) v 0 = sum_prod v v /\ (len < tol -> th = 0) /\ (r < tol -> phi = 0) /\
    forall u, length u = 3%nat -> exists v', spherical_to_cartesian u axis type r th phi = Ok v' /\
      ((tol <= len \/ len = 0) /\ (tol <= r \/ r = 0) -> v' = v) /\ (0 <= tol -> distance v' v <= 2 * tol).
Proof.
  intros v axis type tol L H. destruct (placed axis v L H) as (a & b & c & ->). rewrite to_sph_run by auto.
  assert (PP := PI_RGT_0). assert (P1 := len2_pos b c). assert (P2 := len2_pos a (length2 b c)). assert (Q2 := len2_sqr a (length2 b c)).
  assert (Q1 := len2_sqr b c). assert (NN := place_norm axis a b c). assert (N2 := norm_sqr (place axis a b c)). rewrite NN in N2.
  eexists. eexists. eexists. split; [reflexivity|]. split; [auto|]. split; [apply theta_range|]. split.
  { destruct (Rltb _ _); [destruct type; cbn; lra|]. assert (U := atan2_upper0 (length2 b c) a P1). destruct type; cbn [phi_range phi_of]; lra. }
  exists (length2 b c). split; auto. split. { replace (nth (Z.to_nat axis) (place axis a b c) 0) with a by (axes3 H; reflexivity). rewrite <- N2, Q2. ring. }
  split; [unfold Rltb; destruct (Rlt_dec _ _); auto; lra|]. split; [unfold Rltb at 1; destruct (Rlt_dec _ _); auto; lra|].
  intros u Lu. eexists. split; [apply sph_run; auto|]. set (len := length2 b c) in *. set (r := length2 a len) in *.
  set (th := if Rltb len tol then 0 else Ratan2 c b).
  assert (Main : 0 < r -> tol <= r -> sphere_point axis type r th (if Rltb r tol then 0 else phi_of type (Ratan2 len a)) = place axis a (len * cos th) (len * sin th)).
  { intros R0 T0. unfold Rltb. destruct (Rlt_dec r tol); [lra|]. rewrite sphere_phi. destruct (polar a len r R0) as [S C]; [lra|].
    rewrite <- S. rewrite (Rmult_comm r (cos _)), (Rmult_comm (cos _)), <- C. auto. }
  assert (Zero : r = 0 -> a = 0 /\ b = 0 /\ c = 0).
  { intros Z. destruct (len2_0 a len Z) as [A B]. destruct (len2_0 b c B). auto. }
  assert (Z3 : forall type th phi, sphere_point axis type 0 th phi = place axis 0 0 0).
  { intros [] t q; unfold sphere_point; apply place_eq; ring. }
  split.
  - intros [[A|A] B].
    + destruct (Rle_lt_or_eq_dec 0 r P2) as [R0|Z].
      * rewrite Main; auto; [|destruct B; lra]. destruct (back2 b c tol (or_introl A)) as [E1 E2]. fold len in E1, E2. unfold th. rewrite E1, E2. auto.
      * destruct (Zero (eq_sym Z)) as (-> & -> & ->). rewrite <- Z. apply Z3.
    + destruct (len2_0 b c A) as [-> ->]. destruct (Rle_lt_or_eq_dec 0 r P2) as [R0|Z].
      * rewrite Main by (auto; destruct B; lra). rewrite A. apply place_eq; ring.
      * destruct (Zero (eq_sym Z)) as (-> & _ & _). rewrite <- Z. apply Z3.
  - intros T0. destruct (Rle_dec tol r) as [B|B].
    + destruct (Rle_lt_or_eq_dec 0 r P2) as [R0|Z].
      * rewrite Main by auto. apply place_distance; [lra|]. assert (N := near2 b c tol T0). cbv zeta in N. fold len in N. fold th in N. lra.
      * destruct (Zero (eq_sym Z)) as (-> & -> & ->). rewrite <- Z, Z3. apply place_distance; [lra|]. nra.
    + apply Rnot_le_lt in B. assert (RR : r * r <= tol * tol) by nra. apply distance_le; auto using sphere_length, place_length; [rewrite sphere_norm|]; lra.
Qed.
Theorem spherical_recovered : forall (u v : list R) axis type r th phi tol, length u = 3%nat -> (0 <= axis <= 2)%Z -> 0 < r ->
  phi_inside type phi -> tol <= r * (match type with colatitude => sin phi | latitude => cos phi end) -> - PI < th <= PI ->
  spherical_to_cartesian u axis type r th phi = Ok v -> cartesian_to_spherical v axis type tol = Ok (r, th, phi).
Proof.
  intros u v axis type r th phi tol L H R0 I T0 A E. rewrite sph_run in E by auto. injection E as <-.
  assert (PP := PI_RGT_0). set (p := phi_of type phi). assert (Pi : phi = phi_of type p) by (unfold p; destruct type; cbn; lra).
  assert (Pr : 0 < p < PI) by (unfold p; destruct type; cbn in *; lra).
  assert (Sp : sin p = match type with colatitude => sin phi | latitude => cos phi end) by (unfold p; destruct type; cbn; auto; apply sin_shift).
  rewrite <- Sp in T0. assert (S0 : 0 < sin p) by (apply sin_gt_0; lra). rewrite Pi, sphere_phi, to_sph_run by auto.
  assert (P := sin2_cos2 th). assert (Q := sin2_cos2 p). unfold Rsqr in P, Q. assert (RS : 0 < r * sin p) by (apply Rmult_lt_0_compat; auto).
  assert (K : length2 (r * sin p * cos th) (r * sin p * sin th) = r * sin p).
  { apply len2_of; [lra|]. replace (r * sin p * cos th * (r * sin p * cos th) + r * sin p * sin th * (r * sin p * sin th)) with (r * sin p * (r * sin p) * (sin th * sin th + cos th * cos th)) by ring. rewrite P. ring. }
  assert (K2 : length2 (r * cos p) (r * sin p) = r).
  { apply len2_of; [lra|]. replace (r * cos p * (r * cos p) + r * sin p * (r * sin p)) with (r * r * (sin p * sin p + cos p * cos p)) by ring. rewrite Q. ring. }
  rewrite !K, K2. assert (sin p <= 1) by (apply SIN_bound). assert (r * sin p <= r) by nra.
  unfold Rltb. destruct (Rlt_dec (r * sin p) tol); [lra|]. destruct (Rlt_dec r tol); [lra|]. rewrite !atan2_of; auto; lra.
Qed.
(** The documented "phi will be 0 if v lies on the base plane" is false for colatitudes. *)
Theorem spherical_base_plane_refuted : exists (v : list R) (r th phi : R),
  length v = 3%nat /\ nth 2 v 0 = 0 /\ cartesian_to_spherical v 2 colatitude 0 = Ok (r, th, phi) /\ phi <> 0.
Proof.
  exists (place 2 0 1 0). rewrite (to_sph_run 2) by lia. eexists. eexists. eexists. split; [reflexivity|]. split; [reflexivity|]. split; [reflexivity|].
  assert (L1 : length2 1 0 = 1) by (apply len2_of; lra). rewrite L1. assert (L2 : length2 0 1 = 1) by (apply len2_of; lra). rewrite L2.
  unfold Rltb. destruct (Rlt_dec 1 0); [lra|]. cbn [phi_of]. unfold Ratan2. destruct (Rlt_dec 0 0); [lra|]. destruct (Rlt_dec 0 1); [|lra].
  assert (P := PI_RGT_0). lra.
Qed.
(** ** Arguments *)
Theorem conversion_errors : forall (T : Type) (Op : Ops T) (MO : MathOps T) (v : list T) axis type (a b c : T),
  (~ (0 <= axis <= 2)%Z -> cylindrical_to_cartesian v axis a b c = Throw EInvalidArgument /\ spherical_to_cartesian v axis type a b c = Throw EInvalidArgument /\
     cartesian_to_cylindrical v axis a = Throw EInvalidArgument /\ cartesian_to_spherical v axis type a = Throw EInvalidArgument) /\
  ((0 <= axis <= 2)%Z -> length v <> 3%nat ->
     cylindrical_to_cartesian v axis a b c = Throw EVectorSize /\ spherical_to_cartesian v axis type a b c = Throw EVectorSize /\
     cartesian_to_cylindrical v axis a = Throw EVectorSize /\ cartesian_to_spherical v axis type a = Throw EVectorSize) /\
  (length v <> 2%nat -> polar_to_cartesian v a b = Throw EVectorSize /\ cartesian_to_polar v a = Throw EVectorSize).
Proof.
  intros T Op MO v axis type a b c. unfold cylindrical_to_cartesian, spherical_to_cartesian, cartesian_to_cylindrical, cartesian_to_spherical,
    polar_to_cartesian, cartesian_to_polar, axis_cycle, check_size. split; [|split].
  - intros H. assert (E : (Z.leb 0 axis && Z.leb axis 2)%bool = false) by (apply andb_false_iff; rewrite !Z.leb_gt; lia). rewrite E. repeat split.
  - intros H L. assert (E : (Z.leb 0 axis && Z.leb axis 2)%bool = true) by (apply andb_true_iff; rewrite !Z.leb_le; lia). rewrite E.
    apply Nat.eqb_neq in L. rewrite L. repeat split.
  - intros L. apply Nat.eqb_neq in L. rewrite L. repeat split.
Qed.
(** the argument orders of the first version of the library *)
Theorem conversion_variants : forall (T : Type) (Op : Ops T) (MO : MathOps T) (v : list T) axis type (r th h : T),
  polar_to_cartesian_1 r th v = polar_to_cartesian v r th /\ cylindrical_to_cartesian_1 r th h axis v = cylindrical_to_cartesian v axis r th h /\
  spherical_to_cartesian_1 r th h axis type v = spherical_to_cartesian v axis type r th h.
Proof. repeat split. Qed.
Example conversion_case : place 1 5 3 4 = [4; 5; 3] /\ length2 3 4 = 5 /\ phi_inside latitude (-1) /\
  sphere_point 0 colatitude 2 0 (PI / 2) = [2 * cos (PI / 2); 2 * sin (PI / 2) * cos 0; 2 * sin (PI / 2) * sin 0].
Proof. repeat split. - apply len2_of; lra. - assert (P := PI2_1). cbn. lra. - assert (P := PI2_1). cbn; lra. Qed.
Print Assumptions polar_round_trip. Print Assumptions cylindrical_recovered. Print Assumptions spherical_round_trip. Print Assumptions spherical_recovered.
