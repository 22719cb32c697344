(** C38, C39: projections and frustum planes. *)
From Coq Require Import Reals List Bool Lra Lia ZArith.
From Verif Require Import Base RInst ScalarModel MiscModel RotModel RotSpec RotFacts RotProofs
  VecModel VecSpec VecProofs VecReal XfModel XfSpec XfProofs GeoModel GeoSpec PropQuat PropXf.
Import ListNotations.
Open Scope R_scope.

Theorem clip_is_transform : forall (m : mx R) (x y z : R), square 4 m ->
  transform_vector_4D m [x; y; z; 1] = Ok (clip m [x; y; z]).
Proof.
  intros m x y z H. rewrite (vector4_map RR) by auto. unfold linear_map, clip, hom. cbn [seq map sum nth add mul zero ROps].
  f_equal. repeat (apply f_equal2; [ring|]). auto.
Qed.

Ltac bes := rewrite ?coef_be; repeat (rewrite be_setg; cbn [Nat.eqb andb]).
Lemma be_id (m : mx R) a b : be (mx_identity m) a b = if Nat.eqb a b then 1 else 0.
Proof. unfold be, mx_identity. cbn. destruct (mbasis m); [|rewrite Nat.eqb_sym]; reflexivity. Qed.

Lemma ortho_run (m : mx R) l r b t n f h z : holds_linear 4 m -> exists m', matrix_orthographic m l r b t n f h z = Ok m' /\ frame 4 m m' /\
  forall x y c, clip m' [x; y; c] =
    [(2 * x - (r + l)) * (1 / (r - l)); (2 * y - (t + b)) * (1 / (t - b));
     (match z with z_clip_neg_one => 2 * ahead h c - (f + n) | z_clip_zero => ahead h c - n end) * (1 / (f - n)); 1].
Proof.
  intros H. unfold matrix_orthographic. rewrite min_okg by apply H. cbn [bind]. eexists. split; [reflexivity|]. split.
  - destruct z; repeat apply frame_set; try lia; apply frame_identity.
  - intros x y c. unfold clip, hom. cbn [nth].
    destruct z, h; repeat (bes; rewrite ?be_id; cbn [Nat.eqb]); unfold two; cbn [add sub mul div neg one zero ROps hand_sign ahead];
    unfold Rdiv; repeat (apply f_equal2; [ring|]); auto.
Qed.
Lemma persp_run (m : mx R) l r b t n f h z : holds_linear 4 m -> exists m', matrix_perspective m l r b t n f h z = Ok m' /\ frame 4 m m' /\
  forall x y c, clip m' [x; y; c] =
    [(2 * n * x - (r + l) * ahead h c) * (1 / (r - l)); (2 * n * y - (t + b) * ahead h c) * (1 / (t - b));
     (match z with z_clip_neg_one => (f + n) * ahead h c - 2 * f * n | z_clip_zero => f * (ahead h c - n) end) * (1 / (f - n)); ahead h c].
Proof.
  intros H. unfold matrix_perspective. rewrite min_okg by apply H. cbn [bind]. eexists. split; [reflexivity|]. split.
  - destruct z; repeat apply frame_set; try lia; apply frame_identity.
  - intros x y c. unfold clip, hom. cbn [nth].
    destruct z, h; repeat (bes; rewrite ?be_id; cbn [Nat.eqb]); unfold two; cbn [add sub mul div neg one zero ROps hand_sign ahead];
    unfold Rdiv; repeat (apply f_equal2; [ring|]); auto.
Qed.
Lemma point_clip (m : mx R) p : holds_affine 3 m -> length p = 3%nat -> transform_point m p = Ok (firstn 3 (clip m p)).
Proof.
  intros H L. rewrite (point3_map RR) by auto. destruct (len3 p L) as (x & y & z & ->).
  unfold affine_map, clip, hom. cbn [seq map sum nth add mul zero ROps firstn]. f_equal. repeat (apply f_equal2; [ring|]). auto.
Qed.
Lemma point4_clip (m : mx R) p c0 c1 c2 w : square 4 m -> length p = 3%nat -> clip m p = [c0; c1; c2; w] ->
  transform_point_4D m p = Ok [c0 / w; c1 / w; c2 / w].
Proof. intros H L E. rewrite point4_map by auto. unfold clip in E.
  assert (E0 : hom m p 0 = c0) by congruence. assert (E1 : hom m p 1 = c1) by congruence. assert (E2 : hom m p 2 = c2) by congruence.
  assert (E3 : hom m p 3 = w) by congruence. rewrite E0, E1, E2, E3. reflexivity. Qed.
Lemma frame4_shape (m m' : mx R) : frame 4 m m' -> same_shape m m'.
Proof. intros (A & B & C & _). repeat split; auto. Qed.
Lemma linear4_affine (m : mx R) : holds_linear 4 m -> holds_affine 3 m.
Proof. intros [A B]. unfold holds_affine. destruct (mbasis m); lia. Qed.
Lemma square_linear (m : mx R) : square 4 m -> holds_linear 4 m. Proof. intros [A B]. split; lia. Qed.

(** ** Orthographic *)
(** every point: u, v, w are its positions between the planes *)
Theorem orthographic_maps : forall (m : mx R) l r b t n f h z, holds_linear 4 m -> l <> r -> b <> t -> n <> f ->
  exists m', matrix_orthographic m l r b t n f h z = Ok m' /\ frame 4 m m' /\
    (forall u v w, transform_point m' (box_point l r b t n f h u v w) = Ok [2 * u - 1; 2 * v - 1; between (clip_near z) 1 w]) /\
    (forall p, length p = 3%nat -> nth 3 (clip m' p) 0 = 1).
Proof.
  intros m l r b t n f h z H A B C. destruct (ortho_run m l r b t n f h z H) as (m' & E & F & K).
  exists m'. split; auto. split; auto. split.
  - intros u v w. rewrite point_clip; [|apply linear4_affine, (shape_linear 4 m); auto; apply frame4_shape; auto|reflexivity].
    unfold box_point. rewrite K. cbn [firstn]. f_equal.
    replace (ahead h (ahead h (between n f w))) with (between n f w) by (destruct h; cbn; ring).
    unfold between, clip_near. repeat (apply f_equal2; [destruct z; field; lra|]). auto.
  - intros p L. destruct (len3 p L) as (x & y & c & ->). rewrite K. reflexivity.
Qed.
Lemma scale_between x lo hi : lo < hi -> -1 <= (2 * x - (hi + lo)) * (1 / (hi - lo)) <= 1 <-> lo <= x <= hi.
Proof.
  intros L. set (k := 1 / (hi - lo)). assert (K : k * (hi - lo) = 1) by (unfold k; field; lra).
  assert (P : 0 < k) by (unfold k; apply Rdiv_lt_0_compat; lra). split; intros [A B]; split; nra.
Qed.
Lemma scale_from x lo hi : lo < hi -> 0 <= (x - lo) * (1 / (hi - lo)) <= 1 <-> lo <= x <= hi.
Proof.
  intros L. set (k := 1 / (hi - lo)). assert (K : k * (hi - lo) = 1) by (unfold k; field; lra).
  assert (P : 0 < k) by (unfold k; apply Rdiv_lt_0_compat; lra). split; intros [A B]; split; nra.
Qed.
Theorem orthographic_clips : forall (m : mx R) l r b t n f h z, holds_linear 4 m -> l < r -> b < t -> n < f ->
  exists m', matrix_orthographic m l r b t n f h z = Ok m' /\
    forall p, length p = 3%nat -> (in_clip z (clip m' p) <-> in_box l r b t n f h p).
Proof.
  intros m l r b t n f h z H A B C. destruct (ortho_run m l r b t n f h z H) as (m' & E & F & K).
  exists m'. split; auto. intros p L. destruct (len3 p L) as (x & y & c & ->). rewrite K. unfold in_clip, in_box. cbn [nth].
  rewrite (scale_between x l r A), (scale_between y b t B).
  destruct z; cbn [clip_near]; [replace (-1 * 1) with (-1) by ring; rewrite (scale_between _ n f C)|replace (0 * 1) with 0 by ring; rewrite (scale_from _ n f C)]; tauto.
Qed.
(** ** Perspective *)
Theorem perspective_maps : forall (m : mx R) l r b t n f h z, holds_linear 4 m -> l <> r -> b <> t -> n <> f -> n <> 0 ->
  exists m', matrix_perspective m l r b t n f h z = Ok m' /\ frame 4 m m' /\
    forall u v d, d <> 0 ->
      clip m' (ray_point l r b t n h u v d) = [d * (2 * u - 1); d * (2 * v - 1); d * depth z n f d; d] /\
      (square 4 m -> transform_point_4D m' (ray_point l r b t n h u v d) = Ok [2 * u - 1; 2 * v - 1; depth z n f d]).
Proof.
  intros m l r b t n f h z H A B C N. destruct (persp_run m l r b t n f h z H) as (m' & E & F & K).
  exists m'. split; auto. split; auto. intros u v d D.
  assert (Q : clip m' (ray_point l r b t n h u v d) = [d * (2 * u - 1); d * (2 * v - 1); d * depth z n f d; d]).
  { unfold ray_point. rewrite K.
    replace (ahead h (ahead h d)) with d by (destruct h; cbn; ring).
    unfold depth, between, clip_near. repeat (apply f_equal2; [try (destruct z; field; repeat split; lra)|]); auto. }
  split; auto. intros S. assert (S' : square 4 m') by (destruct F as (F1 & F2 & _); destruct S; split; congruence).
  rewrite (point4_clip m' (ray_point l r b t n h u v d) _ _ _ _ S' eq_refl Q).
  f_equal. repeat (apply f_equal2; [field; auto|]). auto.
Qed.
(** near plane to the near end of the depth range, far plane to 1, increasing in between *)
Theorem perspective_depth : forall z n f, 0 < n -> n < f ->
  depth z n f n = clip_near z /\ depth z n f f = 1 /\
  forall d e, 0 < d -> d < e -> depth z n f d < depth z n f e.
Proof.
  intros z n f N F. unfold depth, between. split; [|split].
  - field. split; lra.
  - field. split; lra.
  - intros d e D L. apply Rplus_lt_compat_l, Rmult_lt_compat_r; [destruct z; cbn; lra|].
    apply Rmult_lt_reg_r with (d * (f - n)); [nra|]. replace (f * (d - n) / (d * (f - n)) * (d * (f - n))) with (f * (d - n)) by (field; split; lra).
    apply Rmult_lt_reg_r with e; [lra|]. replace (f * (e - n) / (e * (f - n)) * (d * (f - n)) * e) with (f * (e - n) * d) by (field; split; lra).
    assert (0 < f * n * (e - d)) by (repeat apply Rmult_lt_0_compat; lra). nra.
Qed.
Lemma side_between x lo hi n d : lo < hi -> 0 < n ->
  - d <= (2 * n * x - (hi + lo) * d) * (1 / (hi - lo)) <= d <-> lo * (d / n) <= x <= hi * (d / n).
Proof.
  intros L N. set (k := 1 / (hi - lo)). assert (K : k * (hi - lo) = 1) by (unfold k; field; lra).
  assert (P : 0 < k) by (unfold k; apply Rdiv_lt_0_compat; lra).
  set (e := d / n). assert (D : d = n * e) by (unfold e; field; lra). rewrite D.
  assert (A : forall q, 0 <= q <-> 0 <= n * (2 * k) * q).
  { intros q. assert (0 < n * (2 * k)) by (apply Rmult_lt_0_compat; lra). split; intros; [apply Rmult_le_pos; lra|].
    apply Rmult_le_reg_l with (n * (2 * k)); auto. lra. }
  assert (A1 := A (x - lo * e)). assert (A2 := A (hi * e - x)).
  assert (I1 : n * (2 * k) * (x - lo * e) = (2 * n * x - (hi + lo) * (n * e)) * k + n * e) by
    (replace (n * e) with (n * e * (k * (hi - lo))) at 2 by (rewrite K; ring); ring).
  assert (I2 : n * (2 * k) * (hi * e - x) = n * e - (2 * n * x - (hi + lo) * (n * e)) * k) by
    (replace (n * e - (2 * n * x - (hi + lo) * (n * e)) * k) with (n * e * (k * (hi - lo)) - (2 * n * x - (hi + lo) * (n * e)) * k) by (rewrite K; ring); ring).
  rewrite I1 in A1. rewrite I2 in A2. split; intros [X Y]; split; lra.
Qed.
Lemma depth_between z n f d : 0 < n -> n < f ->
  clip_near z * d <= (match z with z_clip_neg_one => (f + n) * d - 2 * f * n | z_clip_zero => f * (d - n) end) * (1 / (f - n)) <= d <-> n <= d <= f.
Proof.
  intros N F. set (k := 1 / (f - n)). assert (K : k * (f - n) = 1) by (unfold k; field; lra).
  assert (P : 0 < k) by (unfold k; apply Rdiv_lt_0_compat; lra).
  assert (A : forall c q, 0 < c -> 0 <= q <-> 0 <= c * k * q).
  { intros c q C. assert (0 < c * k) by (apply Rmult_lt_0_compat; lra). split; intros; [apply Rmult_le_pos; lra|].
    apply Rmult_le_reg_l with (c * k); auto. lra. }
  destruct z; cbn [clip_near].
  - assert (A1 := A (2 * f) (d - n) ltac:(lra)). assert (A2 := A (2 * n) (f - d) ltac:(lra)).
    assert (I1 : 2 * f * k * (d - n) = ((f + n) * d - 2 * f * n) * k + d) by (replace d with (d * (k * (f - n))) at 3 by (rewrite K; ring); ring).
    assert (I2 : 2 * n * k * (f - d) = d - ((f + n) * d - 2 * f * n) * k) by
      (replace (d - ((f + n) * d - 2 * f * n) * k) with (d * (k * (f - n)) - ((f + n) * d - 2 * f * n) * k) by (rewrite K; ring); ring).
    rewrite I1 in A1. rewrite I2 in A2. split; intros [X Y]; split; lra.
  - assert (A1 := A f (d - n) ltac:(lra)). assert (A2 := A n (f - d) ltac:(lra)).
    assert (I1 : f * k * (d - n) = f * (d - n) * k) by ring.
    assert (I2 : n * k * (f - d) = d - f * (d - n) * k) by
      (replace (d - f * (d - n) * k) with (d * (k * (f - n)) - f * (d - n) * k) by (rewrite K; ring); ring).
    rewrite I1 in A1. rewrite I2 in A2. split; intros [X Y]; split; lra.
Qed.
Theorem perspective_clips : forall (m : mx R) l r b t n f h z, holds_linear 4 m -> l < r -> b < t -> 0 < n -> n < f ->
  exists m', matrix_perspective m l r b t n f h z = Ok m' /\
    forall p, length p = 3%nat -> (in_clip z (clip m' p) <-> in_pyramid l r b t n f h p).
Proof.
  intros m l r b t n f h z H A B N C. destruct (persp_run m l r b t n f h z H) as (m' & E & F & K).
  exists m'. split; auto. intros p L. destruct (len3 p L) as (x & y & c & ->). rewrite K. unfold in_clip, in_pyramid. cbn [nth].
  rewrite (side_between x l r n (ahead h c) A N), (side_between y b t n (ahead h c) B N), (depth_between z n f (ahead h c) N C). tauto.
Qed.
(** ** Width/height and field-of-view forms *)
Lemma slopes_pyramid w ht n f h p : 0 < n -> n < f ->
  in_pyramid (- (w / 2)) (w / 2) (- (ht / 2)) (ht / 2) n f h p <-> in_slopes (w / 2 / n) (ht / 2 / n) n f h p.
Proof.
  intros N F. unfold in_pyramid, in_slopes. set (d := ahead h (nth 2 p 0)). 
  assert (S : forall a x, - (a / 2) * (d / n) <= x <= a / 2 * (d / n) <-> Rabs x <= a / 2 / n * d).
  { intros a x. replace (- (a / 2) * (d / n)) with (- (a / 2 / n * d)) by (field; lra). replace (a / 2 * (d / n)) with (a / 2 / n * d) by (field; lra).
    split; [intros; apply Rabs_le; lra|]. intros Q. unfold Rabs in Q. destruct (Rcase_abs x); lra. }
  rewrite !S. tauto.
Qed.
Theorem orthographic_size_clips : forall (m : mx R) w ht n f h z, holds_linear 4 m -> 0 < w -> 0 < ht -> n < f ->
  exists m', matrix_orthographic_wh m w ht n f h z = Ok m' /\
    forall p, length p = 3%nat -> (in_clip z (clip m' p) <-> 
      Rabs (nth 0 p 0) <= w / 2 /\ Rabs (nth 1 p 0) <= ht / 2 /\ n <= ahead h (nth 2 p 0) <= f).
Proof.
  intros m w ht n f h z H A B C.
  destruct (orthographic_clips m (- (w / 2)) (w / 2) (- (ht / 2)) (ht / 2) n f h z H) as (m' & E & K); try lra.
  exists m'. split; [exact E|]. intros p L. rewrite K by auto. unfold in_box.
  assert (S : forall a x, - a <= x <= a <-> Rabs x <= a).
  { intros a x. split; [intros; apply Rabs_le; lra|]. intros Q. unfold Rabs in Q. destruct (Rcase_abs x); lra. }
  rewrite !S. tauto.
Qed.
Theorem perspective_size_clips : forall (m : mx R) w ht n f h z, holds_linear 4 m -> 0 < w -> 0 < ht -> 0 < n -> n < f ->
  exists m', matrix_perspective_wh m w ht n f h z = Ok m' /\
    forall p, length p = 3%nat -> (in_clip z (clip m' p) <-> in_slopes (w / 2 / n) (ht / 2 / n) n f h p).
Proof.
  intros m w ht n f h z H A B N C.
  destruct (perspective_clips m (- (w / 2)) (w / 2) (- (ht / 2)) (ht / 2) n f h z H) as (m' & E & K); try lra.
  exists m'. split; [exact E|]. intros p L. rewrite K by auto. apply slopes_pyramid; auto.
Qed.
Lemma tan_half fov : 0 < fov < PI -> 0 < tan (fov / 2).
Proof. intros H. apply tan_gt_0; lra. Qed.
Theorem perspective_xfov_clips : forall (m : mx R) xfov aspect n f h z, holds_linear 4 m -> 0 < xfov < PI -> 0 < aspect -> 0 < n -> n < f ->
  exists m', matrix_perspective_xfov m xfov aspect n f h z = Ok m' /\
    forall p, length p = 3%nat -> (in_clip z (clip m' p) <-> in_slopes (tan (xfov / 2)) (tan (xfov / 2) / aspect) n f h p).
Proof.
  intros m xfov aspect n f h z H A B N C. assert (T := tan_half xfov A).
  destruct (perspective_size_clips m (2 * n * tan (xfov / 2)) (2 * n * tan (xfov / 2) / aspect) n f h z H) as (m' & E & K); auto.
  { apply Rmult_lt_0_compat; [lra|exact T]. } { apply Rdiv_lt_0_compat; auto. apply Rmult_lt_0_compat; [lra|exact T]. }
  exists m'. split; [exact E|]. intros p L. rewrite K by auto.
  replace (2 * n * tan (xfov / 2) / 2 / n) with (tan (xfov / 2)) by (field; lra).
  replace (2 * n * tan (xfov / 2) / aspect / 2 / n) with (tan (xfov / 2) / aspect) by (field; lra). tauto.
Qed.
Theorem perspective_yfov_clips : forall (m : mx R) yfov aspect n f h z, holds_linear 4 m -> 0 < yfov < PI -> 0 < aspect -> 0 < n -> n < f ->
  exists m', matrix_perspective_yfov m yfov aspect n f h z = Ok m' /\
    forall p, length p = 3%nat -> (in_clip z (clip m' p) <-> in_slopes (tan (yfov / 2) * aspect) (tan (yfov / 2)) n f h p).
Proof.
  intros m yfov aspect n f h z H A B N C. assert (T := tan_half yfov A).
  destruct (perspective_size_clips m (2 * n * tan (yfov / 2) * aspect) (2 * n * tan (yfov / 2)) n f h z H) as (m' & E & K); auto.
  { apply Rmult_lt_0_compat; auto. apply Rmult_lt_0_compat; [lra|exact T]. } { apply Rmult_lt_0_compat; [lra|exact T]. }
  exists m'. split; [exact E|]. intros p L. rewrite K by auto.
  replace (2 * n * tan (yfov / 2) / 2 / n) with (tan (yfov / 2)) by (field; lra).
  replace (2 * n * tan (yfov / 2) * aspect / 2 / n) with (tan (yfov / 2) * aspect) by (field; lra). tauto.
Qed.
(** the _LH and _RH forms look along +z and -z *)
Theorem projection_hands : forall (m : mx R) l r b t n f z,
  matrix_orthographic_LH m l r b t n f z = matrix_orthographic m l r b t n f left_handed z /\
  matrix_orthographic_RH m l r b t n f z = matrix_orthographic m l r b t n f right_handed z /\
  matrix_orthographic_wh_LH m l r n f z = matrix_orthographic_wh m l r n f left_handed z /\
  matrix_orthographic_wh_RH m l r n f z = matrix_orthographic_wh m l r n f right_handed z /\
  matrix_perspective_LH m l r b t n f z = matrix_perspective m l r b t n f left_handed z /\
  matrix_perspective_RH m l r b t n f z = matrix_perspective m l r b t n f right_handed z /\
  matrix_perspective_wh_LH m l r n f z = matrix_perspective_wh m l r n f left_handed z /\
  matrix_perspective_wh_RH m l r n f z = matrix_perspective_wh m l r n f right_handed z /\
  matrix_perspective_xfov_LH m l r n f z = matrix_perspective_xfov m l r n f left_handed z /\
  matrix_perspective_xfov_RH m l r n f z = matrix_perspective_xfov m l r n f right_handed z /\
  matrix_perspective_yfov_LH m l r n f z = matrix_perspective_yfov m l r n f left_handed z /\
  matrix_perspective_yfov_RH m l r n f z = matrix_perspective_yfov m l r n f right_handed z.
Proof. repeat split. Qed.
Theorem projection_sizes : forall (T : Type) (Op : Ops T) (MO : MathOps T) (m : mx T) l r b t n f h z normalize, ~ holds_linear 4 m ->
  matrix_orthographic m l r b t n f h z = Throw EMinimumMatrixSize /\ matrix_orthographic_wh m l r n f h z = Throw EMinimumMatrixSize /\
  matrix_perspective m l r b t n f h z = Throw EMinimumMatrixSize /\ matrix_perspective_wh m l r n f h z = Throw EMinimumMatrixSize /\
  matrix_perspective_xfov m l r n f h z = Throw EMinimumMatrixSize /\ matrix_perspective_yfov m l r n f h z = Throw EMinimumMatrixSize /\
  extract_frustum_planes m z normalize = Throw EMinimumMatrixSize /\ extract_near_frustum_plane m z = Throw EMinimumMatrixSize.
Proof.
  intros T Op MO m l r b t n f h z normalize H. assert (C := linear_bad 4 m H).
  unfold matrix_orthographic_wh, matrix_perspective_xfov, matrix_perspective_yfov, matrix_perspective_wh, matrix_orthographic, matrix_perspective,
    extract_frustum_planes, extract_near_frustum_plane. rewrite C. repeat split.
Qed.
(** ** C39: frustum planes, in the order left, right, bottom, top, near, far *)
Definition clip_slacks (z : zclip) (c : list R) : list R :=
  let x := nth 0 c 0 in let y := nth 1 c 0 in let d := nth 2 c 0 in let w := nth 3 c 0 in
  [w + x; w - x; w + y; w - y; d - clip_near z * w; w - d].
Lemma slacks_in z c : Forall (fun s => 0 <= s) (clip_slacks z c) <-> in_clip z c.
Proof.
  unfold clip_slacks, in_clip. cbv zeta. set (x := nth 0 c 0). set (y := nth 1 c 0). set (d := nth 2 c 0). set (w := nth 3 c 0).
  rewrite !Forall_cons_iff. split.
  - intros (A & B & C & D & E & F & _). repeat split; lra.
  - intros ((A & B) & (C & D) & E & F). repeat split; lra || constructor.
Qed.
Lemma planes_run (m : mx R) z : holds_linear 4 m -> exists planes, extract_frustum_planes m z false = Ok planes /\ length planes = 6%nat /\
  (forall p, map (fun q => plane_at q p) planes = clip_slacks z (clip m p)) /\ Forall (fun q => length q = 4%nat) planes /\
  extract_frustum_planes m z true = Ok (map normalize_plane planes).
Proof.
  intros H. unfold extract_frustum_planes, extract_near_frustum_plane. rewrite min_okg by apply H. cbn [bind].
  eexists. split; [reflexivity|]. split; [reflexivity|]. split; [|split; [|reflexivity]].
  - intros p. unfold clip_slacks, clip, hom. cbn [map nth]. rewrite !coef_be. unfold plane_at.
    destruct z; cbn [nth add sub mul zero ROps clip_near]; repeat (apply f_equal2; [ring|]); auto.
  - destruct z; repeat constructor.
Qed.
Lemma Forall_map {A B} (f : A -> B) (P : B -> Prop) l : Forall P (map f l) <-> Forall (fun x => P (f x)) l.
Proof. rewrite !Forall_forall. split; intros H x I; [apply H, in_map; auto|]. apply in_map_iff in I. destruct I as (y & <- & I). auto. Qed.
Theorem frustum_planes_bound_clip : forall (m : mx R) z, holds_linear 4 m ->
  exists planes, extract_frustum_planes m z false = Ok planes /\ length planes = 6%nat /\
    (forall p, map (fun q => plane_at q p) planes = clip_slacks z (clip m p)) /\
    forall p, inside_all planes p <-> in_clip z (clip m p).
Proof.
  intros m z H. destruct (planes_run m z H) as (planes & E & L & K & _). exists planes. split; auto. split; auto. split; auto.
  intros p. rewrite <- slacks_in, <- K, Forall_map. reflexivity.
Qed.
Theorem near_plane : forall (m : mx R) z, holds_linear 4 m ->
  exists planes, extract_frustum_planes m z false = Ok planes /\ extract_near_frustum_plane m z = Ok (nth 4 planes []).
Proof.
  intros m z H. unfold extract_frustum_planes, extract_near_frustum_plane. rewrite min_okg by apply H. cbn [bind].
  eexists. split; reflexivity.
Qed.
Lemma normalize_plane_scaled (q : list R) : length q = 4%nat -> has_normal q ->
  exists s, 0 < s /\ normalize_plane q = scaled s q /\ unit_normal (normalize_plane q).
Proof.
  intros L N. destruct q as [|a [|b [|c [|d [|]]]]]; try discriminate L. unfold has_normal in N. cbn [nth] in N.
  unfold normalize_plane, length3, length_squared3. cbn [el nth add mul div msqrt ROps RMath]. set (k := sqrt (a * a + b * b + c * c)).
  assert (K : 0 < k) by (apply sqrt_lt_R0; auto). assert (K2 : k * k = a * a + b * b + c * c) by (apply sqrt_sqrt; lra).
  exists (/ k). split; [apply Rinv_0_lt_compat; auto|]. split.
  - unfold scaled. cbn [map mul ROps]. unfold Rdiv. repeat (apply f_equal2; [ring|]). auto.
  - unfold unit_normal. cbn [nth]. replace (a / k * (a / k) + b / k * (b / k) + c / k * (c / k)) with ((a * a + b * b + c * c) / (k * k)) by (field; lra).
    rewrite <- K2. field. lra.
Qed.
Lemma plane_at_scaled s q p : plane_at (scaled s q) p = s * plane_at q p.
Proof.
  unfold plane_at. assert (E : forall i, nth i (scaled s q) 0 = s * nth i q 0).
  { intros i. unfold scaled. replace 0 with (mul s 0) at 1 by (cbn; ring). rewrite map_nth. reflexivity. }
  rewrite !E. ring.
Qed.
(** normalised planes: unit normals, positive multiples, the same half spaces *)
Theorem normalized_planes : forall (m : mx R) z planes, holds_linear 4 m -> extract_frustum_planes m z false = Ok planes ->
  Forall has_normal planes ->
  exists planes', extract_frustum_planes m z true = Ok planes' /\
    Forall unit_normal planes' /\ Forall2 (fun q q' => exists s, 0 < s /\ q' = scaled s q) planes planes' /\
    forall p, inside_all planes' p <-> inside_all planes p.
Proof.
  intros m z planes H E N. destruct (planes_run m z H) as (pl & E' & _ & _ & L4 & E2). rewrite E in E'. injection E' as <-.
  exists (map normalize_plane planes). split; auto. clear E E2 H.
  induction planes as [|q l IH]; [repeat split; constructor|].
  inversion N as [|? ? N1 N2]; subst. inversion L4 as [|? ? L1 L2]; subst. destruct (IH N2 L2) as (A & B & C).
  destruct (normalize_plane_scaled q L1 N1) as (s & S & Es & U). cbn [map]. split; [constructor; auto|]. split; [constructor; eauto|].
  intros p. unfold inside_all in *. rewrite !Forall_cons_iff, C, Es, plane_at_scaled. split; intros [X Y]; split; auto; [|apply Rmult_le_pos; lra].
  apply Rmult_le_reg_l with s; lra.
Qed.
(** with a modelview transformation first *)
Theorem frustum_planes_modelview : forall (mv pr : mx R) z normalize, square 4 mv -> square 4 pr -> mbasis mv = mbasis pr -> affine_form 3 mv ->
  exists c, extract_frustum_planes_mp mv pr z normalize = extract_frustum_planes c z normalize /\ square 4 c /\
    forall p q, length p = 3%nat -> transform_point mv p = Ok q -> clip c p = clip pr q.
Proof.
  intros mv pr z normalize S1 S2 B A. destruct (concat_coef RR 4 mv pr) as (c & E & Sc & Bc & Hc); auto.
  exists c. unfold extract_frustum_planes_mp. rewrite E. split; auto. split; auto.
  intros p q L Q. rewrite (point3_map RR) in Q by (auto; apply linear4_affine, square_linear; auto). injection Q as <-.
  destruct (len3 p L) as (x & y & t & ->). unfold clip, hom, affine_map. cbn [seq map nth sum]. rewrite !Hc. cbn [sum add mul zero ROps].
  destruct S1 as [R1 C1]. rewrite !(A 3%nat) by lia. unfold kron. cbn [Nat.eqb one zero ROps]. repeat (apply f_equal2; [ring|]). auto.
Qed.
Theorem frustum_planes_modelview_sizes : forall (mv pr : mx R) z normalize, mbasis mv = mbasis pr ->
  (mrows mv <> mcols mv \/ mrows pr <> mcols pr -> extract_frustum_planes_mp mv pr z normalize = Throw ENonSquareMatrix) /\
  (forall k, square k mv -> square k pr -> (k < 4)%nat -> extract_frustum_planes_mp mv pr z normalize = Throw EMinimumMatrixSize).
Proof.
  intros mv pr z normalize B. unfold extract_frustum_planes_mp. split.
  - intros H. destruct (concat_sizes R ROps mv pr B) as [A _]. rewrite A by auto. reflexivity.
  - intros k [R1 C1] [R2 C2] L. unfold matrix_concat, check_mx_square, mx_mul. rewrite R1, C1, R2, C2, !Nat.eqb_refl. cbn [require bind].
    destruct (mbasis mv); rewrite ?C1, ?C2, ?R1, ?R2, ?Nat.eqb_refl; cbn [require bind];
    unfold extract_frustum_planes, extract_near_frustum_plane, check_minimum_size; cbn [mrows mcols];
    rewrite ?C1, ?C2, ?R1, ?R2; replace (Nat.leb 4 k) with false by (symmetry; apply Nat.leb_gt; auto); reflexivity.
Qed.
(** ** Together: the planes of a projection bound its view volume *)
Lemma normal_of q : plane_at q [1; 0; 0] - plane_at q [0; 0; 0] <> 0 \/ plane_at q [0; 1; 0] - plane_at q [0; 0; 0] <> 0 \/
  plane_at q [0; 0; 1] - plane_at q [0; 0; 0] <> 0 -> has_normal q.
Proof.
  unfold plane_at, has_normal. cbn [nth]. set (a := nth 0 q 0). set (b := nth 1 q 0). set (c := nth 2 q 0). set (d := nth 3 q 0). intros H.
  assert (A : a <> 0 \/ b <> 0 \/ c <> 0) by (destruct H as [H|[H|H]]; [left|right; left|right; right]; intros E; apply H; rewrite E; ring).
  assert (P : forall x, 0 <= x * x) by (intros; nra). assert (Q : forall x, x <> 0 -> 0 < x * x) by (intros x X; nra).
  destruct A as [A|[A|A]]; apply Q in A; assert (Pa := P a); assert (Pb := P b); assert (Pc := P c); lra.
Qed.
Lemma normals_by_slack planes (S : list R -> list R) : (forall p, map (fun q => plane_at q p) planes = S p) ->
  (forall i, (i < length planes)%nat -> nth i (S [1; 0; 0]) 0 - nth i (S [0; 0; 0]) 0 <> 0 \/ nth i (S [0; 1; 0]) 0 - nth i (S [0; 0; 0]) 0 <> 0 \/
     nth i (S [0; 0; 1]) 0 - nth i (S [0; 0; 0]) 0 <> 0) -> Forall has_normal planes.
Proof.
  intros K H. apply Forall_forall. intros q I. apply (In_nth _ _ []) in I. destruct I as (i & Li & <-). apply normal_of.
  specialize (H i Li). rewrite <- !K in H.
  assert (E : forall p, nth i (map (fun q => plane_at q p) planes) 0 = plane_at (nth i planes []) p).
  { intros p. rewrite (nth_indep _ 0 (plane_at [] p)) by (rewrite map_length; auto). apply (map_nth (fun q => plane_at q p)). }
  rewrite !E in H. exact H.
Qed.
Lemma ahead_1 h : ahead h 1 = 1 \/ ahead h 1 = -1. Proof. destruct h; cbn; auto. Qed.
Lemma ahead_0 h : ahead h 0 = 0. Proof. destruct h; cbn; ring. Qed.
Theorem perspective_frustum : forall (m : mx R) l r b t n f h z normalize, holds_linear 4 m -> l < r -> b < t -> 0 < n -> n < f ->
  exists m' planes, matrix_perspective m l r b t n f h z = Ok m' /\ extract_frustum_planes m' z normalize = Ok planes /\
    length planes = 6%nat /\ (normalize = true -> Forall unit_normal planes) /\
    forall p, length p = 3%nat -> (inside_all planes p <-> in_pyramid l r b t n f h p).
Proof.
  intros m l r b t n f h z normalize H A B N C.
  destruct (persp_run m l r b t n f h z H) as (m' & E & F & K). destruct (perspective_clips m l r b t n f h z H A B N C) as (m'' & E' & Q).
  rewrite E in E'. injection E' as <-.
  assert (H' : holds_linear 4 m') by (apply (shape_linear 4 m); auto; apply frame4_shape; auto).
  destruct (frustum_planes_bound_clip m' z H') as (planes & P & L & Sl & I).
  assert (N6 : Forall has_normal planes).
  { assert (k1 : 1 / (r - l) <> 0) by (apply Rgt_not_eq, Rdiv_lt_0_compat; lra). assert (k2 : 1 / (t - b) <> 0) by (apply Rgt_not_eq, Rdiv_lt_0_compat; lra).
    assert (k3 : 1 / (f - n) * (f - n) = 1) by (field; lra). assert (k4 : 0 < 1 / (f - n)) by (apply Rdiv_lt_0_compat; lra).
    assert (X1 : 2 * n * (1 / (r - l)) <> 0) by (apply Rmult_integral_contrapositive_currified; lra).
    assert (X2 : 2 * n * (1 / (t - b)) <> 0) by (apply Rmult_integral_contrapositive_currified; lra).
    apply (normals_by_slack planes _ Sl). rewrite L. intros i Hi. rewrite !K, ahead_0. unfold clip_slacks. cbn [nth]. cbv zeta.
    destruct i as [|[|[|[|[|[|i]]]]]]; cbn [nth]; [left|left|right; left|right; left|right; right|right; right|lia].
    - intros Z. apply X1. lra.
    - intros Z. apply X1. lra.
    - intros Z. apply X2. lra.
    - intros Z. apply X2. lra.
    - set (k := 1 / (f - n)) in *. destruct z, (ahead_1 h) as [-> | ->]; cbn [clip_near]; nra.
    - set (k := 1 / (f - n)) in *. destruct z, (ahead_1 h) as [-> | ->]; nra. }
  destruct normalize.
  - destruct (normalized_planes m' z planes H' P N6) as (pl & P' & U & F2 & I'). exists m', pl. split; auto. split; auto.
    split; [rewrite <- L; symmetry; clear - F2; induction F2; cbn; auto|]. split; auto. intros p Lp. rewrite I', I. apply Q; auto.
  - exists m', planes. split; auto. split; auto. split; auto. split; [discriminate|]. intros p Lp. rewrite I. apply Q; auto.
Qed.
Theorem orthographic_frustum : forall (m : mx R) l r b t n f h z normalize, holds_linear 4 m -> l < r -> b < t -> n < f ->
  exists m' planes, matrix_orthographic m l r b t n f h z = Ok m' /\ extract_frustum_planes m' z normalize = Ok planes /\
    length planes = 6%nat /\ (normalize = true -> Forall unit_normal planes) /\
    forall p, length p = 3%nat -> (inside_all planes p <-> in_box l r b t n f h p).
Proof.
  intros m l r b t n f h z normalize H A B C.
  destruct (ortho_run m l r b t n f h z H) as (m' & E & F & K). destruct (orthographic_clips m l r b t n f h z H A B C) as (m'' & E' & Q).
  rewrite E in E'. injection E' as <-.
  assert (H' : holds_linear 4 m') by (apply (shape_linear 4 m); auto; apply frame4_shape; auto).
  destruct (frustum_planes_bound_clip m' z H') as (planes & P & L & Sl & I).
  assert (N6 : Forall has_normal planes).
  { assert (k1 : 0 < 1 / (r - l)) by (apply Rdiv_lt_0_compat; lra). assert (k2 : 0 < 1 / (t - b)) by (apply Rdiv_lt_0_compat; lra).
    assert (k3 : 0 < 1 / (f - n)) by (apply Rdiv_lt_0_compat; lra).
    apply (normals_by_slack planes _ Sl). rewrite L. intros i Hi. rewrite !K, ahead_0. unfold clip_slacks. cbn [nth]. cbv zeta.
    set (k1' := 1 / (r - l)) in *. set (k2' := 1 / (t - b)) in *. set (k3' := 1 / (f - n)) in *.
    destruct i as [|[|[|[|[|[|i]]]]]]; cbn [nth]; [left|left|right; left|right; left|right; right|right; right|lia]; try lra.
    all: destruct z, (ahead_1 h) as [-> | ->]; lra. }
  destruct normalize.
  - destruct (normalized_planes m' z planes H' P N6) as (pl & P' & U & F2 & I'). exists m', pl. split; auto. split; auto.
    split; [rewrite <- L; symmetry; clear - F2; induction F2; cbn; auto|]. split; auto. intros p Lp. rewrite I', I. apply Q; auto.
  - exists m', planes. split; auto. split; auto. split; auto. split; [discriminate|]. intros p Lp. rewrite I. apply Q; auto.
Qed.
(** the hypotheses can be met; points inside and outside *)
Example projection_case : holds_linear 4 (Mx 4 4 row_basis (fun _ _ => 0)) /\ in_pyramid (-1) 1 (-1) 1 1 10 right_handed [1; 1; -2] /\
  ~ in_pyramid (-1) 1 (-1) 1 1 10 left_handed [1; 1; -2] /\ ~ in_pyramid (-1) 1 (-1) 1 1 10 right_handed [3; 1; -2] /\
  in_clip z_clip_zero [1; 1; 0; 2] /\ ~ in_clip z_clip_zero [1; 1; -1; 2] /\ in_clip z_clip_neg_one [1; 1; -1; 2].
Proof. unfold holds_linear, in_pyramid, in_clip, ahead, clip_near; cbn. repeat split; try lra; try lia; intros H; lra. Qed.
Print Assumptions perspective_clips.
Print Assumptions perspective_frustum.
Print Assumptions orthographic_frustum.
Print Assumptions frustum_planes_modelview.
