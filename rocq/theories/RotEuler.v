(** Euler angles. *)
From Coq Require Import Reals List Bool Lra Lia Psatz ZArith.
From Verif Require Import Base RInst ScalarModel ScalarProofs MiscModel MiscSpec QuatModel QuatSpec QuatProofs RotModel RotSpec RotFacts RotProofs RotQuat RotAngle.
Import ListNotations.
Open Scope R_scope.

Ltac unpack := repeat match goal with |- context [unpack_euler ?a] => let e := constr:(unpack_euler a) in let f := eval vm_compute in e in change e with f end;
  cbn [ea_i ea_j ea_k ea_odd ea_repeat]; repeat match goal with |- context [Z.to_nat ?a] => let e := constr:(Z.to_nat a) in let f := eval vm_compute in e in change e with f end.
Ltac unpack_in H := repeat match type of H with context [unpack_euler ?a] => let e := constr:(unpack_euler a) in let f := eval vm_compute in e in change e with f in H end;
  cbn [ea_i ea_j ea_k ea_odd ea_repeat] in H; repeat match type of H with context [Z.to_nat ?a] => let e := constr:(Z.to_nat a) in let f := eval vm_compute in e in change e with f in H end.
Definition first_axis o := nth 0 (eo_name o) 0%Z.
Definition second_axis o := nth 1 (eo_name o) 0%Z.
Definition third_axis o := nth 2 (eo_name o) 0%Z.
Lemma axes_range o : (0 <= first_axis o <= 2 /\ 0 <= second_axis o <= 2 /\ 0 <= third_axis o <= 2)%Z.
Proof. destruct o; cbn; lia. Qed.

(** the block in its own indices *)
Definition permuted (m : mx R) (a : euler_axes) : nat -> nat -> R := fun i j => be m (perm a i) (perm a j).
Lemma nine (P : nat -> nat -> Prop) : (forall i j, (i < 3)%nat -> (j < 3)%nat -> P i j) ->
  (P 0 0 /\ P 0 1 /\ P 0 2 /\ P 1 0 /\ P 1 1 /\ P 1 2 /\ P 2 0 /\ P 2 1 /\ P 2 2)%nat.
Proof. intros H. repeat split; apply H; lia. Qed.
Lemma euler_product_b (m : mx R) m' a0 a1 a2 o :
  let a := unpack_euler (eo_value o) in
  block (Mx 3 3 row_basis (permuted m' a))
      (beul (ea_repeat a) (sin (sg a a0)) (cos (sg a a0)) (sin (sg a a1)) (cos (sg a a1)) (sin (sg a a2)) (cos (sg a a2))) ->
  mbasis m' = mbasis m ->
  block m' (bprod (bprod (baxis (first_axis o) (sin a0) (cos a0)) (baxis (second_axis o) (sin a1) (cos a1))) (baxis (third_axis o) (sin a2) (cos a2))).
Proof.
  intros a B Hb. subst a. apply nine in B. unfold permuted in B. cbn [be mbasis mel] in B.
  destruct o; unpack_in B; unfold sg, perm in B; unpack_in B; unfold beul in B; cbn [b3] in B; rewrite ?sin_neg, ?cos_neg in B;
  unfold first_axis, second_axis, third_axis; cbn [nth eo_name];
  destruct B as (B0 & B1 & B2 & B3 & B4 & B5 & B6 & B7 & B8);
  intros i j Hi Hj; unfold bprod, baxis; cases3 Hi; cases3 Hj; rewrite ?B0, ?B1, ?B2, ?B3, ?B4, ?B5, ?B6, ?B7, ?B8; cbn [b3]; ring.
Qed.
Lemma actb_prod a b v : actb (bprod a b) v = actb b (actb a v).
Proof. destruct v as [x y z]. unfold actb, bprod. cbn [vx vy vz]. f_equal; ring. Qed.
(** the quaternion of three Euler angles is the product of three axis quaternions *)
Lemma quaternion_euler_b o q a0 a1 a2 e :
  parts o (quaternion_rotation_euler o q a0 a1 a2 (eo_value e)) =
  hmul (hmul (haa (cardinal (third_axis e)) a2) (haa (cardinal (second_axis e)) a1)) (haa (cardinal (first_axis e)) a0).
Proof.
  unfold quaternion_rotation_euler, parts, parts_of. cbv zeta.
  assert (H2 : @two R _ = 2) by (unfold two; cbn; ring).
  destruct e; unpack; cbn [eo_name nth first_axis second_axis third_axis cardinal]; unfold haa, hmul; cbn [vx vy vz hw hx hy hz];
  destruct o, q; cbn [oW oX oY oZ Nat.add qput qget QuatModel.q0 QuatModel.q1 QuatModel.q2 QuatModel.q3]; cbn [neg add mul sub div ROps msin mcos RMath];
  rewrite H2; rewrite ?Ropp_div, ?sin_neg, ?cos_neg; f_equal; ring.
Qed.
Lemma cardinal_unit a : unit (cardinal a).
Proof. unfold unit, dot, cardinal. destruct a as [|[p|p|]|p]; cbn [vx vy vz]; lra. Qed.
(** ** Extraction, in permuted indices *)
Lemma permuted_orth m o : orth (be m) -> orth (permuted m (unpack_euler (eo_value o))).
Proof.
  intros (A & B & C & D & E & F & G). unfold orth, permuted.
  destruct o; unpack; unfold perm; unpack; repeat split; lra.
Qed.
Definition angles_of (repeat : bool) (p : nat -> nat -> R) (tol : R) : R * R * R :=
  if repeat then
    let s1 := sqrt (p 1%nat 0%nat * p 1%nat 0%nat + p 2%nat 0%nat * p 2%nat 0%nat) in
    if Rltb tol s1 then (Ratan2 (p 1%nat 0%nat) (p 2%nat 0%nat), Ratan2 s1 (p 0%nat 0%nat), Ratan2 (p 0%nat 1%nat) (- p 0%nat 2%nat))
    else (0, Ratan2 s1 (p 0%nat 0%nat), sign (p 0%nat 0%nat) * Ratan2 (- p 2%nat 1%nat) (p 1%nat 1%nat))
  else
    let c1 := sqrt (p 0%nat 0%nat * p 0%nat 0%nat + p 0%nat 1%nat * p 0%nat 1%nat) in
    if Rltb tol c1 then (Ratan2 (p 1%nat 2%nat) (p 2%nat 2%nat), Ratan2 (- p 0%nat 2%nat) c1, Ratan2 (p 0%nat 1%nat) (p 0%nat 0%nat))
    else (0, Ratan2 (- p 0%nat 2%nat) c1, - (sign (- p 0%nat 2%nat) * Ratan2 (- p 2%nat 1%nat) (p 1%nat 1%nat))).
Lemma matrix_to_euler_b m o tol : holds3 m ->
  let a := unpack_euler (eo_value o) in
  exists a0 a1 a2, angles_of (ea_repeat a) (permuted m a) tol = (a0, a1, a2) /\
    matrix_to_euler m (eo_value o) tol = Ok (sg a a0, sg a a1, sg a a2).
Proof.
  intros H a. unfold matrix_to_euler. rewrite (holds_ok m H). cbn [bind]. subst a. unfold sg, angles_of, permuted.
  destruct o; unpack; unfold perm; unpack; unfold length2, length_squared2; cbn [add mul sub neg zero ltb ROps msqrt matan2 RMath];
  match goal with |- context [Rltb ?a ?b] => destruct (Rltb a b) end; (do 3 eexists; split; reflexivity).
Qed.
Definition reach (repeat : bool) (p : nat -> nat -> R) : R :=
  if repeat then sqrt (1 - p 0%nat 0%nat * p 0%nat 0%nat) else sqrt (1 - p 0%nat 2%nat * p 0%nat 2%nat).
Lemma gimbal_reach m o : let a := unpack_euler (eo_value o) in gimbal m o = reach (ea_repeat a) (permuted m a).
Proof.
  cbv zeta. unfold gimbal, reach, permuted. rewrite act_be. unfold dot.
  destruct o; unpack; unfold perm; unpack; cbn [nth eo_name cardinal vx vy vz]; f_equal; ring.
Qed.
Lemma sign_unit x : x * x = 1 -> sign x = x.
Proof.
  intros H. assert (D : x = 1 \/ x = -1). { assert (Z : (x - 1) * (x + 1) = 0) by lra. apply Rmult_integral in Z. destruct Z; [left|right]; lra. }
  unfold sign. cbn [ltb zero one neg ROps]. destruct D as [-> | ->].
  - rewrite (proj2 (Rltb_false 1 0)) by lra. rewrite (proj2 (Rltb_true 0 1)) by lra. auto.
  - rewrite (proj2 (Rltb_true (-1) 0)) by lra. ring.
Qed.
Lemma sin_pm x y : x * x = 1 -> sin (x * y) = x * sin y /\ cos (x * y) = cos y.
Proof.
  intros H. assert (D : x = 1 \/ x = -1). { assert (Z : (x - 1) * (x + 1) = 0) by lra. apply Rmult_integral in Z. destruct Z; [left|right]; lra. }
  destruct D as [-> | ->].
  - rewrite !Rmult_1_l. auto.
  - replace (-1 * y) with (- y) by ring. rewrite sin_neg, cos_neg. split; ring.
Qed.
(** X = Y from two equations with multipliers *)
Ltac lin2 e1 H1 e2 H2 := apply Rminus_diag_uniq;
  match type of H1 with ?l1 = ?r1 => match type of H2 with ?l2 = ?r2 => match goal with |- ?g = 0 =>
    replace g with (e1 * (l1 - r1) + e2 * (l2 - r2)) by ring; rewrite (Rminus_diag_eq _ _ H1), (Rminus_diag_eq _ _ H2); ring end end end.
Lemma angles_of_ok r p tol a0 a1 a2 : orth p -> 0 <= tol -> angles_of r p tol = (a0, a1, a2) ->
  (tol < reach r p \/ reach r p = 0) ->
  forall i j, (i < 3)%nat -> (j < 3)%nat -> beul r (sin a0) (cos a0) (sin a1) (cos a1) (sin a2) (cos a2) i j = p i j.
Proof.
  intros O T E W. assert (CO := orth_cofactors p O). assert (CL := orth_cols p O). unfold cofactors, cols in CO, CL.
  destruct O as (A & B & C & D & F & G & Dt). clear Dt.
  destruct CO as (K1 & K2 & K3 & K4 & K5 & K6 & K7 & K8 & K9), CL as (L1 & L2 & L3 & L4 & L5 & L6).
  unfold angles_of, reach in *.
  assert (Q : forall s x y, s <> 0 -> s * s * x = s * s * y -> x = y).
  { intros s x y N H. apply Rmult_eq_reg_l with (s * s); auto. }
  destruct r.
  - replace (1 - p 0%nat 0%nat * p 0%nat 0%nat) with (p 1%nat 0%nat * p 1%nat 0%nat + p 2%nat 0%nat * p 2%nat 0%nat) in W by lra.
    set (s1 := sqrt (p 1%nat 0%nat * p 1%nat 0%nat + p 2%nat 0%nat * p 2%nat 0%nat)) in *.
    assert (S0 : 0 <= s1) by apply sqrt_pos.
    assert (SS : s1 * s1 = p 1%nat 0%nat * p 1%nat 0%nat + p 2%nat 0%nat * p 2%nat 0%nat).
    { apply sqrt_sqrt. assert (X := Rle_0_sqr (p 1%nat 0%nat)). assert (Y := Rle_0_sqr (p 2%nat 0%nat)). unfold Rsqr in *. lra. }
    clearbody s1. cbv zeta in E.
    destruct (atan2_unit (p 0%nat 0%nat) s1) as [E1 E2]; [lra|].
    destruct (Rltb tol s1) eqn:Lt.
    + apply Rltb_true in Lt. injection E as <- <- <-. rewrite E1, E2.
      destruct (atan2_polar (p 2%nat 0%nat) (p 1%nat 0%nat) s1) as [E3 E4]; [lra|lra|].
      destruct (atan2_polar (- p 0%nat 2%nat) (p 0%nat 1%nat) s1) as [E5 E6]; [lra|lra|].
      set (t0 := Ratan2 (p 1%nat 0%nat) (p 2%nat 0%nat)) in *. set (t2 := Ratan2 (p 0%nat 1%nat) (- p 0%nat 2%nat)) in *.
      assert (N : s1 <> 0) by lra.
      intros i j Hi Hj. unfold beul. cases3 Hi; cases3 Hj; cbn [b3]; try lra; apply (Q s1 _ _ N).
      * replace (s1 * s1 * (- (p 0%nat 0%nat * (sin t0 * sin t2)) + cos t0 * cos t2)) with (- (p 0%nat 0%nat * ((s1 * sin t0) * (s1 * sin t2))) + (s1 * cos t0) * (s1 * cos t2)) by ring.
        rewrite E3, E4, E5, E6, SS. lin2 (- p 1%nat 0%nat) L4 (- p 2%nat 0%nat) K3.
      * replace (s1 * s1 * (p 0%nat 0%nat * (sin t0 * cos t2) + cos t0 * sin t2)) with (p 0%nat 0%nat * ((s1 * sin t0) * (s1 * cos t2)) + (s1 * cos t0) * (s1 * sin t2)) by ring.
        rewrite E3, E4, E5, E6, SS. lin2 (- p 1%nat 0%nat) L5 (p 2%nat 0%nat) K2.
      * replace (s1 * s1 * (- (p 0%nat 0%nat * (cos t0 * sin t2)) - sin t0 * cos t2)) with (- (p 0%nat 0%nat * ((s1 * cos t0) * (s1 * sin t2))) - (s1 * sin t0) * (s1 * cos t2)) by ring.
        rewrite E3, E4, E5, E6, SS. lin2 (- p 2%nat 0%nat) L4 (p 1%nat 0%nat) K3.
      * replace (s1 * s1 * (p 0%nat 0%nat * (cos t0 * cos t2) - sin t0 * sin t2)) with (p 0%nat 0%nat * ((s1 * cos t0) * (s1 * cos t2)) - (s1 * sin t0) * (s1 * sin t2)) by ring.
        rewrite E3, E4, E5, E6, SS. lin2 (- p 2%nat 0%nat) L5 (- p 1%nat 0%nat) K2.
    + apply Rltb_false in Lt. assert (Z : s1 = 0) by (destruct W; lra). injection E as <- <- <-. rewrite E1, E2. rewrite Z in *. clear s1 Z Lt W S0 E1 E2.
      destruct (four_squares (p 1%nat 0%nat) (p 2%nat 0%nat) 0 0) as (Z1 & Z2 & _); [lra|].
      rewrite Z1, Z2 in *.
      assert (U : p 0%nat 0%nat * p 0%nat 0%nat = 1) by lra.
      destruct (four_squares (p 0%nat 1%nat) (p 0%nat 2%nat) 0 0) as (Z3 & Z4 & _); [lra|]. rewrite Z3, Z4 in *.
      rewrite (sign_unit _ U). destruct (sin_pm _ (Ratan2 (- p 2%nat 1%nat) (p 1%nat 1%nat)) U) as [S1 S2]. rewrite S1, S2.
      destruct (atan2_unit (p 1%nat 1%nat) (- p 2%nat 1%nat)) as [S3 S4]; [lra|]. rewrite S3, S4, sin_0, cos_0.
      intros i j Hi Hj. unfold beul. cases3 Hi; cases3 Hj; cbn [b3]; try lra.
      replace (- (p 0%nat 0%nat * (1 * (p 0%nat 0%nat * - p 2%nat 1%nat))) - 0 * p 1%nat 1%nat) with (p 0%nat 0%nat * p 0%nat 0%nat * p 2%nat 1%nat) by ring. rewrite U; ring.
  - replace (1 - p 0%nat 2%nat * p 0%nat 2%nat) with (p 0%nat 0%nat * p 0%nat 0%nat + p 0%nat 1%nat * p 0%nat 1%nat) in W by lra.
    set (c1 := sqrt (p 0%nat 0%nat * p 0%nat 0%nat + p 0%nat 1%nat * p 0%nat 1%nat)) in *.
    assert (S0 : 0 <= c1) by apply sqrt_pos.
    assert (SS : c1 * c1 = p 0%nat 0%nat * p 0%nat 0%nat + p 0%nat 1%nat * p 0%nat 1%nat).
    { apply sqrt_sqrt. assert (X := Rle_0_sqr (p 0%nat 0%nat)). assert (Y := Rle_0_sqr (p 0%nat 1%nat)). unfold Rsqr in *. lra. }
    clearbody c1. cbv zeta in E.
    destruct (atan2_unit c1 (- p 0%nat 2%nat)) as [E1 E2]; [lra|].
    destruct (Rltb tol c1) eqn:Lt.
    + apply Rltb_true in Lt. injection E as <- <- <-. rewrite E1, E2.
      destruct (atan2_polar (p 2%nat 2%nat) (p 1%nat 2%nat) c1) as [E3 E4]; [lra|lra|].
      destruct (atan2_polar (p 0%nat 0%nat) (p 0%nat 1%nat) c1) as [E5 E6]; [lra|lra|].
      set (t0 := Ratan2 (p 1%nat 2%nat) (p 2%nat 2%nat)) in *. set (t2 := Ratan2 (p 0%nat 1%nat) (p 0%nat 0%nat)) in *.
      assert (N : c1 <> 0) by lra.
      intros i j Hi Hj. unfold beul. cases3 Hi; cases3 Hj; cbn [b3]; try lra; apply (Q c1 _ _ N).
      * replace (c1 * c1 * (- p 0%nat 2%nat * (sin t0 * cos t2) - cos t0 * sin t2)) with (- p 0%nat 2%nat * ((c1 * sin t0) * (c1 * cos t2)) - (c1 * cos t0) * (c1 * sin t2)) by ring.
        rewrite E3, E4, E5, E6, SS. lin2 (- p 0%nat 0%nat) D (- p 0%nat 1%nat) K9.
      * replace (c1 * c1 * (- p 0%nat 2%nat * (sin t0 * sin t2) + cos t0 * cos t2)) with (- p 0%nat 2%nat * ((c1 * sin t0) * (c1 * sin t2)) + (c1 * cos t0) * (c1 * cos t2)) by ring.
        rewrite E3, E4, E5, E6, SS. lin2 (- p 0%nat 1%nat) D (p 0%nat 0%nat) K9.
      * replace (c1 * c1 * (- p 0%nat 2%nat * (cos t0 * cos t2) + sin t0 * sin t2)) with (- p 0%nat 2%nat * ((c1 * cos t0) * (c1 * cos t2)) + (c1 * sin t0) * (c1 * sin t2)) by ring.
        rewrite E3, E4, E5, E6, SS. lin2 (- p 0%nat 0%nat) F (p 0%nat 1%nat) K6.
      * replace (c1 * c1 * (- p 0%nat 2%nat * (cos t0 * sin t2) - sin t0 * cos t2)) with (- p 0%nat 2%nat * ((c1 * cos t0) * (c1 * sin t2)) - (c1 * sin t0) * (c1 * cos t2)) by ring.
        rewrite E3, E4, E5, E6, SS. lin2 (- p 0%nat 1%nat) F (- p 0%nat 0%nat) K6.
    + apply Rltb_false in Lt. assert (Z : c1 = 0) by (destruct W; lra). injection E as <- <- <-. rewrite E1, E2. rewrite Z in *. clear c1 Z Lt W S0 E1 E2.
      destruct (four_squares (p 0%nat 0%nat) (p 0%nat 1%nat) 0 0) as (Z1 & Z2 & _); [lra|].
      rewrite Z1, Z2 in *.
      assert (U : - p 0%nat 2%nat * - p 0%nat 2%nat = 1) by lra.
      destruct (four_squares (p 1%nat 2%nat) (p 2%nat 2%nat) 0 0) as (Z3 & Z4 & _); [lra|]. rewrite Z3, Z4 in *.
      rewrite (sign_unit _ U). rewrite sin_neg, cos_neg. destruct (sin_pm _ (Ratan2 (- p 2%nat 1%nat) (p 1%nat 1%nat)) U) as [S1 S2]. rewrite S1, S2.
      destruct (atan2_unit (p 1%nat 1%nat) (- p 2%nat 1%nat)) as [S3 S4]; [lra|]. rewrite S3, S4, sin_0, cos_0.
      intros i j Hi Hj. unfold beul. cases3 Hi; cases3 Hj; cbn [b3]; try lra.
      replace (- p 0%nat 2%nat * (1 * - (- p 0%nat 2%nat * - p 2%nat 1%nat)) - 0 * p 1%nat 1%nat) with ((- p 0%nat 2%nat * - p 0%nat 2%nat) * p 2%nat 1%nat) by ring. rewrite U; ring.
Qed.
