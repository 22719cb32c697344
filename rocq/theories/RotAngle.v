(** Axis and angle. *)
From Coq Require Import Reals List Bool Lra Lia Psatz ZArith Nsatz.
From Verif Require Import Base RInst ScalarModel ScalarProofs MiscModel QuatModel QuatSpec QuatProofs RotModel RotSpec RotFacts RotProofs RotQuat.
Import ListNotations.
Open Scope R_scope.

Lemma unit_x n : unit n -> vx n * vx n = 1 - vy n * vy n - vz n * vz n.
Proof. unfold unit, dot. intros. lra. Qed.
Lemma baa_orth n s c : unit n -> s * s + c * c = 1 -> orth (baa n s c).
Proof.
  destruct n as [x y z]. intros U H. apply unit_x in U. cbn [vx vy vz] in U. assert (S : s * s = 1 - c * c) by lra.
  unfold orth, baa, b3. repeat split; ring [U S].
Qed.
Lemma baa_rodrigues n t v : actb (baa n (sin t) (cos t)) v = rodrigues n t v.
Proof. destruct n as [x y z], v as [a b c]. unfold actb, baa, rodrigues, cross, dot, b3. cbn [vx vy vz]. f_equal; ring. Qed.
Lemma rodrigues_axis n t : unit n -> rodrigues n t n = n.
Proof.
  destruct n as [x y z]. intros U. unfold rodrigues, cross. rewrite U. cbn [vx vy vz]. f_equal; ring.
Qed.
Lemma baa_trace n s c : unit n -> tr (baa n s c) = 1 + 2 * c.
Proof. destruct n as [x y z]. intros U. apply unit_x in U. cbn [vx vy vz] in U. unfold tr, baa, b3. ring [U]. Qed.
Lemma baa_add n s c s' c' : unit n -> forall i j, (i < 3)%nat -> (j < 3)%nat ->
  baa n (s * c' + c * s') (c * c' - s * s') i j = bprod (baa n s c) (baa n s' c') i j.
Proof.
  destruct n as [x y z]. intros U i j Hi Hj. apply unit_x in U. cbn [vx vy vz] in U. unfold bprod, baa.
  cases3 Hi; cases3 Hj; cbn [b3]; ring [U].
Qed.
Lemma baa_neg n s c i j : (i < 3)%nat -> (j < 3)%nat -> baa n (- s) c i j = baa n s c j i.
Proof. destruct n as [x y z]. intros Hi Hj. unfold baa. cases3 Hi; cases3 Hj; cbn [b3]; ring. Qed.
Definition haa (n : vec3) (t : R) : ham R := Ham (cos (t / 2)) (vx n * sin (t / 2)) (vy n * sin (t / 2)) (vz n * sin (t / 2)).
Lemma haa_unit n t : unit n -> hnorm (haa n t) = 1.
Proof.
  intros U. apply unit_x in U. unfold hnorm, haa. cbn [hw hx hy hz add mul ROps].
  assert (S := sc (t / 2)). assert (C : cos (t / 2) * cos (t / 2) = 1 - sin (t / 2) * sin (t / 2)) by lra.
  destruct n as [x y z]. cbn [vx vy vz] in *. ring [U C].
Qed.
Lemma haa_block n t : unit n -> forall i j, (i < 3)%nat -> (j < 3)%nat -> bquat (haa n t) i j = baa n (sin t) (cos t) i j.
Proof.
  intros U i j Hi Hj. apply unit_x in U. rewrite (sin_half t), (cos_half t).
  assert (S := sc (t / 2)). assert (C : cos (t / 2) * cos (t / 2) = 1 - sin (t / 2) * sin (t / 2)) by lra.
  destruct n as [x y z]. cbn [vx vy vz] in *. unfold haa, baa, bquat. cbn [vx vy vz].
  cases3 Hi; cases3 Hj; cbn [b3]; ring [U].
Qed.
Lemma quaternion_axis_angle_b o q n t : exists q', quaternion_rotation_axis_angle o q (vlist n) t = Ok q' /\ parts o q' = haa n t.
Proof.
  unfold quaternion_rotation_axis_angle, check_size. cbn [length vlist Nat.eqb require bind map].
  destruct n as [x y z]. unfold vlist. destruct o, q; (eexists; split; [reflexivity|]); cbn; unfold haa; cbn; reflexivity.
Qed.
Lemma baxis_cardinal a s c i j : (0 <= a <= 2)%Z -> (i < 3)%nat -> (j < 3)%nat -> baa (cardinal a) s c i j = baxis a s c i j.
Proof.
  intros Ha Hi Hj. destruct (range3 a Ha) as [->|[->| ->]]; unfold cardinal, baa, baxis; cases3 Hi; cases3 Hj; cbn [b3]; ring.
Qed.

(** ** Extraction *)
Definition skew (b : nat -> nat -> R) : vec3 := V3 (b 1%nat 2%nat - b 2%nat 1%nat) (b 2%nat 0%nat - b 0%nat 2%nat) (b 0%nat 1%nat - b 1%nat 0%nat).
Lemma skew_norm b : orth b -> dot (skew b) (skew b) = (3 - tr b) * (1 + tr b).
Proof.
  intros O. unfold dot, skew. cbn [vx vy vz].
  assert (A := nums_rank1 b 0 1 1 O ltac:(lia) ltac:(lia) ltac:(lia)).
  assert (B := nums_rank1 b 0 2 2 O ltac:(lia) ltac:(lia) ltac:(lia)).
  assert (C := nums_rank1 b 0 3 3 O ltac:(lia) ltac:(lia) ltac:(lia)).
  cbn [nums] in A, B, C. rewrite A, B, C. unfold tr. ring.
Qed.
Lemma axis_of_skew b l n t : orth b -> 0 < l -> l * l = dot (skew b) (skew b) ->
  n = V3 (vx (skew b) / l) (vy (skew b) / l) (vz (skew b) / l) -> 2 * sin t = l -> 2 * cos t = tr b - 1 ->
  unit n /\ forall i j, (i < 3)%nat -> (j < 3)%nat -> baa n (sin t) (cos t) i j = b i j.
Proof.
  intros O L E -> S C.
  assert (U : unit (V3 (vx (skew b) / l) (vy (skew b) / l) (vz (skew b) / l))).
  { unfold unit. unfold dot in *. cbn [vx vy vz].
    match goal with |- ?a = 1 => replace a with ((vx (skew b) * vx (skew b) + vy (skew b) * vy (skew b) + vz (skew b) * vz (skew b)) / (l * l)) by (field; lra) end.
    rewrite <- E. field. lra. }
  split; auto. intros i j Hi Hj.
  assert (N := skew_norm b O). rewrite <- E in N.
  assert (A : forall j k, (j < 4)%nat -> (k < 4)%nat -> nums b 0 j * nums b 0 k = (1 + tr b) * nums b j k).
  { intros. apply (nums_rank1 b 0 j0 k); auto; lia. }
  assert (T0 : 1 + tr b <> 0). { intros Z. rewrite Z in N. nra. }
  assert (D : forall a c d, a * c = (1 + tr b) * d -> a / l * (c / l) * (1 - cos t) = d / 2).
  { intros a c d H. replace (a / l * (c / l) * (1 - cos t)) with (a * c * (2 - 2 * cos t) / (2 * (l * l))) by (field; lra).
    rewrite H, C, N. field. split; auto. intros Z. rewrite Z in N. nra. }
  assert (G : forall a, a / l * sin t = a / 2). { intros a. rewrite <- S. field. lra. }
  assert (D11 := D _ _ _ (A 1 1 ltac:(lia) ltac:(lia))%nat). assert (D22 := D _ _ _ (A 2 2 ltac:(lia) ltac:(lia))%nat). assert (D33 := D _ _ _ (A 3 3 ltac:(lia) ltac:(lia))%nat).
  assert (D12 := D _ _ _ (A 1 2 ltac:(lia) ltac:(lia))%nat). assert (D13 := D _ _ _ (A 1 3 ltac:(lia) ltac:(lia))%nat). assert (D23 := D _ _ _ (A 2 3 ltac:(lia) ltac:(lia))%nat).
  cbn [nums] in *. unfold baa, skew, tr in *. cbn [vx vy vz] in *.
  cases3 Hi; cases3 Hj; cbn [b3]; rewrite ?D11, ?D22, ?D33, ?D12, ?D13, ?D23, ?G; lra.
Qed.
Lemma asym_skew m : asymmetry m = sqrt (dot (skew (be m)) (skew (be m))).
Proof. unfold asymmetry, dot, skew, be. cbn [vx vy vz]. f_equal. destruct (mbasis m); ring. Qed.
Lemma dot_pos v : 0 <= dot v v.
Proof. unfold dot. assert (A := Rle_0_sqr (vx v)). assert (B := Rle_0_sqr (vy v)). assert (C := Rle_0_sqr (vz v)). unfold Rsqr in *. lra. Qed.
Lemma dot_zero v : dot v v = 0 -> v = V3 0 0 0.
Proof.
  destruct v as [a b c]. unfold dot; cbn [vx vy vz]. intros H. destruct (four_squares a b c 0) as (-> & -> & -> & _); [lra|auto].
Qed.
Lemma len3_vlist v : len3 (vlist v) = sqrt (dot v v).
Proof. destruct v; reflexivity. Qed.
Lemma atan2_upper l x : 0 < l -> 0 < Ratan2 l x < PI.
Proof.
  intros L. assert (Rg := atan2_range l x). assert (P : 0 < l * l + x * x) by (assert (A := Rle_0_sqr x); unfold Rsqr in A; nra).
  assert (S : 0 < sqrt (l * l + x * x)) by (apply sqrt_lt_R0; auto).
  destruct (atan2_polar x l (sqrt (l * l + x * x)) S) as [Hs _]. { rewrite sqrt_sqrt; lra. }
  assert (Hp : 0 < sin (Ratan2 l x)). { apply Rmult_lt_reg_l with (sqrt (l * l + x * x)); auto. rewrite Hs, Rmult_0_r. auto. }
  split.
  - destruct (Rlt_dec 0 (Ratan2 l x)); auto. exfalso.
    assert (sin (Ratan2 l x) <= 0). { rewrite <- (Ropp_involutive (Ratan2 l x)). rewrite sin_neg. assert (0 <= sin (- Ratan2 l x)) by (apply sin_ge_0; lra). lra. }
    lra.
  - destruct (Rlt_dec (Ratan2 l x) PI); auto. exfalso. assert (E : Ratan2 l x = PI) by lra. rewrite E, sin_PI in Hp. lra.
Qed.
(** rotations by pi *)
Lemma half_turn b : orth b -> skew b = V3 0 0 0 -> tr b <= 1 ->
  b 1%nat 0%nat = b 0%nat 1%nat /\ b 2%nat 0%nat = b 0%nat 2%nat /\ b 2%nat 1%nat = b 1%nat 2%nat /\ tr b = -1.
Proof.
  intros O S T. assert (N := skew_norm b O). rewrite S in N. unfold dot in N; cbn [vx vy vz] in N.
  unfold skew in S. injection S as S1 S2 S3. repeat split; try lra.
  assert (tr b = 3 \/ tr b = -1). { assert (Z : (3 - tr b) * (1 + tr b) = 0) by lra. apply Rmult_integral in Z. destruct Z; [left|right]; lra. }
  lra.
Qed.
Lemma identity_turn b : orth b -> skew b = V3 0 0 0 -> 1 < tr b -> forall i j, (i < 3)%nat -> (j < 3)%nat -> b i j = bid i j.
Proof.
  intros O S T. assert (N := skew_norm b O). rewrite S in N. unfold dot in N; cbn [vx vy vz] in N.
  assert (Z : (3 - tr b) * (1 + tr b) = 0) by lra. apply Rmult_integral in Z. assert (T3 : tr b = 3) by (destruct Z; lra). clear Z N.
  destruct O as (A & B & C & _). unfold tr in *.
  assert (Q : forall x y z, x * x + y * y + z * z = 1 -> x <= 1).
  { intros x y z H. assert (K := Rle_0_sqr y). assert (L := Rle_0_sqr z). unfold Rsqr in *. nra. }
  assert (D0 : b 0%nat 0%nat <= 1) by (eapply Q; exact A).
  assert (D1 : b 1%nat 1%nat <= 1) by (apply (Q _ (b 1%nat 0%nat) (b 1%nat 2%nat)); lra).
  assert (D2 : b 2%nat 2%nat <= 1) by (apply (Q _ (b 2%nat 0%nat) (b 2%nat 1%nat)); lra).
  assert (E0 : b 0%nat 0%nat = 1) by lra. assert (E1 : b 1%nat 1%nat = 1) by lra. assert (E2 : b 2%nat 2%nat = 1) by lra.
  rewrite E0 in A. rewrite E1 in B. rewrite E2 in C.
  destruct (four_squares (b 0%nat 1%nat) (b 0%nat 2%nat) 0 0) as (F1 & F2 & _); [lra|].
  destruct (four_squares (b 1%nat 0%nat) (b 1%nat 2%nat) 0 0) as (F3 & F4 & _); [lra|].
  destruct (four_squares (b 2%nat 0%nat) (b 2%nat 1%nat) 0 0) as (F5 & F6 & _); [lra|].
  intros i j Hi Hj. cases3 Hi; cases3 Hj; unfold bid; cbn [Nat.eqb]; auto.
Qed.
(** the axis computed from the largest diagonal element *)
Lemma half_turn_axis b n i : orth b -> skew b = V3 0 0 0 -> tr b <= 1 -> (i < 3)%nat ->
  let g k := match k with 0%nat => vx n | 1%nat => vy n | _ => vz n end in
  0 < 1 + b i i -> g i = sqrt (2 * (1 + b i i)) / 2 -> (forall k, (k < 3)%nat -> k <> i -> g k = b i k / (2 * g i)) ->
  unit n /\ forall k l, (k < 3)%nat -> (l < 3)%nat -> baa n (sin PI) (cos PI) k l = b k l.
Proof.
  intros O S T Hi g P E F. destruct (half_turn b O S T) as (S1 & S2 & S3 & T1).
  assert (Hs : 0 < sqrt (2 * (1 + b i i))) by (apply sqrt_lt_R0; lra).
  assert (Sq : sqrt (2 * (1 + b i i)) * sqrt (2 * (1 + b i i)) = 2 * (1 + b i i)) by (apply sqrt_sqrt; lra).
  assert (G : 2 * (g i * g i) = 1 + b i i). { rewrite E. lra. }
  assert (Gi : g i <> 0) by (rewrite E; lra).
  assert (C := orth_cofactors b O). unfold cofactors in C. unfold tr in *.
  assert (Q : forall k l, (k < 3)%nat -> (l < 3)%nat -> 2 * (g k * g l) = (if Nat.eqb k l then 1 else 0) + b k l).
  { assert (M : forall k l, (k < 3)%nat -> (l < 3)%nat -> k <> i -> l <> i -> 2 * (g k * g l) = b i k * b i l / (1 + b i i)).
    { intros k l Hk Hl Nk Nl. rewrite (F k), (F l) by auto. rewrite <- G. field. auto. }
    assert (M1 : forall k, (k < 3)%nat -> k <> i -> 2 * (g i * g k) = b i k).
    { intros k Hk Nk. rewrite (F k) by auto. field. auto. }
    intros k l Hk Hl.
    destruct C as (C1 & C2 & C3 & C4 & C5 & C6 & C7 & C8 & C9).
    rewrite S1, S2, S3 in *.
    destruct (Nat.eq_dec k i) as [->|Nk]; destruct (Nat.eq_dec l i) as [->|Nl].
    - rewrite Nat.eqb_refl. auto.
    - rewrite M1 by auto. destruct (Nat.eqb_spec i l); [congruence|]. lra.
    - rewrite (Rmult_comm (g k)), M1 by auto. destruct (Nat.eqb_spec k i); [congruence|].
      cases3 Hi; cases3 Hk; try congruence; lra.
    - rewrite M by auto. apply Rmult_eq_reg_r with (1 + b i i); [|lra].
      replace (b i k * b i l / (1 + b i i) * (1 + b i i)) with (b i k * b i l) by (field; lra).
      cases3 Hi; cases3 Hk; cases3 Hl; try congruence; cbn [Nat.eqb]; rewrite ?S1, ?S2, ?S3; lra. }
  assert (l0 : (0 < 3)%nat) by lia. assert (l1 : (1 < 3)%nat) by lia. assert (l2 : (2 < 3)%nat) by lia.
  assert (Q00 := Q 0%nat 0%nat l0 l0). assert (Q11 := Q 1%nat 1%nat l1 l1). assert (Q22 := Q 2%nat 2%nat l2 l2).
  assert (Q01 := Q 0%nat 1%nat l0 l1). assert (Q02 := Q 0%nat 2%nat l0 l2). assert (Q12 := Q 1%nat 2%nat l1 l2).
  subst g. cbn [Nat.eqb] in *. destruct n as [x y z]. cbn [vx vy vz] in *. split.
  - unfold unit, dot. cbn [vx vy vz]. lra.
  - intros k l Hk Hl. rewrite sin_PI, cos_PI. unfold baa. cases3 Hk; cases3 Hl; cbn [b3]; lra.
Qed.
