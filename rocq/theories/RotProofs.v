(** What each rotation builder writes, and atan2. *)
From Coq Require Import Reals List Bool Lra Lia Psatz ZArith.
From Coq.Reals Require Import Ratan.
From Verif Require Import Base RInst ScalarModel ScalarProofs MiscModel QuatModel QuatSpec QuatProofs RotModel RotSpec RotFacts.
Import ListNotations.
Open Scope R_scope.

(** ** atan2 *)
Lemma sqrt_eq r a : 0 <= r -> r * r = a -> sqrt a = r.
Proof. intros H <-. apply sqrt_square; auto. Qed.
Lemma atan2_polar x y r : 0 < r -> r * r = x * x + y * y ->
  r * sin (Ratan2 y x) = y /\ r * cos (Ratan2 y x) = x.
Proof.
  intros Hr E. unfold Ratan2.
  assert (K : forall x, x <> 0 -> r * r = x * x + y * y -> forall r', 0 < r' -> sqrt (1 + (y / x)^2) = r' ->
     (r' = r / x \/ r' = - r / x) -> r' * cos (atan (y/x)) = 1 /\ r' * sin (atan (y/x)) = y / x).
  { intros x0 Hx0 _ r' Hr' Es _. rewrite cos_atan, sin_atan.
    replace (1 + (y / x0)²) with (1 + (y/x0)^2) by (unfold Rsqr; ring). rewrite Es. split; field; lra. }
  destruct (Rlt_dec 0 x).
  - assert (Es : sqrt (1 + (y / x)^2) = r / x).
    { apply sqrt_eq. { apply Rlt_le, Rdiv_lt_0_compat; lra. }
      replace (r / x * (r / x)) with (r * r / (x * x)) by (field; lra). rewrite E. field; lra. }
    destruct (K x) with (r' := r / x) as [C S]; auto; try lra. { apply Rdiv_lt_0_compat; lra. }
    split.
    + replace (r * sin (atan (y / x))) with (x * (r / x * sin (atan (y / x)))) by (field; lra). rewrite S. field; lra.
    + replace (r * cos (atan (y / x))) with (x * (r / x * cos (atan (y / x)))) by (field; lra). rewrite C. field; lra.
  - destruct (Rlt_dec x 0).
    + assert (Es : sqrt (1 + (y / x)^2) = r / - x).
      { apply sqrt_eq. { apply Rlt_le, Rdiv_lt_0_compat; lra. }
        replace (r / - x * (r / - x)) with (r * r / (x * x)) by (field; lra). rewrite E. field; lra. }
      destruct (K x) with (r' := r / - x) as [C S]; auto; try lra. { apply Rdiv_lt_0_compat; lra. }
      { right; field; lra. }
      assert (G : r * sin (atan (y / x)) = - y /\ r * cos (atan (y / x)) = - x).
      { split.
        - replace (r * sin (atan (y / x))) with (- x * (r / - x * sin (atan (y / x)))) by (field; lra). rewrite S. field; lra.
        - replace (r * cos (atan (y / x))) with (- x * (r / - x * cos (atan (y / x)))) by (field; lra). rewrite C. field; lra. }
      destruct G as [G1 G2].
      destruct (Rle_dec 0 y).
      * rewrite neg_sin, neg_cos. lra.
      * replace (atan (y / x) - PI) with (- (PI - atan (y/x))) by ring.
        rewrite sin_neg, cos_neg, sin_PI_x, Rtrigo_facts.cos_pi_minus. lra.
    + assert (x = 0) as -> by lra.
      destruct (Rlt_dec 0 y).
      * rewrite sin_PI2, cos_PI2. nra.
      * destruct (Rlt_dec y 0).
        -- rewrite sin_neg, cos_neg, sin_PI2, cos_PI2. split; nra.
        -- nra.
Qed.
Lemma atan2_unit x y : x * x + y * y = 1 -> sin (Ratan2 y x) = y /\ cos (Ratan2 y x) = x.
Proof. intros H. destruct (atan2_polar x y 1); lra. Qed.
Lemma atan2_range y x : - PI < Ratan2 y x <= PI.
Proof.
  unfold Ratan2. assert (A := atan_bound (y / x)). assert (P := PI_RGT_0).
  destruct (Rlt_dec 0 x); [lra|]. destruct (Rlt_dec x 0); [|destruct (Rlt_dec 0 y); [lra|]; destruct (Rlt_dec y 0); lra].
  assert (0 <= y -> y / x <= 0). { intros. unfold Rdiv. assert (/ x < 0) by (apply Rinv_lt_0_compat; lra). nra. }
  assert (y < 0 -> 0 < y / x). { intros. unfold Rdiv. assert (/ x < 0) by (apply Rinv_lt_0_compat; lra). nra. }
  destruct (Rle_dec 0 y).
  - assert (atan (y / x) <= 0). { rewrite <- atan_0. destruct (H r0) as [L|E]; [left; apply atan_increasing; auto|rewrite E; lra]. }
    lra.
  - assert (0 < atan (y / x)). { rewrite <- atan_0. apply atan_increasing. apply H0; lra. } lra.
Qed.
Lemma sc t : sin t * sin t + cos t * cos t = 1.
Proof. exact (sin2_cos2 t). Qed.
Lemma cos_half t : cos t = 1 - 2 * (sin (t / 2) * sin (t / 2)).
Proof. replace t with (2 * (t / 2)) at 1 by field. rewrite cos_2a_sin. ring. Qed.
Lemma sin_half t : sin t = 2 * (sin (t / 2) * cos (t / 2)).
Proof. replace t with (2 * (t / 2)) at 1 by field. rewrite sin_2a. ring. Qed.

(** ** Writing basis elements *)
Lemma be_set (m : mx R) i j v a b : be (set_be m i j v) a b = if Nat.eqb a i && Nat.eqb b j then v else be m a b.
Proof. unfold be, set_be. destruct (mbasis m) eqn:E; simpl; rewrite E; auto. rewrite andb_comm. auto. Qed.
Lemma mbasis_set (m : mx R) i j v : mbasis (set_be m i j v) = mbasis m.
Proof. unfold set_be. destruct (mbasis m) eqn:E; auto. Qed.
Lemma be_identity (m : mx R) a b : be (mx_identity m) a b = if Nat.eqb a b then 1 else 0.
Proof. unfold be. simpl. destruct (mbasis m); auto. rewrite Nat.eqb_sym. auto. Qed.
Lemma be_mel (m : mx R) i j : mel m i j = match mbasis m with row_basis => be m i j | col_basis => be m j i end.
Proof. unfold be. destruct (mbasis m); auto. Qed.
Lemma frame_identity n m : frame n m (mx_identity m).
Proof. unfold frame; simpl; auto. Qed.
Lemma frame_set n m m' i j v : (i < n)%nat -> (j < n)%nat -> frame n m m' -> frame n m (set_be m' i j v).
Proof.
  intros Hi Hj (A & B & C & D). unfold frame. unfold set_be. destruct (mbasis m') eqn:E; simpl.
  - repeat split; try congruence. intros a b H.
    destruct (Nat.eqb_spec a i), (Nat.eqb_spec b j); simpl; try (apply D; lia). lia.
  - repeat split; try congruence. intros a b H.
    destruct (Nat.eqb_spec a j), (Nat.eqb_spec b i); simpl; try (apply D; lia). lia.
Qed.
Lemma min_ok (m : mx R) n : (n <= mrows m)%nat -> (n <= mcols m)%nat -> check_minimum_size m n n = Ok tt.
Proof. intros A B. unfold check_minimum_size, require. apply Nat.leb_le in A, B. rewrite A, B. auto. Qed.
Lemma holds_ok (m : mx R) : holds3 m -> check_linear_3D m = Ok tt.
Proof. intros [A B]. apply min_ok; auto. Qed.
Lemma el_vlist v : forall i, el (vlist v) i = match i with 0%nat => vx v | 1%nat => vy v | 2%nat => vz v | _ => 0 end.
Proof. intros [|[|[|[|i]]]]; reflexivity. Qed.
Definition bid (i j : nat) : R := if Nat.eqb i j then 1 else 0.

(** the block of the matrices of a quaternion, of an axis and angle, of three Euler angles *)
Definition bquat (h : ham R) : nat -> nat -> R :=
  let '(Ham w x y z) := h in
  b3 (1 - 2 * (y*y) - 2 * (z*z)) (2*(x*y) + 2*(w*z)) (2*(z*x) - 2*(w*y))
     (2*(x*y) - 2*(w*z)) (1 - 2 * (z*z) - 2 * (x*x)) (2*(y*z) + 2*(w*x))
     (2*(z*x) + 2*(w*y)) (2*(y*z) - 2*(w*x)) (1 - 2 * (x*x) - 2 * (y*y)).
Definition baa (n : vec3) (s c : R) : nat -> nat -> R :=
  let '(V3 x y z) := n in let o := 1 - c in
  b3 (x*x*o + c) (x*y*o + z*s) (x*z*o - y*s)
     (x*y*o - z*s) (y*y*o + c) (y*z*o + x*s)
     (x*z*o + y*s) (y*z*o - x*s) (z*z*o + c).
(** about axis number i *)
Definition baxis (i : Z) (s c : R) : nat -> nat -> R :=
  match i with
  | 0%Z => b3 1 0 0 0 c s 0 (-s) c
  | 1%Z => b3 c 0 (-s) 0 1 0 s 0 c
  | _ => b3 c s 0 (-s) c 0 0 0 1
  end.
Ltac bsimp := cbv zeta; intros; rewrite ?be_set, ?be_identity; cbn [Nat.eqb andb b3].
Ltac blk := let i := fresh "i" in let j := fresh "j" in let Hi := fresh in let Hj := fresh in
  intros i j Hi Hj; cases3 Hi; cases3 Hj; bsimp.
Ltac frm := repeat (apply frame_set; [lia|lia|]); apply frame_identity.

Lemma rotation_quaternion_b m o q : holds3 m ->
  exists m', matrix_rotation_quaternion m o q = Ok m' /\ frame 3 m m' /\ block m' (bquat (parts o q)).
Proof.
  intros H. unfold matrix_rotation_quaternion. rewrite (holds_ok m H). cbn [bind]. eexists. split; [reflexivity|].
  split; [frm|]. unfold parts, parts_of, bquat. blk; cbn [add mul sub one ROps]; ring.
Qed.
Lemma rotation_axis_angle_b m n t : holds3 m ->
  exists m', matrix_rotation_axis_angle m (vlist n) t = Ok m' /\ frame 3 m m' /\ block m' (baa n (sin t) (cos t)).
Proof.
  intros H. unfold matrix_rotation_axis_angle. rewrite (holds_ok m H). cbn [bind check_size length vlist Nat.eqb require]. eexists. split; [reflexivity|].
  split; [frm|]. destruct n as [x y z]. unfold baa. blk; unfold el, vlist; cbn [nth vx vy vz add mul sub one ROps msin mcos RMath]; ring.
Qed.
Lemma range3 a : (0 <= a <= 2)%Z -> a = 0%Z \/ a = 1%Z \/ a = 2%Z. Proof. lia. Qed.
Lemma rotation_world_axis_b m a t : holds3 m -> (0 <= a <= 2)%Z ->
  exists m', matrix_rotation_world_axis m a t = Ok m' /\ frame 3 m m' /\ block m' (baxis a (sin t) (cos t)).
Proof.
  intros H Ha. unfold matrix_rotation_world_axis. rewrite (holds_ok m H). cbn [bind].
  destruct (range3 a Ha) as [->|[->| ->]]; cbn [Z.leb Z.compare Pos.compare Pos.compare_cont andb require bind];
  match goal with |- context [cyclic_permutation3 ?a] => let e := constr:(cyclic_permutation3 a) in let f := eval vm_compute in e in change e with f end;
  cbn [bind]; repeat match goal with |- context [Z.to_nat ?a] => let e := constr:(Z.to_nat a) in let f := eval vm_compute in e in change e with f end;
  (eexists; split; [reflexivity|split; [frm|unfold baxis; blk; cbn [neg ROps msin mcos RMath]; ring]]).
Qed.

(** Euler angles: (i, j, k) as in the source, in terms of permuted indices *)
Definition perm (a : euler_axes) (n : nat) : nat := match n with 0%nat => Z.to_nat (ea_i a) | 1%nat => Z.to_nat (ea_j a) | _ => Z.to_nat (ea_k a) end.
Definition beul (repeat : bool) (s0 c0 s1 c1 s2 c2 : R) : nat -> nat -> R :=
  if repeat then
    b3 c1 (s1*s2) (-(s1*c2))
       (s0*s1) (-(c1*(s0*s2)) + c0*c2) (c1*(s0*c2) + c0*s2)
       (c0*s1) (-(c1*(c0*s2)) - s0*c2) (c1*(c0*c2) - s0*s2)
  else
    b3 (c1*c2) (c1*s2) (-s1)
       (s1*(s0*c2) - c0*s2) (s1*(s0*s2) + c0*c2) (s0*c1)
       (s1*(c0*c2) + s0*s2) (s1*(c0*s2) - s0*c2) (c0*c1).
Definition sg (a : euler_axes) (x : R) : R := if ea_odd a then - x else x.
Lemma all_orders (P : Z -> Prop) : P 0%Z -> P 1%Z -> P 2%Z -> P 3%Z -> P 4%Z -> P 5%Z -> P 6%Z -> P 7%Z -> P 8%Z -> P 9%Z -> P 10%Z -> P 11%Z ->
  forall o, P (eo_value o).
Proof. intros. destruct o; auto. Qed.
Lemma rotation_euler_b m a0 a1 a2 o : holds3 m ->
  let a := unpack_euler (eo_value o) in
  exists m', matrix_rotation_euler m a0 a1 a2 (eo_value o) = Ok m' /\ frame 3 m m' /\
    block (Mx 3 3 row_basis (fun i j => be m' (perm a i) (perm a j)))
      (beul (ea_repeat a) (sin (sg a a0)) (cos (sg a a0)) (sin (sg a a1)) (cos (sg a a1)) (sin (sg a a2)) (cos (sg a a2))).
Proof.
  intros H. unfold matrix_rotation_euler. rewrite (holds_ok m H). cbn [bind]. 
  destruct o; cbv zeta;
  repeat match goal with |- context [unpack_euler ?a] => let e := constr:(unpack_euler a) in let f := eval vm_compute in e in change e with f end;
  cbn [ea_i ea_j ea_k ea_odd ea_repeat]; unfold sg, perm; cbn [ea_i ea_j ea_k ea_odd ea_repeat];
  repeat match goal with |- context [Z.to_nat ?a] => let e := constr:(Z.to_nat a) in let f := eval vm_compute in e in change e with f end;
  (eexists; split; [reflexivity|split; [frm|unfold beul; intros i j Hi Hj; cases3 Hi; cases3 Hj; cbn [be mbasis mel]; bsimp; cbn [neg add mul sub ROps msin mcos RMath]; ring]]).
Qed.
