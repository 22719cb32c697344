(** Rotation matrices and unit quaternions. *)
From Coq Require Import Reals List Bool Lra Lia Psatz ZArith Nsatz.
From Verif Require Import Base RInst ScalarModel ScalarProofs MiscModel QuatModel QuatSpec QuatProofs RotModel RotSpec RotFacts RotProofs.
Import ListNotations.
Open Scope R_scope.

Lemma orth_ext b b' : (forall i j, (i < 3)%nat -> (j < 3)%nat -> b i j = b' i j) -> orth b' -> orth b.
Proof. intros H. unfold orth. rewrite !H by lia. auto. Qed.
Lemma block_rotation m b : block m b -> orth b -> is_rotation m.
Proof. intros H O. apply orth_rotation. eapply orth_ext; eauto. Qed.
Definition actb (b : nat -> nat -> R) (v : vec3) : vec3 :=
  V3 (vx v * b 0%nat 0%nat + vy v * b 1%nat 0%nat + vz v * b 2%nat 0%nat)
     (vx v * b 0%nat 1%nat + vy v * b 1%nat 1%nat + vz v * b 2%nat 1%nat)
     (vx v * b 0%nat 2%nat + vy v * b 1%nat 2%nat + vz v * b 2%nat 2%nat).
Lemma act_actb m b v : block m b -> act m v = actb b v.
Proof. intros H. rewrite act_be. unfold actb. rewrite !H by lia. auto. Qed.
Lemma bquat_orth h : hnorm h = 1 -> orth (bquat h).
Proof.
  destruct h as [w x y z]. unfold hnorm; cbn [hw hx hy hz add mul ROps]. intros H.
  unfold orth, bquat, b3. repeat split; nsatz.
Qed.
Lemma bquat_sandwich h v : hnorm h = 1 -> pure (actb (bquat h) v) = sandwich h v.
Proof.
  destruct h as [w x y z], v as [a b c]. unfold hnorm; cbn [hw hx hy hz add mul ROps]. intros H.
  unfold sandwich, actb, bquat, b3, pure, hmul, hconj; cbn [hw hx hy hz vx vy vz add mul sub neg ROps].
  f_equal; nsatz.
Qed.
(** the block of a product *)
Definition bprod (a b : nat -> nat -> R) (i j : nat) : R := a i 0%nat * b 0%nat j + a i 1%nat * b 1%nat j + a i 2%nat * b 2%nat j.
Lemma bquat_mul p q : hnorm p = 1 -> hnorm q = 1 -> forall i j, (i < 3)%nat -> (j < 3)%nat ->
  bquat (hmul p q) i j = bprod (bquat q) (bquat p) i j.
Proof.
  destruct p as [a b c d], q as [w x y z]. unfold hnorm; cbn [hw hx hy hz add mul ROps]. intros H K i j Hi Hj.
  assert (H' : a * a = 1 - b * b - c * c - d * d) by lra. assert (K' : w * w = 1 - x * x - y * y - z * z) by lra.
  unfold bprod, bquat, hmul; cbn [hw hx hy hz add mul sub ROps]. cases3 Hi; cases3 Hj; cbn [b3]; ring [H' K'].
Qed.
Lemma block_product p a b : mbasis a = mbasis p -> mbasis b = mbasis p ->
  block p (bprod (be a) (be b)) -> match mbasis p with row_basis => is_product p a b | col_basis => is_product p b a end.
Proof.
  intros A B H. destruct (mbasis p) eqn:E; intros i j Hi Hj; rewrite !be_mel, A, B, E; rewrite H by auto; unfold bprod; ring.
Qed.

(** ** From a rotation to its quaternion *)
Lemma rot_facts m : is_rotation m -> orth (be m) /\ cofactors (be m) /\ cols (be m).
Proof. intros H. apply orth_rotation in H. auto using orth_cofactors, orth_cols. Qed.
Ltac gen9 m := generalize dependent (be m 0 0); generalize dependent (be m 0 1); generalize dependent (be m 0 2);
  generalize dependent (be m 1 0); generalize dependent (be m 1 1); generalize dependent (be m 1 2);
  generalize dependent (be m 2 0); generalize dependent (be m 2 1); generalize dependent (be m 2 2).

(** If a unit-free candidate satisfies the ten quadratic equations below it is a unit
    quaternion with that block. *)
Definition tr (b : nat -> nat -> R) := b 0%nat 0%nat + b 1%nat 1%nat + b 2%nat 2%nat.
Definition quads (b : nat -> nat -> R) (h : ham R) : Prop :=
  4 * (hw h * hw h) = 1 + tr b /\
  4 * (hx h * hx h) = 1 + b 0%nat 0%nat - b 1%nat 1%nat - b 2%nat 2%nat /\
  4 * (hy h * hy h) = 1 + b 1%nat 1%nat - b 2%nat 2%nat - b 0%nat 0%nat /\
  4 * (hz h * hz h) = 1 + b 2%nat 2%nat - b 0%nat 0%nat - b 1%nat 1%nat /\
  4 * (hw h * hx h) = b 1%nat 2%nat - b 2%nat 1%nat /\
  4 * (hw h * hy h) = b 2%nat 0%nat - b 0%nat 2%nat /\
  4 * (hw h * hz h) = b 0%nat 1%nat - b 1%nat 0%nat /\
  4 * (hx h * hy h) = b 0%nat 1%nat + b 1%nat 0%nat /\
  4 * (hy h * hz h) = b 1%nat 2%nat + b 2%nat 1%nat /\
  4 * (hz h * hx h) = b 2%nat 0%nat + b 0%nat 2%nat.
Lemma quads_unit b h : quads b h -> hnorm h = 1 /\ forall i j, (i < 3)%nat -> (j < 3)%nat -> bquat h i j = b i j.
Proof.
  destruct h as [w x y z]. unfold quads, tr, hnorm. cbn [hw hx hy hz add mul ROps].
  intros (A & B & C & D & E & F & G & H & I & J). split; [lra|].
  intros i j Hi Hj. unfold bquat. cases3 Hi; cases3 Hj; cbn [b3]; lra.
Qed.
Lemma unit_quads h : hnorm h = 1 -> quads (bquat h) h.
Proof.
  destruct h as [w x y z]. unfold quads, tr, hnorm, bquat, b3. cbn [hw hx hy hz add mul ROps]. intros H.
  repeat split; lra.
Qed.
(** products of the numerators of the four branches *)
Definition nums (b : nat -> nat -> R) (i j : nat) : R :=
  match i, j with
  | 0%nat, 0%nat => 1 + tr b
  | 1%nat, 1%nat => 1 + b 0%nat 0%nat - b 1%nat 1%nat - b 2%nat 2%nat
  | 2%nat, 2%nat => 1 + b 1%nat 1%nat - b 2%nat 2%nat - b 0%nat 0%nat
  | 3%nat, 3%nat => 1 + b 2%nat 2%nat - b 0%nat 0%nat - b 1%nat 1%nat
  | 0%nat, 1%nat | 1%nat, 0%nat => b 1%nat 2%nat - b 2%nat 1%nat
  | 0%nat, 2%nat | 2%nat, 0%nat => b 2%nat 0%nat - b 0%nat 2%nat
  | 0%nat, 3%nat | 3%nat, 0%nat => b 0%nat 1%nat - b 1%nat 0%nat
  | 1%nat, 2%nat | 2%nat, 1%nat => b 0%nat 1%nat + b 1%nat 0%nat
  | 2%nat, 3%nat | 3%nat, 2%nat => b 1%nat 2%nat + b 2%nat 1%nat
  | 1%nat, 3%nat | 3%nat, 1%nat => b 2%nat 0%nat + b 0%nat 2%nat
  | _, _ => 0
  end.
Lemma cases4' i : (i < 4)%nat -> i = 0%nat \/ i = 1%nat \/ i = 2%nat \/ i = 3%nat. Proof. lia. Qed.
Lemma nums_rank1 b i j k : orth b -> (i < 4)%nat -> (j < 4)%nat -> (k < 4)%nat ->
  nums b i j * nums b i k = nums b i i * nums b j k.
Proof.
  intros O. assert (K := orth_cofactors b O). assert (L := orth_cols b O). destruct O as (A & B & C & D & E & F & G).
  unfold cols, cofactors in *.
  unfold nums, tr.
  revert A B C D E F G K L.
  generalize (b 0%nat 0%nat) (b 0%nat 1%nat) (b 0%nat 2%nat) (b 1%nat 0%nat) (b 1%nat 1%nat) (b 1%nat 2%nat) (b 2%nat 0%nat) (b 2%nat 1%nat) (b 2%nat 2%nat).
  clear. intros b00 b01 b02 b10 b11 b12 b20 b21 b22. intros. destruct K as (K1 & K2 & K3 & K4 & K5 & K6 & K7 & K8 & K9). destruct L as (L1 & L2 & L3 & L4 & L5 & L6).
  clear G.
  destruct (cases4' i) as [->|[->|[->| ->]]]; auto;
  destruct (cases4' j) as [->|[->|[->| ->]]]; auto; try ring;
  destruct (cases4' k) as [->|[->|[->| ->]]]; auto; try ring; lra.
Qed.
Definition hget (h : ham R) (i : nat) : R := match i with 0%nat => hw h | 1%nat => hx h | 2%nat => hy h | _ => hz h end.
Lemma pivot_quads b h i : orth b -> (i < 4)%nat -> 0 < nums b i i -> hget h i = sqrt (nums b i i) / 2 ->
  (forall j, (j < 4)%nat -> j <> i -> hget h j = nums b i j * (1 / 4 / hget h i)) -> quads b h.
Proof.
  intros O Hi P E F.
  assert (S : sqrt (nums b i i) * sqrt (nums b i i) = nums b i i) by (apply sqrt_sqrt; lra).
  assert (S0 : 0 < sqrt (nums b i i)) by (apply sqrt_lt_R0; auto).
  assert (F' : forall j, (j < 4)%nat -> hget h j = nums b i j / (2 * sqrt (nums b i i))).
  { intros j Hj. destruct (Nat.eq_dec j i) as [->|N].
    - rewrite E. rewrite <- S at 2. field. lra.
    - rewrite F by auto. rewrite E. field. lra. }
  assert (Q : forall j k, (j < 4)%nat -> (k < 4)%nat -> 4 * (hget h j * hget h k) = nums b j k).
  { intros j k Hj Hk. rewrite !F' by auto. 
    replace (4 * (nums b i j / (2 * sqrt (nums b i i)) * (nums b i k / (2 * sqrt (nums b i i)))))
      with (nums b i j * nums b i k / (sqrt (nums b i i) * sqrt (nums b i i))) by (field; lra).
    rewrite S, nums_rank1 by auto. field. lra. }
  unfold quads. 
  assert (l0 : (0 < 4)%nat) by lia. assert (l1 : (1 < 4)%nat) by lia. assert (l2 : (2 < 4)%nat) by lia. assert (l3 : (3 < 4)%nat) by lia.
  repeat split; [exact (Q 0%nat 0%nat l0 l0)|exact (Q 1%nat 1%nat l1 l1)|exact (Q 2%nat 2%nat l2 l2)|exact (Q 3%nat 3%nat l3 l3)|exact (Q 0%nat 1%nat l0 l1)|exact (Q 0%nat 2%nat l0 l2)|exact (Q 0%nat 3%nat l0 l3)|exact (Q 1%nat 2%nat l1 l2)|exact (Q 2%nat 3%nat l2 l3)|exact (Q 3%nat 1%nat l3 l1)].
Qed.
Lemma trace_be (m : mx R) : trace_3x3 m = tr (be m).
Proof. unfold trace_3x3, tr, be. cbn [add ROps]. destruct (mbasis m); auto. Qed.
Lemma rotation_matrix_b o q m : holds3 m -> is_rotation m ->
  exists q', quaternion_rotation_matrix o q m = Ok q' /\ quads (be m) (parts o q').
Proof.
  intros H Rm. assert (O : orth (be m)) by (apply orth_rotation; auto).
  unfold quaternion_rotation_matrix. rewrite min_ok by apply H. cbn [bind].
  rewrite trace_be. cbn [ltb eqb ROps zero].
  replace (Rltb 0 (tr (be m)) || Reqb (tr (be m)) 0)%bool with (negb (Rltb (tr (be m)) 0)).
  2: { unfold Rltb, Reqb. destruct (Rlt_dec (tr (be m)) 0), (Rlt_dec 0 (tr (be m))), (Req_EM_T (tr (be m)) 0); try reflexivity; exfalso; lra. }
  destruct (Rltb (tr (be m)) 0) eqn:Et; cbn [negb].
  - apply Rltb_true in Et.
    destruct (index_of_max3_l R_total_order (be m 0 0) (be m 1 1) (be m 2 2)) as [Hk Mx].
    set (k := index_of_max3 (be m 0 0) (be m 1 1) (be m 2 2)) in *. clearbody k.
    assert (M0 := Mx 0%nat ltac:(lia)). assert (M1 := Mx 1%nat ltac:(lia)). assert (M2 := Mx 2%nat ltac:(lia)).
    cbn [ltb ROps] in M0, M1, M2. rewrite Rltb_false in M0, M1, M2. clear Mx. unfold tr in Et.
    cases3 Hk; cbn [arg3] in *;
    match goal with |- context [cyclic_permutation3 ?a] => let e := constr:(cyclic_permutation3 a) in let f := eval vm_compute in e in change e with f end;
    cbn [bind]; repeat match goal with |- context [Z.to_nat ?a] => let e := constr:(Z.to_nat a) in let f := eval vm_compute in e in change e with f end;
    (eexists; split; [reflexivity|]).
    all: match goal with |- context [msqrt ?e] => assert (P : 0 < e) by (cbn [add sub one ROps]; lra); assert (P' : 0 < sqrt e) by (apply sqrt_lt_R0; exact P); change (msqrt e) with (sqrt e); set (r := sqrt e) in * end.
    + apply (pivot_quads _ _ 1); auto; cbn [nums].
      * cbn [add sub one ROps] in P. lra.
      * replace (1 + be m 0 0 - be m 1 1 - be m 2 2) with (be m 0 0 - be m 1 1 - be m 2 2 + 1) by ring.
        destruct o, q; cbn; cbn in r; change (sqrt _) with r; field.
      * intros j Hj Nj. destruct (cases4' j Hj) as [->|[->|[->| ->]]]; try congruence; destruct o, q; cbn; field; lra.
    + apply (pivot_quads _ _ 2); auto; cbn [nums].
      * cbn [add sub one ROps] in P. lra.
      * replace (1 + be m 1 1 - be m 2 2 - be m 0 0) with (be m 1 1 - be m 2 2 - be m 0 0 + 1) by ring.
        destruct o, q; cbn; cbn in r; change (sqrt _) with r; field.
      * intros j Hj Nj. destruct (cases4' j Hj) as [->|[->|[->| ->]]]; try congruence; destruct o, q; cbn; field; lra.
    + apply (pivot_quads _ _ 3); auto; cbn [nums].
      * cbn [add sub one ROps] in P. lra.
      * replace (1 + be m 2 2 - be m 0 0 - be m 1 1) with (be m 2 2 - be m 0 0 - be m 1 1 + 1) by ring.
        destruct o, q; cbn; cbn in r; change (sqrt _) with r; field.
      * intros j Hj Nj. destruct (cases4' j Hj) as [->|[->|[->| ->]]]; try congruence; destruct o, q; cbn; field; lra.
  - apply Rltb_false in Et. eexists; split; [reflexivity|].
    match goal with |- context [msqrt ?e] => assert (P : 0 < e) by (cbn [add sub one ROps]; lra); assert (P' : 0 < sqrt e) by (apply sqrt_lt_R0; exact P); change (msqrt e) with (sqrt e); set (r := sqrt e) in * end.
    apply (pivot_quads _ _ 0); auto; cbn [nums].
    + lra.
    + replace (1 + tr (be m)) with (tr (be m) + 1) by ring.
      destruct o, q; cbn; change (sqrt _) with r; field.
    + intros j Hj Nj. destruct (cases4' j Hj) as [->|[->|[->| ->]]]; try congruence; destruct o, q; cbn; field; lra.
Qed.
Lemma four_squares a b c d : a * a + b * b + c * c + d * d = 0 -> a = 0 /\ b = 0 /\ c = 0 /\ d = 0.
Proof.
  intros H. assert (A := Rle_0_sqr a). assert (B := Rle_0_sqr b). assert (C := Rle_0_sqr c). assert (D := Rle_0_sqr d). unfold Rsqr in *.
  repeat split; apply Rsqr_0_uniq; unfold Rsqr; lra.
Qed.
(** a unit quaternion is determined up to sign by its products *)
Lemma quads_sign b h h' : quads b h -> quads b h' -> h' = h \/ h' = hmap neg h.
Proof.
  intros A B. destruct (quads_unit b h A) as [N _]. destruct (quads_unit b h' B) as [N' _].
  destruct h as [w x y z], h' as [w' x' y' z']. unfold quads, hnorm, hmap in *; cbn [hw hx hy hz add mul neg ROps] in *.
  destruct A as (A0 & A1 & A2 & A3 & A4 & A5 & A6 & A7 & A8 & A9), B as (B0 & B1 & B2 & B3 & B4 & B5 & B6 & B7 & B8 & B9).
  assert (D : w * w' + x * x' + y * y' + z * z' = 1 \/ w * w' + x * x' + y * y' + z * z' = -1).
  { assert (S : (w * w' + x * x' + y * y' + z * z') * (w * w' + x * x' + y * y' + z * z') = 1).
    { transitivity ((w * w + x * x + y * y + z * z) * (w * w + x * x + y * y + z * z)); [|rewrite N; ring].
      transitivity (w * w * (w' * w') + x * x * (x' * x') + y * y * (y' * y') + z * z * (z' * z')
        + 2 * (w * x * (w' * x')) + 2 * (w * y * (w' * y')) + 2 * (w * z * (w' * z')) + 2 * (x * y * (x' * y')) + 2 * (y * z * (y' * z')) + 2 * (z * x * (z' * x'))); [ring|].
      replace (w' * w') with (w * w) by lra. replace (x' * x') with (x * x) by lra. replace (y' * y') with (y * y) by lra. replace (z' * z') with (z * z) by lra. replace (w' * x') with (w * x) by lra. replace (w' * y') with (w * y) by lra. replace (w' * z') with (w * z) by lra. replace (x' * y') with (x * y) by lra. replace (y' * z') with (y * z) by lra. replace (z' * x') with (z * x) by lra. ring. }
    assert ((w * w' + x * x' + y * y' + z * z' - 1) * (w * w' + x * x' + y * y' + z * z' + 1) = 0) by lra.
    destruct (Rmult_integral _ _ H); [left|right]; lra. }
  assert (Z : forall t, t * t = 0 -> t = 0) by (intros; nra).
  destruct D as [D|D]; [left|right].
  - assert (Q : (w' - w) * (w' - w) + (x' - x) * (x' - x) + (y' - y) * (y' - y) + (z' - z) * (z' - z) = 0) by lra.
    destruct (four_squares _ _ _ _ Q) as (? & ? & ? & ?). f_equal; lra.
  - assert (Q : (w' + w) * (w' + w) + (x' + x) * (x' + x) + (y' + y) * (y' + y) + (z' + z) * (z' + z) = 0) by lra.
    destruct (four_squares _ _ _ _ Q) as (? & ? & ? & ?). f_equal; lra.
Qed.
