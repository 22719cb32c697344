(** C92: quaternion_rotation_align and quaternion_rotation_aim_at in IEEE arithmetic. *)
From Coq Require Import ZArith Bool List Arith Lia Reals Lra.
From Flocq Require Import Core BinarySingleNaN.
From Verif Require Import Base RInst MiscModel QuatModel QuatSpec MatModel MatSpec MatOps RotModel RotSpec RotFacts RotProofs RotQuat VecModel LUModel XfModel XfProofs MiscSpec FloatModel FloatFacts FloatNorm FloatDot PropFloat PropFloatLU FloatExpr PropFloatForm PropFloatNorm FloatRot PropFloatRot FrameFacts PropFloatFrame PropFloatTrip.
Import ListNotations.
Open Scope R_scope.

(** every rotation matrix of the reals is the matrix of a unit quaternion *)
Lemma rotation_has_quaternion (b : nat -> nat -> R) : orth b -> exists a, rsum 4 (fun k => a k * a k) = 1 /\ forall i j, (i < 3)%nat -> (j < 3)%nat -> rotation a i j = b i j.
Proof.
  intros O. set (m := Mx 3 3 row_basis b). assert (Hm : holds3 m) by (split; cbn; lia). assert (Rm : is_rotation m) by (apply orth_rotation; exact O).
  destruct (rotation_matrix_b real_first (Quat 0 0 0 0) m Hm Rm) as (q' & _ & Q). destruct (quads_unit _ _ Q) as [N B]. destruct (parts real_first q') as [w x y z].
  exists (fun k => match k with 0%nat => w | 1%nat => x | 2%nat => y | _ => z end). split.
  - unfold hnorm in N. cbn [hw hx hy hz add mul ROps] in N. cbn [rsum]. lra.
  - intros i j Hi Hj. change (b i j) with (be m i j). rewrite <- (B i j Hi Hj). unfold bquat, rotation. destruct i as [|[|[|i]]]; try lia; destruct j as [|[|[|j]]]; try lia; cbn [b3]; ring.
Qed.
Lemma aligned_rotation o a r : norm 3 a <> 0 -> norm 3 (cross3 r (direction a)) <> 0 -> orth (aligned_axes o a r).
Proof.
  intros Ha Hc. pose proof (aligned_orthogonal o a r Ha Hc) as NO. pose proof (direction_norm a Ha) as Hz. destruct (frame_facts (direction a) r Hz Hc) as (Z1 & X1 & Y1 & XY & XZ & YZ).
  set (e := direction a) in *. set (x := direction (cross3 r e)) in *. set (w := direction (cross3 e r)).
  assert (W : forall k, w k = - x k). { intros k. unfold w, x, direction. pose proof (turned_norm true r e) as N. cbn [turned] in N. rewrite N. assert (C : cross3 e r k = - cross3 r e k) by (unfold cross3; destruct k as [|[|k]]; ring). rewrite C. unfold Rdiv. ring. }
  assert (Y : forall k, cross3 w e k = cross3 e x k). { intros k. unfold cross3. rewrite !W. destruct k as [|[|k]]; ring. }
  assert (F1 : rsum 3 (fun k => cross3 w e k * cross3 w e k) = 1) by (cbn [rsum] in *; rewrite !Y; exact Y1). cbn [rsum] in F1.
  assert (F : forall k, (k < 3)%nat -> cross3 w e k = match k with 0%nat => w 1%nat * e 2%nat - w 2%nat * e 1%nat | 1%nat => w 2%nat * e 0%nat - w 0%nat * e 2%nat | _ => w 0%nat * e 1%nat - w 1%nat * e 0%nat end) by (intros k Hk; destruct k as [|[|[|k]]]; try lia; unfold cross3; reflexivity).
  pose proof (F 0%nat ltac:(lia)) as F0'. pose proof (F 1%nat ltac:(lia)) as F1'. pose proof (F 2%nat ltac:(lia)) as F2'. cbv beta iota in F0', F1', F2'.
  assert (A : forall n, aligned_axes o a r n = let '(i, j, k) := ao_name o in if Z.eqb (Z.of_nat n) i then e else if Z.eqb (Z.of_nat n) j then cross3 w e else fun t => IZR (perm_sign i j k) * w t) by reflexivity.
  set (f := cross3 w e) in *.
  assert (T : f 0%nat * (w 1%nat * e 2%nat - w 2%nat * e 1%nat) + f 1%nat * (w 2%nat * e 0%nat - w 0%nat * e 2%nat) + f 2%nat * (w 0%nat * e 1%nat - w 1%nat * e 0%nat) = 1) by (rewrite <- F0', <- F1', <- F2'; lra).
  assert (G : forall i j, (i < 3)%nat -> (j < 3)%nat -> gram 3 (aligned_axes o a r) i j = if Nat.eqb i j then 1 else 0).
  { intros i j Hi Hj. pose proof (NO i j Hi Hj) as N. apply Rabs_le_inv in N. lra. }
  unfold gram in G. cbn [rsum] in G. unfold orth.
  pose proof (G 0 0 ltac:(lia) ltac:(lia))%nat as G00. pose proof (G 1 1 ltac:(lia) ltac:(lia))%nat as G11. pose proof (G 2 2 ltac:(lia) ltac:(lia))%nat as G22. pose proof (G 0 1 ltac:(lia) ltac:(lia))%nat as G01. pose proof (G 0 2 ltac:(lia) ltac:(lia))%nat as G02. pose proof (G 1 2 ltac:(lia) ltac:(lia))%nat as G12. cbn [Nat.eqb] in *.
  repeat (split; [lra|]). clear - A T. rewrite !A. clear A. clearbody f w e.
  destruct o; cbn [ao_name Z.of_nat Pos.of_succ_nat Pos.succ Z.eqb Pos.eqb];
    try change (perm_sign 0 1 2) with 1%Z; try change (perm_sign 0 2 1) with (-1)%Z; try change (perm_sign 1 2 0) with 1%Z; try change (perm_sign 1 0 2) with (-1)%Z; try change (perm_sign 2 0 1) with 1%Z; try change (perm_sign 2 1 0) with (-1)%Z; lra.
Qed.

Section IEEE.
Context (prec emax : Z) {Hprec : Prec_gt_0 prec} {Hmax : Prec_lt_emax prec emax}.
Notation F := (binary_float prec emax).
Notation u := (u_round prec).
Notation val := (@B2R prec emax).
Notation fin x := (is_finite x = true).
Notation vals := (PropFloat.vals prec emax).
Notation wxyz := (PropFloatForm.wxyz prec emax).
Notation three := (PropFloatFrame.three prec emax).
Notation in_range := (PropFloatFrame.in_range emax).
Context (U256 : u <= / 256).

(** [q] is, up to [e] in each component, a unit quaternion whose rotation carries the named axes to [axes] *)
Definition carries_axes (o : order) (q : quat F) (e : R) (axes : nat -> nat -> R) : Prop :=
  all_fin prec emax q /\ exists a, rsum 4 (fun k => a k * a k) = 1 /\ (forall i j, (i < 3)%nat -> (j < 3)%nat -> rotation a i j = axes i j) /\
    forall k, (k < 4)%nat -> Rabs (wxyz o q k - a k) <= e.
Lemma unit_from_close (x a : nat -> R) e : rsum 4 (fun k => a k * a k) = 1 -> (forall k, (k < 4)%nat -> Rabs (x k - a k) <= e) -> e <= / 2 -> unit_within 4 (6 * e) x.
Proof.
  intros N C E. assert (E0 : 0 <= e) by (eapply Rle_trans; [apply Rabs_pos|exact (C 0%nat ltac:(lia))]).
  assert (D : norm 4 (fun k => x k - a k) <= 2 * e).
  { eapply Rle_trans; [apply (norm_le 4 _ (fun _ => e)); intros; apply C; auto|]. rewrite norm_const by auto. replace (sqrt (INR 4)) with 2; [lra|]. symmetry. replace (INR 4) with (2 * 2) by (cbn; lra). apply sqrt_square. lra. }
  assert (Na : norm 4 a = 1) by (unfold norm; rewrite N; apply sqrt_1). pose proof (norm_dist 4 x a) as ND. rewrite Na in ND. pose proof (norm_pos 4 x) as P.
  assert (X : Rabs (norm 4 x - 1) <= 2 * e) by lra. unfold unit_within. rewrite <- norm_sq. replace (norm 4 x * norm 4 x - 1) with ((norm 4 x - 1) * (norm 4 x + 1)) by ring. rewrite Rabs_mult.
  assert (Y : Rabs (norm 4 x + 1) <= 3) by (apply Rabs_le_inv in X; apply Rabs_le; lra). apply Rle_trans with (2 * e * 3); [|lra]. apply Rmult_le_compat; auto using Rabs_pos.
Qed.
Lemma from_axes (MO : MathOps F) (IM : ieee_math prec emax MO) od (q q' : quat F) (m : mx F) axes kappa : 2048 * u <= kappa -> orth axes -> quaternion_rotation_matrix od q m = Ok q' ->
  (forall n t, (n < 3)%nat -> (t < 3)%nat -> fin (be m n t) /\ Rabs (val (be m n t) - axes n t) <= 120 * (u / kappa)) ->
  carries_axes od q' (600 * (u / kappa) + 27 * u) axes /\ unit_within 4 (3600 * (u / kappa) + 162 * u) (wxyz od q').
Proof.
  intros Hk O E Hm. destruct (eight_bits prec emax U256) as (U & _). assert (K : 0 < u / kappa <= / 2048).
  { assert (0 < kappa) by lra. split; [apply Rdiv_lt_0_compat; auto|]. apply Rmult_le_reg_r with kappa; [auto|]. unfold Rdiv. rewrite Rmult_assoc, Rinv_l by lra. lra. }
  destruct (rotation_has_quaternion axes O) as (a & Na & Ra).
  destruct (quaternion_of_matrix_accuracy prec emax MO IM od q q' m a (120 * (u / kappa)) 0 U256 E) as (Fq & sign & Hs & C); [|lra| |lra|].
  - intros i j Hi Hj. rewrite (Ra i j Hi Hj). apply Hm; auto.
  - unfold unit_within. rewrite Na. rewrite Rminus_diag_eq, Rabs_R0 by auto. lra.
  - assert (C' : forall k, (k < 4)%nat -> Rabs (wxyz od q' k - sign * a k) <= 600 * (u / kappa) + 27 * u) by (intros k Hk4; eapply Rle_trans; [apply C; auto|lra]).
    assert (Na' : rsum 4 (fun k => sign * a k * (sign * a k)) = 1) by (rewrite <- Na; apply rsum_ext; intros k _; destruct Hs as [->| ->]; ring).
    split.
    + split; [exact Fq|]. exists (fun k => sign * a k). split; [exact Na'|]. split; [|exact C']. intros i j Hi Hj. rewrite <- (Ra i j Hi Hj). destruct Hs as [->| ->]; unfold rotation; destruct i as [|[|i]], j as [|[|j]]; ring.
    + replace (3600 * (u / kappa) + 162 * u) with (6 * (600 * (u / kappa) + 27 * u)) by ring. apply unit_from_close with (fun k => sign * a k); [exact Na'|exact C'|lra].
Qed.
Lemma sine_nonzero kappa (a r : nat -> R) : 0 < kappa -> in_range kappa r -> kappa * norm 3 r <= norm 3 (cross3 r (direction a)) -> norm 3 (cross3 r (direction a)) <> 0.
Proof.
  intros K [Lo _] H. pose proof (norm_pos 3 r) as P. pose proof (bpow_gt_0 radix2 (4 - emax)) as B. intros Z. rewrite Z in H.
  assert (N : norm 3 r = 0). { apply Rle_antisym; auto. apply Rmult_le_reg_l with kappa; lra. } rewrite N in Lo. lra.
Qed.

Theorem quaternion_align_accuracy : forall (MO : MathOps F), ieee_math prec emax MO -> forall od (q q' : quat F) a r (normalize : bool) o kappa, three a -> three r ->
  (if normalize then in_range 1 (vals a) else Rabs (norm 3 (vals a) - 1) <= 20 * u) ->
  in_range kappa (vals r) -> 2048 * u <= kappa -> kappa * norm 3 (vals r) <= norm 3 (cross3 (vals r) (direction (vals a))) ->
  quaternion_rotation_align od q a r normalize (ao_value o) = Ok q' ->
  carries_axes od q' (600 * (u / kappa) + 27 * u) (aligned_axes o (vals a) (vals r)) /\ unit_within 4 (3600 * (u / kappa) + 162 * u) (wxyz od q').
Proof.
  intros MO IM od q q' a r normalize o kappa Ta Tr Hn Ru Hk Hc E. unfold quaternion_rotation_align in E. apply bind_ok in E. destruct E as (m & Em & E). destruct (eight_bits prec emax U256) as (U & _).
  destruct (align_accuracy prec emax U256 MO IM _ m a r normalize o kappa Ta Tr Hn Ru ltac:(lra) Hc Em) as [Hm _]. apply (from_axes MO IM od q q' m); auto. apply aligned_rotation; [|apply sine_nonzero with kappa; auto; lra].
  destruct normalize; [destruct Hn as [Lo _]; intros Z; rewrite Z in Lo; pose proof (bpow_gt_0 radix2 (4 - emax)); lra|]. apply Rabs_le_inv in Hn. lra.
Qed.
Theorem quaternion_aim_at_accuracy : forall (MO : MathOps F), ieee_math prec emax MO -> forall od (q q' : quat F) position target r o kappa, three position -> three target -> three r ->
  let d := fun i => vals target i - vals position i in
  in_range 1 d -> in_range kappa (vals r) -> 2048 * u <= kappa -> kappa * norm 3 (vals r) <= norm 3 (cross3 (vals r) (direction d)) ->
  quaternion_rotation_aim_at od q position target r (ao_value o) = Ok q' ->
  carries_axes od q' (600 * (u / kappa) + 27 * u) (aligned_axes o d (vals r)) /\ unit_within 4 (3600 * (u / kappa) + 162 * u) (wxyz od q').
Proof.
  intros MO IM od q q' p t r o kappa Tp Tt Tr d Rd Ru Hk Hc E. unfold quaternion_rotation_aim_at in E. apply bind_ok in E. destruct E as (m & Em & E). destruct (eight_bits prec emax U256) as (U & _).
  destruct (aim_at_accuracy prec emax U256 MO IM _ m p t r o kappa Tp Tt Tr Rd Ru ltac:(lra) Hc Em) as [Hm _]. apply (from_axes MO IM od q q' m); auto. apply aligned_rotation; [|apply sine_nonzero with kappa; auto; lra].
  destruct Rd as [Lo _]. intros Z. fold d in Z, Lo. rewrite Z in Lo. pose proof (bpow_gt_0 radix2 (4 - emax)). lra.
Qed.
End IEEE.

(** ** Example in double precision: from (1, 2, 3) to (4, -2, 15) with reference y; the first named axis, z, is carried to (3, -4, 12)/13 *)
Example quaternion_aim_at_case : exists q', @quaternion_rotation_aim_at double _ turn_math real_first (Quat zero zero zero zero) ex_p ex_t ex_up (ao_value ao_zyx) = Ok q' /\
  unit_within 4 (/ 100000000) (wxyz 53 1024 real_first q').
Proof.
  assert (E : exists q', @quaternion_rotation_aim_at double _ turn_math real_first (Quat zero zero zero zero) ex_p ex_t ex_up (ao_value ao_zyx) = Ok q').
  { assert (C : match @quaternion_rotation_aim_at double _ turn_math real_first (Quat zero zero zero zero) ex_p ex_t ex_up (ao_value ao_zyx) with Ok _ => true | _ => false end = true) by (vm_compute; reflexivity).
    destruct (@quaternion_rotation_aim_at double _ turn_math real_first (Quat zero zero zero zero) ex_p ex_t ex_up (ao_value ao_zyx)) as [q'| |]; try discriminate C. exists q'. reflexivity. }
  destruct E as [q' E]. exists q'. split; [exact E|].
  destruct ex_three as (Tp & Tt & Tu). destruct ex_hyps as (H1 & H2 & H3 & H4). pose proof u53_small as U. assert (U2 : u_round 53 <= / 256) by lra.
  destruct (quaternion_aim_at_accuracy 53 1024 U2 turn_math ltac:(split; reflexivity) real_first _ q' ex_p ex_t ex_up ao_zyx (/ 2) Tp Tt Tu H1 H2 ltac:(lra) H4 E) as [_ C].
  assert (K : u_round 53 / / 2 = 2 * u_round 53) by field. rewrite K in C. unfold unit_within in *. eapply Rle_trans; [exact C|]. lra.
Qed.
Print Assumptions quaternion_align_accuracy. Print Assumptions quaternion_aim_at_accuracy.
