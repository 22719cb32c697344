(** C89: inverses of rigid transforms in IEEE arithmetic. *)
From Coq Require Import ZArith Bool List Arith Lia Reals Lra.
From Flocq Require Import Core BinarySingleNaN.
From Verif Require Import Base RInst MiscModel MatModel MatSpec MatOps RotModel RotFacts QuatModel VecModel LUModel XfModel XfProofs MiscSpec FloatModel FloatFacts FloatNorm FloatDot PropFloat PropFloatLU FloatExpr PropFloatForm PropFloatNorm FloatRot PropFloatRot FrameFacts PropFloatFrame.
Import ListNotations.
Open Scope R_scope.

(** ** Specification.  [dist3]: FrameFacts.v; [near_orthogonal]: FloatRot.v; [three]: PropFloatFrame.v *)

(** ** What the function computes *)
Section Eval.
Context {T : Type} {Op : Ops T}.
Lemma get_row_eval (m : mx T) i v : matrix_get_basis_vector m i = Ok v -> v = [be m (Z.to_nat i) 0; be m (Z.to_nat i) 1; be m (Z.to_nat i) 2].
Proof.
  intros E. unfold matrix_get_basis_vector in E. apply check_ok in E. apply bind_ok in E. destruct E as (k & Ek & E). apply ok_inj in E.
  unfold axis_index, require in Ek. destruct (_ && _)%bool; [|discriminate]. cbn [bind] in Ek. apply ok_inj in Ek. subst. reflexivity.
Qed.
Definition row3 (m : mx T) (i : nat) : list T := [be m i 0; be m i 1; be m i 2].
Lemma invert_eval (m m' : mx T) : matrix_invert_RT_only m = Ok m' ->
  (forall i j, (i < 3)%nat -> (j < 3)%nat -> be m' i j = be m j i) /\
  forall i, (i < 3)%nat -> exists q, vdot (row3 m 3) (row3 m i) = Ok q /\ be m' 3 i = neg q.
Proof.
  intros E. unfold matrix_invert_RT_only in E. apply check_ok in E.
  apply bind_ok in E. destruct E as (x & Ex & E). apply bind_ok in E. destruct E as (y & Ey & E). apply bind_ok in E. destruct E as (z & Ez & E).
  apply get_row_eval in Ex, Ey, Ez. change (Z.to_nat 0) with 0%nat in Ex. change (Z.to_nat 1) with 1%nat in Ey. change (Z.to_nat 2) with 2%nat in Ez.
  apply bind_ok in E. destruct E as (m3 & Em & E). unfold matrix_set_transposed_basis_vectors in Em. apply bind_ok in Em. destruct Em as (m1 & E1 & Em). apply bind_ok in Em. destruct Em as (m2 & E2 & E3).
  apply set_col_eval in E1, E2, E3. destruct E1 as [_ B1], E2 as [_ B2], E3 as [_ B3].
  apply bind_ok in E. destruct E as (p & Ep & E). unfold matrix_get_translation in Ep. apply check_ok, ok_inj in Ep.
  apply bind_ok in E. destruct E as (qx & Qx & E). apply bind_ok in E. destruct E as (qy & Qy & E). apply bind_ok in E. destruct E as (qz & Qz & E).
  unfold matrix_set_translation in E. apply check_ok, ok_inj in E. subst m'.
  assert (P : p = row3 m 3). { subst p. rewrite !B3, !B2, !B1, !andb_false_r. reflexivity. }
  clear Ep. subst p x y z. split.
  - intros i j Hi Hj. rewrite !be_setg. destruct (Nat.eqb_spec i 3); [lia|]. cbn [andb]. rewrite B3, B2, B1. destruct (Nat.ltb_spec i 3); [|lia]. destruct j as [|[|[|j]]]; try lia; destruct i as [|[|[|i]]]; try lia; reflexivity.
  - intros j Hj. rewrite !be_setg. destruct j as [|[|[|j]]]; try lia; cbn [Nat.eqb andb]; eauto.
Qed.
End Eval.

(** ** Real matrices *)
Definition image (x : nat -> R) (A : nat -> nat -> R) (j : nat) : R := rsum 3 (fun k => x k * A k j).
Lemma image_le x A : norm 3 (image x A) <= frob 3 A * norm 3 x.
Proof.
  eapply Rle_trans; [|apply absolute_sums]. apply norm_le. intros i Hi. unfold image. cbn [rsum]. rewrite !Rplus_0_l.
  eapply Rle_trans; [apply Rabs_triang|]. apply Rplus_le_compat; [eapply Rle_trans; [apply Rabs_triang|]; apply Rplus_le_compat|]; right; f_equal; ring.
Qed.
Lemma gram_defect d A x : near_orthogonal 3 d A -> 0 <= d -> norm 3 (fun i => image x (gram 3 A) i - x i) <= 3 * d * norm 3 x.
Proof.
  intros NO D0. set (E := fun i j => gram 3 A i j - (if Nat.eqb i j then 1 else 0)).
  rewrite (norm_ext 3 _ (image x E)). 2: { intros k Hk. unfold image, E. destruct k as [|[|[|k]]]; [..|lia]; cbn [rsum Nat.eqb]; ring. }
  eapply Rle_trans; [apply image_le|]. apply Rmult_le_compat_r; [apply norm_pos|].
  eapply Rle_trans; [apply (frob_le 3 E (fun _ _ => d)); intros; apply NO; auto|]. unfold frob. rewrite norm_const; [|apply norm_pos]. rewrite norm_const by auto. rewrite <- Rmult_assoc, sqrt_sqrt by apply pos_INR. right. cbn. ring.
Qed.

Section IEEE.
Context (prec emax : Z) {Hprec : Prec_gt_0 prec} {Hmax : Prec_lt_emax prec emax}.
Notation F := (binary_float prec emax).
Notation u := (u_round prec).
Notation eta := (eta_min prec emax).
Notation val := (@B2R prec emax).
Notation vals := (vals prec emax).
Notation fin x := (is_finite x = true).
Notation B m := (fun i j => val (be m i j)).
Context (U256 : u <= / 256).

Lemma moved_close (m : mx F) v r : transform_point m v = Ok r -> (forall i, (i < 3)%nat -> fin (el r i)) -> frob 3 (B m) <= 179 / 100 ->
  norm 3 (fun i => vals r i - (image (vals v) (B m) i + B m 3%nat i)) <= 8 * u * norm 3 (vals v) + 9 / 2 * u * norm 3 (B m 3%nat) + 6 * eta.
Proof.
  intros E Fr FA. destruct (eight_bits prec emax U256) as (U & [Et Eu] & B9 & _ & [P1 P4]). set (A := B m) in *. set (t := A 3%nat). change (fun j => val (be m 3 j)) with t.
  destruct (transform_point_accuracy prec emax m v r E) as [Lr Acc]. pose proof (norm_pos 3 (vals v)) as L0.
  apply Rle_trans with (norm 3 (fun i => ((81 / 20 * u) * rsum 3 (fun k => Rabs (A k i * vals v k)) + (81 / 20 * u) * Rabs (t i)) + 305 / 100 * eta)).
  - apply norm_le. intros i Hi. pose proof (Acc i Hi (Fr i Hi)) as N. unfold FloatExpr.near in N. unfold image. rewrite (rsum_ext 3 (fun k => vals v k * A k i) (fun k => A k i * vals v k)) by (intros; ring).
    eapply Rle_trans; [exact N|]. change (rsum 3 (fun k => Rabs (val (be m k i) * vals v k))) with (rsum 3 (fun k => Rabs (A k i * vals v k))). change (val (be m 3 i)) with (t i). set (s := rsum 3 (fun k => Rabs (A k i * vals v k))).
    assert (0 <= s) by (apply rsum_nonneg; intros; apply Rabs_pos). pose proof (Rabs_pos (t i)).
    assert (((1 + u) ^ 4 - 1) * (s + Rabs (t i)) <= 81 / 20 * u * (s + Rabs (t i))) by (apply Rmult_le_compat_r; lra).
    assert ((1 + u) ^ 4 * 3 * eta <= 305 / 100 * eta). { apply Rmult_le_compat_r; lra. } lra.
  - eapply Rle_trans; [apply norm_triangle|]. eapply Rle_trans; [apply Rplus_le_compat_r, norm_triangle|]. rewrite !norm_scal, norm_const by lra. rewrite (norm_abs 3 t), (Rabs_pos_eq (81 / 20 * u)), (Rabs_pos_eq (305 / 100)) by lra. destruct sqrt3 as [S0 S3].
    assert (AL : norm 3 (fun i => rsum 3 (fun k => Rabs (A k i * vals v k))) <= 179 / 100 * norm 3 (vals v)) by (eapply Rle_trans; [apply absolute_sums|]; apply Rmult_le_compat_r; auto).
    assert (81 / 20 * u * norm 3 (fun i => rsum 3 (fun k => Rabs (A k i * vals v k))) <= 81 / 20 * u * (179 / 100 * norm 3 (vals v))) by (apply Rmult_le_compat_l; lra).
    assert (sqrt (INR 3) * (305 / 100 * eta) <= 1733 / 1000 * (305 / 100 * eta)) by (apply Rmult_le_compat_r; lra). assert (0 <= u * norm 3 (vals v)) by (apply Rmult_le_pos; lra).
    pose proof (norm_pos 3 t). assert (0 <= u * norm 3 t) by (apply Rmult_le_pos; lra). lra.
Qed.

(** The linear part of the inverse is the transpose, to the bit; the translation is accurate, and is
    finite unless the translation of [m] is at the edge of the range. *)
Theorem invert_RT_only_accuracy : forall (m m' : mx F) d, matrix_invert_RT_only m = Ok m' -> near_orthogonal 3 d (B m) -> 0 <= d <= / 16 ->
  (forall i j, (i < 3)%nat -> (j < 3)%nat -> be m' i j = be m j i) /\
  (forall i, (i < 3)%nat -> fin (be m' 3%nat i) -> Rabs (B m' 3%nat i + rsum 3 (fun k => B m 3%nat k * B m i k)) <= 4 * u * norm 3 (B m 3%nat) + 4 * eta) /\
  ((forall i j, (i < 4)%nat -> (j < 3)%nat -> fin (be m i j)) -> 2 * norm 3 (B m 3%nat) + 4 * eta < bpow radix2 emax -> forall i, (i < 3)%nat -> fin (be m' 3%nat i)).
Proof.
  intros m m' d E NO [D0 D]. destruct (eight_bits prec emax U256) as (U & [Et Eu] & B9 & [P1 P3] & _). destruct (invert_eval m m' E) as [El Et']. split; [exact El|].
  set (t := B m 3%nat). pose proof (norm_pos 3 t) as T0.
  assert (Row : forall i, (i < 3)%nat -> norm 3 (B m i) <= 26 / 25). { intros i Hi. apply sq_le; [lra|]. pose proof (near_orthogonal_rows 3 d (B m) i NO Hi). lra. }
  assert (Sum : forall i, (i < 3)%nat -> 0 <= rsum 3 (fun k => Rabs (vals (row3 m 3) k * vals (row3 m i) k)) <= 26 / 25 * norm 3 t).
  { intros i Hi. split; [apply rsum_nonneg; intros; apply Rabs_pos|]. pose proof (cauchy 3 (fun k => Rabs (t k)) (fun k => Rabs (B m i k))) as Cy. rewrite !norm_abs in Cy.
    rewrite (rsum_ext 3 _ (fun k => Rabs (t k) * Rabs (B m i k))) by (intros k Hk; destruct k as [|[|[|k]]]; [..|lia]; apply Rabs_mult). eapply Rle_trans; [apply Rle_abs|]. eapply Rle_trans; [exact Cy|]. rewrite (Rmult_comm (26 / 25)). apply Rmult_le_compat_l; auto. }
  split.
  - intros i Hi Fi. destruct (Et' i Hi) as (q & Q & Bq). rewrite Bq in *. rewrite (fin_neg prec emax) in Fi. destruct (dot_accuracy prec emax _ _ q Q Fi) as [_ A]. unfold accurate in A. change (length (row3 m 3)) with 3%nat in A. replace (INR 3) with 3 in A by (cbn; lra).
    rewrite (val_neg prec emax). rewrite (rsum_ext 3 _ (fun k => vals (row3 m 3) k * vals (row3 m i) k)) by (intros k Hk; destruct k as [|[|[|k]]]; [..|lia]; reflexivity).
    destruct (Sum i Hi) as [S0 S1]. set (S := rsum 3 (fun k => Rabs (vals (row3 m 3) k * vals (row3 m i) k))) in *. set (X := rsum 3 (fun k => vals (row3 m 3) k * vals (row3 m i) k)) in *.
    replace (- val q + X) with (- (val q - X)) by ring. rewrite Rabs_Ropp. eapply Rle_trans; [exact A|].
    assert (((1 + u) ^ 3 - 1) * S <= 151 / 50 * u * (26 / 25 * norm 3 t)) by (apply Rmult_le_compat; lra). assert (3 * (1 + u) ^ 3 * eta <= 4 * eta) by (apply Rmult_le_compat_r; lra).
    assert (0 <= u * norm 3 t) by (apply Rmult_le_pos; lra). lra.
  - intros Fm Fit i Hi. destruct (Et' i Hi) as (q & Q & Bq). rewrite Bq. rewrite (fin_neg prec emax).
    destruct (dot_no_overflow prec emax (row3 m 3) (row3 m i)) as (q' & Q' & Fq); [discriminate|reflexivity| | |].
    + intros x [Hx|Hx]; cbn in Hx; destruct Hx as [<-|[<-|[<-|[]]]]; apply Fm; lia.
    + unfold fits. change (length (row3 m 3)) with 3%nat. replace (INR 3) with 3 by (cbn; lra). eapply Rle_lt_trans; [|exact Fit]. destruct (Sum i Hi) as [S0 S1].
      assert ((1 + u) ^ 3 * rsum 3 (fun k => Rabs (vals (row3 m 3) k * vals (row3 m i) k)) <= (1 + 151 / 50 * / 256) * (26 / 25 * norm 3 t)) by (apply Rmult_le_compat; lra).
      assert (3 * (1 + u) ^ 3 * eta <= 4 * eta) by (apply Rmult_le_compat_r; lra). fold t. lra.
    + rewrite Q in Q'. apply ok_inj in Q'. subst q'. exact Fq.
Qed.

Lemma inverse_parts (m m' : mx F) d : matrix_invert_RT_only m = Ok m' -> near_orthogonal 3 d (B m) -> 0 <= d <= / 16 -> (forall i, (i < 3)%nat -> fin (be m' 3%nat i)) ->
  let At := fun i j => B m j i in let t := B m 3%nat in
  frob 3 (B m) <= 179 / 100 /\ frob 3 (B m') <= 179 / 100 /\ frob 3 At <= 179 / 100 /\ (forall x i, (i < 3)%nat -> image x (B m') i = image x At i) /\
  norm 3 (fun i => B m' 3%nat i + image t At i) <= 7 * u * norm 3 t + 7 * eta /\ norm 3 (B m' 3%nat) <= 182 / 100 * norm 3 t + 7 * eta.
Proof.
  intros E NO D Ft At t. destruct (eight_bits prec emax U256) as (U & [Et Eu] & _). destruct (invert_RT_only_accuracy m m' d E NO D) as (El & Er & _). pose proof (norm_pos 3 t) as T0. assert (UT : 0 <= u * norm 3 t) by (apply Rmult_le_pos; lra).
  assert (FA : frob 3 (B m) <= 179 / 100) by (apply (columns_frob d); tauto). assert (Ft' : frob 3 At <= 179 / 100) by (unfold At; rewrite frob_transpose; auto).
  split; [auto|]. split; [|split; [auto|]]. { rewrite (frob_ext 3 _ At); [auto|]. intros i j Hi Hj. unfold At. rewrite El by auto. reflexivity. }
  split. { intros x i Hi. unfold image. apply rsum_ext. intros k Hk. unfold At. rewrite El by auto. reflexivity. }
  assert (Dt : norm 3 (fun i => B m' 3%nat i + image t At i) <= 7 * u * norm 3 t + 7 * eta).
  { apply Rle_trans with (norm 3 (fun _ => 4 * u * norm 3 t + 4 * eta)).
    - apply norm_le. intros i Hi. apply (Er i Hi (Ft i Hi)).
    - rewrite norm_const by lra. destruct sqrt3 as [S0 S3]. assert (sqrt (INR 3) * (4 * u * norm 3 t + 4 * eta) <= 1733 / 1000 * (4 * u * norm 3 t + 4 * eta)) by (apply Rmult_le_compat_r; lra). lra. }
  split; [auto|]. pose proof (image_le t At) as I. assert (frob 3 At * norm 3 t <= 179 / 100 * norm 3 t) by (apply Rmult_le_compat_r; auto).
  rewrite (norm_ext 3 (B m' 3%nat) (fun i => (B m' 3%nat i + image t At i) + (-1) * image t At i)) by (intros; ring). eapply Rle_trans; [apply norm_triangle|]. rewrite norm_scal. replace (Rabs (-1)) with 1 by (rewrite Rabs_left; lra).
  assert (u * norm 3 t <= / 256 * norm 3 t) by (apply Rmult_le_compat_r; lra). lra.
Qed.

(** Moving a point and moving it back. *)
Theorem rigid_round_trip : forall (m m' : mx F) p q r d, matrix_invert_RT_only m = Ok m' -> near_orthogonal 3 d (B m) -> 0 <= d <= / 16 ->
  transform_point m p = Ok q -> transform_point m' q = Ok r -> (forall i, (i < 3)%nat -> fin (el q i) /\ fin (el r i) /\ fin (be m' 3%nat i)) ->
  dist3 (vals r) (vals p) <= (3 * d + 50 * u) * (norm 3 (vals p) + norm 3 (B m 3%nat)) + 32 * eta.
Proof.
  intros m m' p q r d E NO D Eq Er Fin. destruct (eight_bits prec emax U256) as (U & [Et Eu] & _).
  destruct (inverse_parts m m' d E NO D (fun i Hi => proj2 (proj2 (Fin i Hi)))) as (FA & FA' & FT & Im & Dt & Nt). cbv zeta in *. set (At := fun i j => B m j i) in *. set (t := B m 3%nat) in *. set (t' := B m' 3%nat) in *. change (norm 3 (fun i => t' i + image t At i) <= 7 * u * norm 3 t + 7 * eta) in Dt.
  pose proof (moved_close m p q Eq (fun i Hi => proj1 (Fin i Hi)) FA) as M1. pose proof (moved_close m' q r Er (fun i Hi => proj1 (proj2 (Fin i Hi))) FA') as M2. fold t in M1. fold t' in M2.
  set (e1 := fun i => vals q i - (image (vals p) (B m) i + t i)) in *.
  pose proof (norm_pos 3 (vals p)) as P0. pose proof (norm_pos 3 t) as T0. pose proof (norm_pos 3 (vals q)) as Q0. pose proof (norm_pos 3 t') as T0'.
  assert (UP : 0 <= u * norm 3 (vals p)) by (apply Rmult_le_pos; lra). assert (UT : 0 <= u * norm 3 t) by (apply Rmult_le_pos; lra).
  assert (Up : u * norm 3 (vals p) <= / 256 * norm 3 (vals p)) by (apply Rmult_le_compat_r; lra). assert (Ut : u * norm 3 t <= / 256 * norm 3 t) by (apply Rmult_le_compat_r; lra).
  assert (UE : 0 <= u * eta <= / 256 * eta) by (split; [apply Rmult_le_pos; lra|apply Rmult_le_compat_r; lra]).
  assert (Nq : norm 3 (vals q) <= 183 / 100 * norm 3 (vals p) + 102 / 100 * norm 3 t + 6 * eta).
  { rewrite (norm_ext 3 (vals q) (fun i => (e1 i + image (vals p) (B m) i) + t i)) by (intros; unfold e1; ring). eapply Rle_trans; [apply norm_triangle|]. eapply Rle_trans; [apply Rplus_le_compat_r, norm_triangle|].
    pose proof (image_le (vals p) (B m)) as I. assert (frob 3 (B m) * norm 3 (vals p) <= 179 / 100 * norm 3 (vals p)) by (apply Rmult_le_compat_r; auto). lra. }
  assert (Uq : u * norm 3 (vals q) <= u * (183 / 100 * norm 3 (vals p) + 102 / 100 * norm 3 t + 6 * eta)) by (apply Rmult_le_compat_l; lra).
  assert (Ut' : u * norm 3 t' <= u * (182 / 100 * norm 3 t + 7 * eta)) by (apply Rmult_le_compat_l; lra).
  pose proof (gram_defect d (B m) (vals p) NO (proj1 D)) as G. pose proof (image_le e1 At) as I1. assert (frob 3 At * norm 3 e1 <= 179 / 100 * norm 3 e1) by (apply Rmult_le_compat_r; auto using norm_pos).
  unfold dist3. rewrite (norm_ext 3 _ (fun i => ((vals r i - (image (vals q) (B m') i + t' i)) + (t' i + image t At i)) + (image e1 At i + (image (vals p) (gram 3 (B m)) i - vals p i)))).
  2: { intros i Hi. rewrite Im by auto. unfold e1, image, gram, At. cbn [rsum]. ring. }
  eapply Rle_trans; [apply norm_triangle|]. eapply Rle_trans; [apply Rplus_le_compat; apply norm_triangle|].
  assert (0 <= d * norm 3 t) by (apply Rmult_le_pos; tauto). lra.
Qed.

(** The other order: first the inverse, then [m].  Here the columns of [m] are what has to be orthonormal. *)
Theorem rigid_round_trip_back : forall (m m' : mx F) p q r d, matrix_invert_RT_only m = Ok m' -> near_orthogonal 3 d (B m) -> near_orthogonal 3 d (fun i j => B m j i) -> 0 <= d <= / 16 ->
  transform_point m' p = Ok q -> transform_point m q = Ok r -> (forall i, (i < 3)%nat -> fin (el q i) /\ fin (el r i) /\ fin (be m' 3%nat i)) ->
  dist3 (vals r) (vals p) <= (3 * d + 50 * u) * (norm 3 (vals p) + norm 3 (B m 3%nat)) + 32 * eta.
Proof.
  intros m m' p q r d E NO NOt D Eq Er Fin. destruct (eight_bits prec emax U256) as (U & [Et Eu] & _).
  destruct (inverse_parts m m' d E NO D (fun i Hi => proj2 (proj2 (Fin i Hi)))) as (FA & FA' & FT & Im & Dt & Nt). cbv zeta in *. set (At := fun i j => B m j i) in *. set (t := B m 3%nat) in *. set (t' := B m' 3%nat) in *. change (norm 3 (fun i => t' i + image t At i) <= 7 * u * norm 3 t + 7 * eta) in Dt.
  pose proof (moved_close m' p q Eq (fun i Hi => proj1 (Fin i Hi)) FA') as M1. pose proof (moved_close m q r Er (fun i Hi => proj1 (proj2 (Fin i Hi))) FA) as M2. fold t' in M1. fold t in M2.
  set (e1 := fun i => vals q i - (image (vals p) (B m') i + t' i)) in *. set (e2 := fun i => t' i + image t At i) in *.
  pose proof (norm_pos 3 (vals p)) as P0. pose proof (norm_pos 3 t) as T0. pose proof (norm_pos 3 (vals q)) as Q0. pose proof (norm_pos 3 t') as T0'.
  assert (UP : 0 <= u * norm 3 (vals p)) by (apply Rmult_le_pos; lra). assert (UT : 0 <= u * norm 3 t) by (apply Rmult_le_pos; lra).
  assert (Up : u * norm 3 (vals p) <= / 256 * norm 3 (vals p)) by (apply Rmult_le_compat_r; lra). assert (Ut : u * norm 3 t <= / 256 * norm 3 t) by (apply Rmult_le_compat_r; lra).
  assert (UE : 0 <= u * eta <= / 256 * eta) by (split; [apply Rmult_le_pos; lra|apply Rmult_le_compat_r; lra]).
  assert (Ut' : u * norm 3 t' <= u * (182 / 100 * norm 3 t + 7 * eta)) by (apply Rmult_le_compat_l; lra).
  assert (Nq : norm 3 (vals q) <= 183 / 100 * norm 3 (vals p) + 186 / 100 * norm 3 t + 14 * eta).
  { rewrite (norm_ext 3 (vals q) (fun i => (e1 i + image (vals p) (B m') i) + t' i)) by (intros; unfold e1; ring). eapply Rle_trans; [apply norm_triangle|]. eapply Rle_trans; [apply Rplus_le_compat_r, norm_triangle|].
    pose proof (image_le (vals p) (B m')) as I. assert (frob 3 (B m') * norm 3 (vals p) <= 179 / 100 * norm 3 (vals p)) by (apply Rmult_le_compat_r; auto). lra. }
  assert (Uq : u * norm 3 (vals q) <= u * (183 / 100 * norm 3 (vals p) + 186 / 100 * norm 3 t + 14 * eta)) by (apply Rmult_le_compat_l; lra).
  pose proof (gram_defect d At (vals p) NOt (proj1 D)) as G. pose proof (gram_defect d At t NOt (proj1 D)) as Gt.
  pose proof (image_le e1 (B m)) as I1. assert (frob 3 (B m) * norm 3 e1 <= 179 / 100 * norm 3 e1) by (apply Rmult_le_compat_r; auto using norm_pos).
  pose proof (image_le e2 (B m)) as I2. assert (frob 3 (B m) * norm 3 e2 <= 179 / 100 * norm 3 e2) by (apply Rmult_le_compat_r; auto using norm_pos).
  unfold dist3. rewrite (norm_ext 3 _ (fun i => ((vals r i - (image (vals q) (B m) i + t i)) + (-1) * (image t (gram 3 At) i - t i)) + ((image e1 (B m) i + image e2 (B m) i) + (image (vals p) (gram 3 At) i - vals p i)))).
  2: { intros i Hi. unfold image at 3. unfold e1, e2. cbn [rsum]. rewrite !Im by lia. unfold image, gram, At. cbn [rsum]. ring. }
  eapply Rle_trans; [apply norm_triangle|]. eapply Rle_trans; [apply Rplus_le_compat; apply norm_triangle|]. rewrite norm_scal. replace (Rabs (-1)) with 1 by (rewrite Rabs_left; lra).
  assert (T2 : norm 3 (fun i => image e1 (B m) i + image e2 (B m) i) <= norm 3 (image e1 (B m)) + norm 3 (image e2 (B m))) by apply norm_triangle. lra.
Qed.
End IEEE.

(** ** Example in double precision: a quarter turn about z and a translation by (1, 2, 3), on the point (4, -2, 15) *)
Definition ex_rt : mx double := Mx 4 4 row_basis (fun i j => match i, j with 0%nat, 1%nat => dbl 1 0 | 1%nat, 0%nat => dbl (-1) 0 | 2%nat, 2%nat => dbl 1 0 | 3%nat, 0%nat => dbl 1 0 | 3%nat, 1%nat => dbl 2 0 | 3%nat, 2%nat => dbl 3 0 | 3%nat, 3%nat => dbl 1 0 | _, _ => dbl 0 0 end).
Lemma ex_rt_val i j : (i < 3)%nat -> (j < 3)%nat -> B2R (be ex_rt i j) = match i, j with 0%nat, 1%nat => 1 | 1%nat, 0%nat => -1 | 2%nat, 2%nat => 1 | _, _ => 0 end.
Proof. intros Hi Hj. destruct i as [|[|[|i]]], j as [|[|[|j]]]; try lia; cbn [be mbasis mel ex_rt]; rewrite (fun m e A B => proj2 (dbl_ok m e A B)) by lia; cbn; ring. Qed.
Example rigid_round_trip_case : exists m' q r, matrix_invert_RT_only ex_rt = Ok m' /\ transform_point ex_rt ex_t = Ok q /\ transform_point m' q = Ok r /\ near_orthogonal 3 0 (fun i j => B2R (be ex_rt i j)) /\ near_orthogonal 3 0 (fun i j => B2R (be ex_rt j i)) /\ (forall i, (i < 3)%nat -> is_finite (el q i) = true /\ is_finite (el r i) = true /\ is_finite (be m' 3%nat i) = true).
Proof.
  assert (E : exists m', matrix_invert_RT_only ex_rt = Ok m') by (eexists; reflexivity). destruct E as [m' E].
  assert (Eq : exists q, transform_point ex_rt ex_t = Ok q) by (eexists; reflexivity). destruct Eq as [q Eq].
  assert (Er : exists r, transform_point m' q = Ok r). { apply ok_inj in E. apply ok_inj in Eq. subst m' q. eexists. reflexivity. }
  destruct Er as [r Er]. exists m', q, r. split; [auto|]. split; [auto|]. split; [auto|]. split; [|split].
  - intros i j Hi Hj. unfold gram. rewrite (rsum_ext 3 _ (fun k => match i, k with 0%nat, 1%nat => 1 | 1%nat, 0%nat => -1 | 2%nat, 2%nat => 1 | _, _ => 0 end * match j, k with 0%nat, 1%nat => 1 | 1%nat, 0%nat => -1 | 2%nat, 2%nat => 1 | _, _ => 0 end)) by (intros k Hk; rewrite !ex_rt_val by auto; reflexivity).
    destruct i as [|[|[|i]]], j as [|[|[|j]]]; try lia; cbn [rsum Nat.eqb]; match goal with |- Rabs ?x <= 0 => replace x with 0 by ring end; rewrite Rabs_R0; lra.
  - intros i j Hi Hj. unfold gram. rewrite (rsum_ext 3 _ (fun k => match k, i with 0%nat, 1%nat => 1 | 1%nat, 0%nat => -1 | 2%nat, 2%nat => 1 | _, _ => 0 end * match k, j with 0%nat, 1%nat => 1 | 1%nat, 0%nat => -1 | 2%nat, 2%nat => 1 | _, _ => 0 end)) by (intros k Hk; rewrite !ex_rt_val by auto; reflexivity).
    destruct i as [|[|[|i]]], j as [|[|[|j]]]; try lia; cbn [rsum Nat.eqb]; match goal with |- Rabs ?x <= 0 => replace x with 0 by ring end; rewrite Rabs_R0; lra.
  - assert (C : match matrix_invert_RT_only ex_rt with Ok m => match transform_point ex_rt ex_t with Ok q => match transform_point m q with Ok r => forallb (fun i => is_finite (el q i) && is_finite (el r i) && is_finite (be m 3%nat i))%bool [0%nat; 1%nat; 2%nat] | _ => false end | _ => false end | _ => false end = true) by (vm_compute; reflexivity).
    rewrite E, Eq, Er in C. rewrite forallb_forall in C. intros i Hi. assert (Ii : In i [0%nat; 1%nat; 2%nat]) by (destruct i as [|[|[|i]]]; cbn; auto; lia). specialize (C i Ii). apply andb_prop in C. destruct C as [C C3]. apply andb_prop in C. tauto.
Qed.
Print Assumptions invert_RT_only_accuracy. Print Assumptions rigid_round_trip. Print Assumptions rigid_round_trip_back.
