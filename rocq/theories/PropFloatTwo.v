(** C96: rotations, frames and inverses of the plane in IEEE arithmetic. *)
From Coq Require Import ZArith Bool List Arith Lia Reals Lra.
From Flocq Require Import Core BinarySingleNaN.
From Verif Require Import Base RInst ScalarModel MiscModel VecModel RotModel XfModel XfProofs GeoModel MatModel MatOps FloatModel FloatFacts FloatNorm FloatDot PropFloat PropFloatLU FloatExpr PropFloatForm PropFloatNorm FloatRot PropFloatRot FloatScalar FrameFacts PropFloatFrame PropFloatPlanes PropFloatTurn PropFloatRigid PropFloatAngle.
Import ListNotations.
Open Scope R_scope.

(** ** What the functions compute *)
Section Eval.
Context {T : Type} {Op : Ops T} {MO : MathOps T}.
Lemma rotation_2D_eval (m m' : mx T) angle : matrix_rotation_2D m angle = Ok m' ->
  be m' 0 0 = mcos angle /\ be m' 0 1 = msin angle /\ be m' 1 0 = neg (msin angle) /\ be m' 1 1 = mcos angle.
Proof. intros E. unfold matrix_rotation_2D in E. apply check_ok, ok_inj in E. subst m'. rewrite !be_setg. repeat split; reflexivity. Qed.
Lemma basis_2D_eval align b (ord : axis_order) x y : ord = ao_xyz \/ ord = ao_yxz -> vorthonormal_basis_2D align b (ao_value ord) = Ok (x, y) ->
  exists a, (if b then vnormalize align else Ok align) = Ok a /\ length align = 2%nat /\
  ((ord = ao_xyz /\ x = a /\ y = [neg (el a 1); el a 0]) \/ (ord = ao_yxz /\ y = a /\ x = [neg (neg (el a 1)); neg (el a 0)])).
Proof.
  intros O E. unfold vorthonormal_basis_2D in E. destruct O as [-> | ->]; (destruct (unpack_axis2D _) as [[i j] odd] eqn:U; vm_compute in U; injection U as <- <- <-); cbv beta iota zeta in E;
    apply bind_ok in E; destruct E as (a1 & E1 & E); apply bind_ok in E; destruct E as (a2 & E2 & E); apply bind_ok in E; destruct E as (p & E3 & E); unfold to_fixed, require in E1; destruct (Nat.eqb_spec (length align) 2) as [L|]; try discriminate; cbn [bind] in E1; apply ok_inj in E1; subst a1;
    (exists a2; split; [exact E2|]; split; [exact L|]); unfold vperp in E3; apply check_ok, ok_inj in E3; subst p; cbn -[vneg] in E; apply ok_inj in E; injection E as <- <-; [left|right]; repeat split; reflexivity.
Qed.
Lemma align_2D_eval (m m' : mx T) align b ord : matrix_rotation_align_2D m align b ord = Ok m' -> exists x y, vorthonormal_basis_2D align b ord = Ok (x, y) /\
  forall j, (j < 2)%nat -> be m' 0 j = el x j /\ be m' 1 j = el y j.
Proof.
  intros E. unfold matrix_rotation_align_2D in E. apply check_ok in E. apply bind_ok in E. destruct E as ([x y] & E1 & E). exists x, y. split; [exact E1|].
  unfold matrix_set_basis_vectors_2D in E. apply bind_ok in E. destruct E as (m1 & Em & E). unfold matrix_set_basis_vector_2D in Em, E. apply check_ok, check_ok in Em, E. cbn in Em, E. apply ok_inj in Em. apply ok_inj in E. subst m' m1.
  intros j Hj. rewrite !be_setg. destruct j as [|[|j]]; [..|lia]; split; reflexivity.
Qed.
Definition row2 (m : mx T) (i : nat) : list T := [be m i 0; be m i 1].
Lemma invert_2D_eval (m m' : mx T) : matrix_invert_RT_only_2D m = Ok m' ->
  (forall i j, (i < 2)%nat -> (j < 2)%nat -> be m' i j = be m j i) /\
  forall i, (i < 2)%nat -> exists q, vdot (row2 m 2) (row2 m i) = Ok q /\ be m' 2 i = neg q.
Proof.
  intros E. unfold matrix_invert_RT_only_2D in E. apply check_ok in E. apply bind_ok in E. destruct E as (x & Ex & E). apply bind_ok in E. destruct E as (y & Ey & E). apply bind_ok in E. destruct E as (m1 & E1 & E). apply bind_ok in E. destruct E as (p & Ep & E). apply bind_ok in E. destruct E as (px & Px & E). apply bind_ok in E. destruct E as (py & Py & E).
  unfold matrix_get_basis_vector_2D in Ex, Ey. apply check_ok in Ex, Ey. cbn in Ex, Ey. apply ok_inj in Ex. apply ok_inj in Ey. subst x y.
  unfold matrix_set_transposed_basis_vectors_2D in E1. apply bind_ok in E1. destruct E1 as (m0 & E0 & E1). unfold matrix_set_transposed_basis_vector_2D in E0, E1. apply check_ok, check_ok in E0, E1. cbn in E0, E1. apply ok_inj in E0. apply ok_inj in E1. subst m0.
  unfold matrix_get_translation_2D in Ep. apply check_ok, ok_inj in Ep. unfold matrix_set_translation_2D in E. apply check_ok, ok_inj in E. subst p m' m1. rewrite !be_setg in Px, Py. cbn [Nat.eqb andb] in Px, Py.
  split; [intros i j Hi Hj; destruct i as [|[|i]]; try lia; destruct j as [|[|j]]; try lia; rewrite !be_setg; reflexivity|].
  intros i Hi. destruct i as [|[|i]]; [..|lia]; [exists px; split; [exact Px|]|exists py; split; [exact Py|]]; rewrite !be_setg; reflexivity.
Qed.
End Eval.

Section IEEE.
Context (prec emax : Z) {Hprec : Prec_gt_0 prec} {Hmax : Prec_lt_emax prec emax}.
Notation F := (binary_float prec emax).
Notation u := (u_round prec).
Notation eta := (eta_min prec emax).
Notation val := (@B2R prec emax).
Notation fin x := (is_finite x = true).
Notation vals := (PropFloat.vals prec emax).
Notation near := (FloatExpr.near prec emax).
Notation two := (PropFloatAngle.two prec emax).
Notation B m := (fun i j => val (be m i j)).

(** ** Rotation by an angle: the rows are exactly perpendicular and exactly as long as (cos, sin) as returned by the math library *)
Theorem rotation_2D_exact : forall (MO : MathOps F) (m m' : mx F) angle, matrix_rotation_2D m angle = Ok m' ->
  let c := val (mcos angle) in let s := val (msin angle) in
  (forall i j, (i < 2)%nat -> (j < 2)%nat -> B m' i j = match i, j with 0%nat, 0%nat => c | 0%nat, _ => s | _, 0%nat => - s | _, _ => c end) /\
  (forall i j, (i < 2)%nat -> (j < 2)%nat -> gram 2 (B m') i j = if Nat.eqb i j then c * c + s * s else 0) /\
  forall d, Rabs (c * c + s * s - 1) <= d -> near_orthogonal 2 d (B m').
Proof.
  intros MO m m' angle E c s. destruct (rotation_2D_eval m m' angle E) as (E0 & E1 & E2 & E3).
  assert (G0 : forall i j, (i < 2)%nat -> (j < 2)%nat -> B m' i j = match i, j with 0%nat, 0%nat => c | 0%nat, _ => s | _, 0%nat => - s | _, _ => c end).
  { intros i j Hi Hj. destruct i as [|[|i]]; try lia; destruct j as [|[|j]]; try lia; cbv beta; rewrite ?E0, ?E1, ?E2, ?E3; auto. apply val_neg. }
  split; [exact G0|]. assert (G1 : forall i j, (i < 2)%nat -> (j < 2)%nat -> gram 2 (B m') i j = if Nat.eqb i j then c * c + s * s else 0).
  { intros i j Hi Hj. unfold gram. cbn [rsum]. rewrite (G0 i 0%nat), (G0 i 1%nat), (G0 j 0%nat), (G0 j 1%nat) by lia. destruct i as [|[|i]]; try lia; destruct j as [|[|j]]; try lia; cbn [Nat.eqb]; ring. }
  split; [exact G1|]. intros d D i j Hi Hj. rewrite G1 by auto. destruct (Nat.eqb i j); [exact D|]. rewrite Rminus_0_r, Rabs_R0. eapply Rle_trans; [apply Rabs_pos|exact D].
Qed.

(** ** Transforming vectors and points of the plane *)
Theorem transform_vector_2D_accuracy : forall (m : mx F) v r, transform_vector_2D m v = Ok r -> length r = 2%nat /\ forall i, (i < 2)%nat -> fin (el r i) ->
  near 2 (rsum 2 (fun k => Rabs (B m k i * vals v k))) 2 (vals r i) (rsum 2 (fun k => B m k i * vals v k)).
Proof.
  intros m v r E. unfold transform_vector_2D in E. apply check_ok, check_ok, ok_inj in E. subst r. split; [reflexivity|]. intros i Hi.
  destruct i as [|[|i]]; [..|lia]; cbn [el nth]; intros H.
  - eapply (by_formula prec emax (env_mv prec emax m v) (FAdd (FMul (FVar 0) (FVar 16)) (FMul (FVar 4) (FVar 17)))); auto; cbn; try tauto; try reflexivity; rewrite ?Rabs_mult; unfold PropFloat.vals, el; ring.
  - eapply (by_formula prec emax (env_mv prec emax m v) (FAdd (FMul (FVar 1) (FVar 16)) (FMul (FVar 5) (FVar 17)))); auto; cbn; try tauto; try reflexivity; rewrite ?Rabs_mult; unfold PropFloat.vals, el; ring.
Qed.
Theorem transform_point_2D_accuracy : forall (m : mx F) v r, transform_point_2D m v = Ok r -> length r = 2%nat /\ forall i, (i < 2)%nat -> fin (el r i) ->
  near 3 (rsum 2 (fun k => Rabs (B m k i * vals v k)) + Rabs (B m 2%nat i)) 2 (vals r i) (rsum 2 (fun k => B m k i * vals v k) + B m 2%nat i).
Proof.
  intros m v r E. unfold transform_point_2D in E. apply check_ok, check_ok, ok_inj in E. subst r. split; [reflexivity|]. intros i Hi.
  destruct i as [|[|i]]; [..|lia]; cbn [el nth]; intros H.
  - eapply (by_formula prec emax (env_mv prec emax m v) (FAdd (FAdd (FMul (FVar 0) (FVar 16)) (FMul (FVar 4) (FVar 17))) (FVar 8))); auto; cbn; try tauto; try reflexivity; rewrite ?Rabs_mult; unfold PropFloat.vals, el; ring.
  - eapply (by_formula prec emax (env_mv prec emax m v) (FAdd (FAdd (FMul (FVar 1) (FVar 16)) (FMul (FVar 5) (FVar 17))) (FVar 9))); auto; cbn; try tauto; try reflexivity; rewrite ?Rabs_mult; unfold PropFloat.vals, el; ring.
Qed.
Context (U256 : u <= / 256).
(** a rotated vector keeps its length *)
Theorem rotated_2D_length : forall (MO : MathOps F) (m m' : mx F) angle v r d, matrix_rotation_2D m angle = Ok m' -> transform_vector_2D m' v = Ok r -> (forall i, (i < 2)%nat -> fin (el r i)) ->
  let c := val (mcos angle) in let s := val (msin angle) in Rabs (c * c + s * s - 1) <= d -> d <= / 8 ->
  Rabs (norm 2 (vals r) - norm 2 (vals v)) <= (2 * d + 4 * u) * norm 2 (vals v) + 4 * eta.
Proof.
  intros MO m m' angle v r d E Er Fr c s Hd D8. destruct (eight_bits prec emax U256) as (U & [Et Eu] & _). assert (D0 : 0 <= d) by (eapply Rle_trans; [apply Rabs_pos|exact Hd]).
  destruct (rotation_2D_exact MO m m' angle E) as (G0 & _ & NO). specialize (NO d Hd). pose proof (almost_isometry 2 d (B m') (vals v) NO D0) as AI. replace (INR 2) with 2 in AI by (cbn; lra).
  destruct (transform_vector_2D_accuracy m' v r Er) as [_ A]. set (n := norm 2 (vals v)) in *. assert (N0 : 0 <= n) by apply norm_pos.
  set (e := fun j => rsum 2 (fun k => vals v k * B m' k j)) in *. set (w := fun i => rsum 2 (fun k => Rabs (B m' k i * vals v k))).
  assert (U2 : 0 <= u * u <= / 256 * u) by (split; [apply sq_pos|apply Rmult_le_compat_r; lra]). assert (Q2 : 1 <= (1 + u) ^ 2 <= 1 + 201 / 100 * u) by (cbn; split; lra).
  assert (Dw : forall i, (i < 2)%nat -> Rabs (vals r i - e i) <= 201 / 100 * u * w i + 203 / 100 * eta).
  { intros i Hi. pose proof (A i Hi (Fr i Hi)) as X. unfold FloatExpr.near in X. replace (e i) with (rsum 2 (fun k => B m' k i * vals v k)) by (unfold e; apply rsum_ext; intros; ring). eapply Rle_trans; [exact X|].
    assert (W0 : 0 <= w i) by (apply rsum_nonneg; intros; apply Rabs_pos). assert (((1 + u) ^ 2 - 1) * w i <= 201 / 100 * u * w i) by (apply Rmult_le_compat_r; lra). assert ((1 + u) ^ 2 * 2 * eta <= 203 / 100 * eta) by (apply Rmult_le_compat_r; lra). unfold w in *. lra. }
  assert (CS : c * c + s * s <= 9 / 8) by (apply Rabs_le_inv in Hd; lra).
  assert (Wn : norm 2 w <= 3 / 2 * n).
  { assert (W2 : norm 2 w * norm 2 w <= 9 / 4 * (n * n)).
    { rewrite norm_sq. unfold n. rewrite norm_sq. unfold w. cbn [rsum]. rewrite !G0 by lia. rewrite !Rabs_mult, !Rabs_Ropp. fold c s. set (a := Rabs (vals v 0%nat)). set (b := Rabs (vals v 1%nat)). set (p := Rabs c). set (q := Rabs s).
      assert (SQ : forall x, Rabs x * Rabs x = x * x) by (intros x; rewrite <- Rabs_mult; apply Rabs_pos_eq, sq_pos). rewrite <- (SQ (vals v 0%nat)), <- (SQ (vals v 1%nat)). fold a b. assert (PQ : p * p + q * q <= 9 / 8) by (unfold p, q; rewrite !SQ; exact CS).
      pose proof (sq_pos (p * a - q * b)). pose proof (sq_pos (q * a - p * b)). assert (X : (p * p + q * q) * (a * a + b * b) <= 9 / 8 * (a * a + b * b)) by (apply Rmult_le_compat_r; [pose proof (sq_pos a); pose proof (sq_pos b); lra|exact PQ]).
      replace ((0 + p * a + q * b) * (0 + p * a + q * b)) with (2 * (p * p * (a * a)) + 2 * (q * q * (b * b)) - (p * a - q * b) * (p * a - q * b)) by ring. replace ((0 + q * a + p * b) * (0 + q * a + p * b)) with (2 * (q * q * (a * a)) + 2 * (p * p * (b * b)) - (q * a - p * b) * (q * a - p * b)) by ring. lra. }
    apply sq_le; [lra|]. lra. }
  assert (Dn : norm 2 (fun i => vals r i - e i) <= 201 / 100 * u * (3 / 2 * n) + 3 * eta).
  { eapply Rle_trans; [apply (norm_le 2 _ (fun i => 201 / 100 * u * w i + 203 / 100 * eta)); exact Dw|]. eapply Rle_trans; [apply norm_triangle|]. rewrite norm_scal, norm_const, Rabs_pos_eq by lra.
    assert (S2 : 0 <= sqrt (INR 2) <= 147 / 100) by (split; [apply sqrt_pos|]; replace (INR 2) with 2 by (cbn; lra); apply sq_le; [lra|]; rewrite sqrt_sqrt; lra). assert (sqrt (INR 2) * (203 / 100 * eta) <= 147 / 100 * (203 / 100 * eta)) by (apply Rmult_le_compat_r; lra). assert (201 / 100 * u * norm 2 w <= 201 / 100 * u * (3 / 2 * n)) by (apply Rmult_le_compat_l; lra). lra. }
  pose proof (norm_dist 2 (vals r) e) as ND. assert (UN : 0 <= u * n) by (apply Rmult_le_pos; lra). replace (norm 2 (vals r) - n) with ((norm 2 (vals r) - norm 2 e) + (norm 2 e - n)) by ring. eapply Rle_trans; [apply Rabs_triang|]. lra.
Qed.

(** ** Frames *)
Theorem orthonormal_basis_2D_accuracy : forall (MO : MathOps F), ieee_math prec emax MO -> forall (align x y : list F) ord, ord = ao_xyz \/ ord = ao_yxz -> vorthonormal_basis_2D align true (ao_value ord) = Ok (x, y) ->
  two align -> let N := norm 2 (vals align) in bpow radix2 (3 - emax) <= N * N <= bpow radix2 (emax - 3) ->
  let main := if match ord with ao_xyz => true | _ => false end then x else y in
  (forall i, (i < 2)%nat -> fin (el x i) /\ fin (el y i) /\ Rabs (vals main i - vals align i / N) <= 12 * u * Rabs (vals align i / N) + eta) /\
  vals x 0%nat * vals y 0%nat + vals x 1%nat * vals y 1%nat = 0 /\
  vals x 0%nat * vals y 1%nat - vals x 1%nat * vals y 0%nat = norm 2 (vals x) * norm 2 (vals x) /\
  unit_within 2 (37 * u) (vals x) /\ unit_within 2 (37 * u) (vals y).
Proof.
  intros MO IM align x y ord O E [L2 Fa] N [Lo Hi] main. destruct (basis_2D_eval align true ord x y O E) as (a & Ea & _ & Cases). destruct (eight_bits prec emax U256) as (U & [Et Eu] & B9 & _).
  assert (N0 : 0 <= N) by apply norm_pos. assert (NN : norm2 prec emax align = N * N) by (unfold N; rewrite norm_sq; unfold norm2; rewrite L2; reflexivity). pose proof (sq_pos N) as NP. assert (I2 : INR (length align) = 2) by (rewrite L2; cbn; lra).
  assert (P3 : bpow radix2 emax = 8 * bpow radix2 (emax - 3)) by (change 8 with (bpow radix2 3); rewrite <- bpow_plus; f_equal; ring).
  assert (U2 : 0 <= u * u <= / 256 * u) by (split; [apply sq_pos|apply Rmult_le_compat_r; lra]). assert (Q2 : 0 <= (1 + u) ^ 2 <= 102 / 100) by (split; [apply pow_le; lra|cbn; lra]).
  assert (Fl : exists l, vlength_squared align = Ok l /\ fin l).
  { destruct align as [|p [|q [|]]]; try discriminate. assert (D : exists d, vdot [p; q] [p; q] = Ok d /\ fin d).
    { apply (dot_no_overflow prec emax); [discriminate|reflexivity| |].
      - intros z Hz. assert (In z [p; q]) as Hz' by tauto. destruct Hz' as [<-|[<-|[]]]; [apply (Fa 0%nat)|apply (Fa 1%nat)]; lia.
      - unfold fits. cbn [length]. rewrite (rsum_ext 2 _ (fun i => vals [p; q] i * vals [p; q] i)) by (intros; apply Rabs_pos_eq, sq_pos). rewrite <- norm_sq. fold N. replace (INR 2) with 2 by (cbn; lra).
        assert ((1 + u) ^ 2 * (N * N) <= 102 / 100 * bpow radix2 (emax - 3)) by (apply Rmult_le_compat; lra). assert ((1 + u) ^ 2 * eta <= 102 / 100 * eta) by (apply Rmult_le_compat_r; lra). lra. }
    destruct D as (d & Ed & Fd). exists d. split; [exact Ed|exact Fd]. }
  destruct Fl as (l & El & Fl). cbn [bind] in Ea.
  destruct (normalize_accuracy prec emax IM align a l El Fl Ea) as (La & Fa' & Da); [rewrite I2; lra|rewrite NN; auto|]. rewrite NN, sqrt_square, I2 in Da by auto. rewrite L2 in Da, La.
  pose proof (normalize_unit prec emax IM align a l El Fl Ea) as Un. rewrite I2, NN in Un. specialize (Un ltac:(lra) ltac:(lra)).
  assert (Fi : forall i, (i < 2)%nat -> fin (el a i)) by (intros i Hi2; apply Fa', nth_In; lia). assert (Na : norm2 prec emax a = vals a 0%nat * vals a 0%nat + vals a 1%nat * vals a 1%nat) by (unfold norm2; rewrite La; cbn [rsum]; ring).
  assert (EU : eta <= / 128 * u). { eapply Rle_trans; [apply eta_small|]. rewrite Rmult_comm. apply Rmult_le_compat_r; [lra|]. assert (X9 : (9 <= emax)%Z) by (change 512 with (bpow radix2 9) in B9; apply le_bpow in B9; auto). change (/ 128) with (bpow radix2 (-7)). apply bpow_le. lia. }
  assert (Ua : Rabs (vals a 0%nat * vals a 0%nat + vals a 1%nat * vals a 1%nat - 1) <= 37 * u) by (rewrite <- Na; lra).
  assert (Dm : forall i, (i < 2)%nat -> Rabs (vals a i - vals align i / N) <= 12 * u * Rabs (vals align i / N) + eta) by (intros i Hi2; eapply Rle_trans; [apply Da; exact Hi2|]; lra).
  assert (Vn : forall b : F, val (neg b) = - val b) by (intros; apply val_neg). assert (Fn : forall b : F, fin b -> fin (neg b)) by (intros b Hb; rewrite (fin_neg prec emax); exact Hb).
  pose proof (Fi 0%nat ltac:(lia)) as F0. pose proof (Fi 1%nat ltac:(lia)) as F1.
  assert (G : vals x 0%nat * vals y 0%nat + vals x 1%nat * vals y 1%nat = 0 /\ vals x 0%nat * vals y 1%nat - vals x 1%nat * vals y 0%nat = norm 2 (vals x) * norm 2 (vals x) /\ unit_within 2 (37 * u) (vals x) /\ unit_within 2 (37 * u) (vals y) /\ (forall i, (i < 2)%nat -> fin (el x i) /\ fin (el y i)) /\ main = a).
  { rewrite norm_sq. unfold unit_within. cbn [rsum]. destruct Cases as [(-> & -> & ->)|(-> & -> & ->)]; cbn in main; (match goal with |- context [?v] => idtac end).
    - set (p := vals a 0%nat) in *. set (q := vals a 1%nat) in *. change (vals [neg (el a 1); el a 0] 0%nat) with (val (neg (el a 1))). change (vals [neg (el a 1); el a 0] 1%nat) with p. rewrite !Vn. change (val (el a 1)) with q.
      split; [ring|]. split; [ring|]. split; [replace (0 + p * p + q * q - 1) with (p * p + q * q - 1) by ring; exact Ua|]. split; [replace (0 + - q * - q + p * p - 1) with (p * p + q * q - 1) by ring; exact Ua|]. split; [|reflexivity].
      intros [|[|i]] Hi2; [..|lia]; (split; [auto|]); [apply (Fn _ F1)|exact F0].
    - set (p := vals a 0%nat) in *. set (q := vals a 1%nat) in *. change (vals [neg (neg (el a 1)); neg (el a 0)] 0%nat) with (val (neg (neg (el a 1)))). change (vals [neg (neg (el a 1)); neg (el a 0)] 1%nat) with (val (neg (el a 0))). rewrite !Vn. change (val (el a 1)) with q. change (val (el a 0)) with p.
      split; [ring|]. split; [ring|]. split; [replace (0 + - - q * - - q + - p * - p - 1) with (p * p + q * q - 1) by ring; exact Ua|]. split; [replace (0 + p * p + q * q - 1) with (p * p + q * q - 1) by ring; exact Ua|]. split; [|reflexivity].
      intros [|[|i]] Hi2; [..|lia]; (split; [|auto]); [apply (Fn _ (Fn _ F1))|apply (Fn _ F0)]. }
  destruct G as (G1 & G2 & G3 & G4 & G5 & G6). split; [|auto]. intros i Hi2. destruct (G5 i Hi2). split; [auto|]. split; [auto|]. rewrite G6. apply Dm. exact Hi2.
Qed.
(** the matrix: rows exactly perpendicular, so orthogonal up to the rounding of one length *)
Theorem align_2D_near_orthogonal : forall (MO : MathOps F), ieee_math prec emax MO -> forall (m m' : mx F) align ord, ord = ao_xyz \/ ord = ao_yxz -> matrix_rotation_align_2D m align true (ao_value ord) = Ok m' ->
  two align -> let N := norm 2 (vals align) in bpow radix2 (3 - emax) <= N * N <= bpow radix2 (emax - 3) -> let main := if match ord with ao_xyz => true | _ => false end then 0%nat else 1%nat in
  near_orthogonal 2 (37 * u) (B m') /\ gram 2 (B m') 0 1 = 0 /\ forall j, (j < 2)%nat -> Rabs (B m' main j - vals align j / N) <= 12 * u * Rabs (vals align j / N) + eta.
Proof.
  intros MO IM m m' align ord O E Ta N HN main. destruct (align_2D_eval m m' align true (ao_value ord) E) as (x & y & Exy & Em). destruct (orthonormal_basis_2D_accuracy MO IM align x y ord O Exy Ta HN) as (A & P & _ & Ux & Uy).
  assert (V0 : forall j, (j < 2)%nat -> B m' 0%nat j = vals x j /\ B m' 1%nat j = vals y j) by (intros j Hj; destruct (Em j Hj) as [X Y]; cbv beta; rewrite X, Y; split; reflexivity).
  assert (G : forall i j, (i < 2)%nat -> (j < 2)%nat -> gram 2 (B m') i j = B m' i 0%nat * B m' j 0%nat + B m' i 1%nat * B m' j 1%nat) by (intros; unfold gram; cbn [rsum]; ring). destruct (V0 0%nat ltac:(lia)) as [X0 Y0]. destruct (V0 1%nat ltac:(lia)) as [X1 Y1]. cbv beta in *.
  unfold unit_within in Ux, Uy. cbn [rsum] in Ux, Uy. pose proof (u_pos prec) as U.
  split; [|split].
  - intros i j Hi Hj. rewrite G by auto. destruct i as [|[|i]]; try lia; destruct j as [|[|j]]; try lia; cbn [Nat.eqb]; rewrite ?X0, ?X1, ?Y0, ?Y1.
    + rewrite Rplus_0_l in Ux. exact Ux.
    + rewrite P, Rminus_0_r, Rabs_R0. lra.
    + rewrite (Rmult_comm (vals y 0%nat)), (Rmult_comm (vals y 1%nat)), P, Rminus_0_r, Rabs_R0. lra.
    + rewrite Rplus_0_l in Uy. exact Uy.
  - rewrite G by lia. rewrite X0, X1, Y0, Y1. exact P.
  - intros j Hj. destruct (A j Hj) as (_ & _ & D). destruct (V0 j Hj) as [X Y]. unfold main. destruct O as [-> | ->]; cbn [ao_value] in *; cbv beta iota in *; rewrite ?X, ?Y; exact D.
Qed.

(** ** Inverse of a rigid transform of the plane *)
Theorem invert_RT_only_2D_accuracy : forall (m m' : mx F) d, matrix_invert_RT_only_2D m = Ok m' -> near_orthogonal 2 d (B m) -> 0 <= d <= / 16 ->
  (forall i j, (i < 2)%nat -> (j < 2)%nat -> be m' i j = be m j i) /\
  forall i, (i < 2)%nat -> fin (be m' 2%nat i) -> Rabs (B m' 2%nat i + rsum 2 (fun k => B m 2%nat k * B m i k)) <= 3 * u * norm 2 (B m 2%nat) + 3 * eta.
Proof.
  intros m m' d E NO [D0 D]. destruct (eight_bits prec emax U256) as (U & [Et Eu] & _). destruct (invert_2D_eval m m' E) as [El Et']. split; [exact El|].
  set (t := B m 2%nat). pose proof (norm_pos 2 t) as T0. assert (U2 : 0 <= u * u <= / 256 * u) by (split; [apply sq_pos|apply Rmult_le_compat_r; lra]). assert (Q2 : 1 <= (1 + u) ^ 2 <= 1 + 201 / 100 * u) by (cbn; split; lra).
  intros i Hi Fi. assert (Row : norm 2 (B m i) <= 26 / 25). { apply sq_le; [lra|]. pose proof (near_orthogonal_rows 2 d (B m) i NO Hi). lra. }
  destruct (Et' i Hi) as (q & Q & Bq). rewrite Bq in *. rewrite (fin_neg prec emax) in Fi. destruct (dot_accuracy prec emax _ _ q Q Fi) as [_ A]. unfold accurate in A. change (length (row2 m 2)) with 2%nat in A. replace (INR 2) with 2 in A by (cbn; lra).
  rewrite (val_neg prec emax). rewrite (rsum_ext 2 _ (fun k => vals (row2 m 2) k * vals (row2 m i) k)) by (intros k Hk; destruct k as [|[|k]]; [..|lia]; reflexivity).
  assert (Sum : 0 <= rsum 2 (fun k => Rabs (vals (row2 m 2) k * vals (row2 m i) k)) <= 26 / 25 * norm 2 t).
  { split; [apply rsum_nonneg; intros; apply Rabs_pos|]. pose proof (cauchy 2 (fun k => Rabs (t k)) (fun k => Rabs (B m i k))) as Cy. rewrite !norm_abs in Cy.
    rewrite (rsum_ext 2 _ (fun k => Rabs (t k) * Rabs (B m i k))) by (intros k Hk; destruct k as [|[|k]]; [..|lia]; apply Rabs_mult). eapply Rle_trans; [apply Rle_abs|]. eapply Rle_trans; [exact Cy|]. rewrite (Rmult_comm (26 / 25)). apply Rmult_le_compat_l; auto. }
  destruct Sum as [S0 S1]. set (S := rsum 2 (fun k => Rabs (vals (row2 m 2) k * vals (row2 m i) k))) in *. set (X := rsum 2 (fun k => vals (row2 m 2) k * vals (row2 m i) k)) in *.
  replace (- val q + X) with (- (val q - X)) by ring. rewrite Rabs_Ropp. eapply Rle_trans; [exact A|].
  assert (((1 + u) ^ 2 - 1) * S <= 201 / 100 * u * (26 / 25 * norm 2 t)) by (apply Rmult_le_compat; lra). assert (2 * (1 + u) ^ 2 * eta <= 3 * eta) by (apply Rmult_le_compat_r; lra).
  assert (0 <= u * norm 2 t) by (apply Rmult_le_pos; lra). lra.
Qed.
End IEEE.

(** ** Examples in double precision *)
Definition ex_v2 : list double := [dbl 3 0; dbl 4 0].
Definition ex_m2 : mx double := Mx 2 2 row_basis (fun _ _ => dbl 0 0).
Lemma ex_v2_val i : (i < 2)%nat -> vals 53 1024 ex_v2 i = match i with 0%nat => 3 | _ => 4 end.
Proof. intros Hi. destruct i as [|[|i]]; [..|lia]; unfold vals; cbn [nth ex_v2]; rewrite !(fun m e A B => proj2 (dbl_ok m e A B)) by lia; cbn; ring. Qed.
Lemma ex_v2_two : PropFloatAngle.two 53 1024 ex_v2. Proof. split; [reflexivity|]. intros [|[|i]] Hi; [..|lia]; apply dbl_ok; lia. Qed.
Lemma ex_v2_norm : norm 2 (vals 53 1024 ex_v2) = 5.
Proof. assert (Q : norm 2 (vals 53 1024 ex_v2) * norm 2 (vals 53 1024 ex_v2) = 25) by (rewrite norm_sq; cbn [rsum]; rewrite !ex_v2_val by lia; ring). pose proof (norm_pos 2 (vals 53 1024 ex_v2)). apply Rle_antisym; apply sq_le; lra. Qed.
Example rotated_2D_case : exists m' r, @matrix_rotation_2D double _ turn_math ex_m2 (dbl 1 0) = Ok m' /\ transform_vector_2D m' ex_v2 = Ok r /\ Rabs (norm 2 (vals 53 1024 r) - 5) <= / 50.
Proof.
  assert (E : exists m', @matrix_rotation_2D double _ turn_math ex_m2 (dbl 1 0) = Ok m') by (eexists; reflexivity). destruct E as [m' E]. assert (Er : exists r, transform_vector_2D m' ex_v2 = Ok r).
  { assert (C : match @matrix_rotation_2D double _ turn_math ex_m2 (dbl 1 0) with Ok m' => match transform_vector_2D m' ex_v2 with Ok _ => true | _ => false end | _ => false end = true) by (vm_compute; reflexivity). rewrite E in C. destruct (transform_vector_2D m' ex_v2) as [r| |]; try discriminate. exists r. reflexivity. }
  destruct Er as [r Er]. exists m', r. split; [exact E|]. split; [exact Er|]. pose proof u53_small as U. pose proof eta53 as Et. assert (U2 : u_round 53 <= / 256) by lra.
  assert (Fr : forall i, (i < 2)%nat -> is_finite (el r i) = true).
  { assert (C : match @matrix_rotation_2D double _ turn_math ex_m2 (dbl 1 0) with Ok m' => match transform_vector_2D m' ex_v2 with Ok r => (is_finite (el r 0) && is_finite (el r 1))%bool | _ => false end | _ => false end = true) by (vm_compute; reflexivity). rewrite E, Er in C. apply andb_true_iff in C. destruct C. intros [|[|i]] Hi; [..|lia]; auto. }
  assert (C : Rabs (B2R (dbl 819 (-10)) * B2R (dbl 819 (-10)) + B2R (dbl 614 (-10)) * B2R (dbl 614 (-10)) - 1) <= / 1024) by (rewrite !(fun m e A B => proj2 (dbl_ok m e A B)) by lia; cbn; apply Rabs_le; lra).
  pose proof (rotated_2D_length 53 1024 U2 turn_math ex_m2 m' (dbl 1 0) ex_v2 r (/ 1024) E Er Fr C ltac:(lra)) as X. rewrite ex_v2_norm in X. eapply Rle_trans; [exact X|]. lra.
Qed.
Example align_2D_case : exists m', @matrix_rotation_align_2D double _ turn_math ex_m2 ex_v2 true (ao_value ao_xyz) = Ok m' /\ near_orthogonal 2 (/ 100000000) (fun i j => B2R (be m' i j)) /\ Rabs (B2R (be m' 0 1) - 4 / 5) <= / 100000000.
Proof.
  assert (E : exists m', @matrix_rotation_align_2D double _ turn_math ex_m2 ex_v2 true (ao_value ao_xyz) = Ok m') by (eexists; reflexivity). destruct E as [m' E]. exists m'. split; [exact E|].
  pose proof u53_small as U. pose proof eta53 as Et. assert (U2 : u_round 53 <= / 256) by lra. assert (IM : ieee_math 53 1024 turn_math) by (split; reflexivity).
  destruct (align_2D_near_orthogonal 53 1024 U2 turn_math IM ex_m2 m' ex_v2 ao_xyz (or_introl eq_refl) E ex_v2_two) as (NO & _ & A).
  - rewrite ex_v2_norm. split; [apply Rle_trans with (bpow radix2 0); [apply bpow_le; lia|cbn; lra]|apply Rle_trans with (bpow radix2 10); [cbn; lra|apply bpow_le; lia]].
  - split.
    + intros i j Hi Hj. eapply Rle_trans; [exact (NO i j Hi Hj)|]. lra.
    + assert (Z : forall w x N, x = 4 -> N = 5 -> Rabs (w - x / N) <= 12 * u_round 53 * Rabs (x / N) + eta_min 53 1024 -> Rabs (w - 4 / 5) <= / 100000000).
      { intros w x N -> -> D. rewrite (Rabs_pos_eq (4 / 5)) in D by lra. eapply Rle_trans; [exact D|]. assert (eta_min 53 1024 <= / 1000000000000) by (apply Rle_trans with (bpow radix2 (-40)); [apply bpow_le; unfold SpecFloat.emin; lia|cbn; lra]). lra. }
      exact (Z _ _ _ (ex_v2_val 1 ltac:(lia)) ex_v2_norm (A 1%nat ltac:(lia))).
Qed.
Definition ex_rt2 : mx double := Mx 3 3 row_basis (fun i j => match i, j with 0%nat, 1%nat => dbl 1 0 | 1%nat, 0%nat => dbl (-1) 0 | 2%nat, 0%nat => dbl 7 0 | 2%nat, 1%nat => dbl 2 0 | 2%nat, 2%nat => dbl 1 0 | _, _ => dbl 0 0 end).
Example invert_2D_case : exists m', matrix_invert_RT_only_2D ex_rt2 = Ok m' /\ near_orthogonal 2 0 (fun i j => B2R (be ex_rt2 i j)) /\ (forall i, (i < 2)%nat -> is_finite (be m' 2%nat i) = true) /\ Rabs (B2R (be m' 2 1) - 7) <= / 100000.
Proof.
  assert (E : exists m', matrix_invert_RT_only_2D ex_rt2 = Ok m') by (eexists; reflexivity). destruct E as [m' E]. exists m'. split; [exact E|].
  assert (V : forall i j, (i < 3)%nat -> (j < 2)%nat -> B2R (be ex_rt2 i j) = match i, j with 0%nat, 1%nat => 1 | 1%nat, 0%nat => -1 | 2%nat, 0%nat => 7 | 2%nat, 1%nat => 2 | _, _ => 0 end).
  { intros i j Hi Hj. destruct i as [|[|[|i]]], j as [|[|j]]; try lia; cbn [be mbasis mel ex_rt2]; rewrite (fun m e A B => proj2 (dbl_ok m e A B)) by lia; cbn; ring. }
  assert (NO : near_orthogonal 2 0 (fun i j => B2R (be ex_rt2 i j))).
  { intros i j Hi Hj. unfold gram. cbn [rsum]. rewrite !V by lia. apply Req_le. destruct i as [|[|i]]; try lia; destruct j as [|[|j]]; try lia; cbn [Nat.eqb]; (match goal with |- Rabs ?x = 0 => replace x with 0 by ring end); apply Rabs_R0. }
  assert (Ff : forall i, (i < 2)%nat -> is_finite (be m' 2%nat i) = true).
  { assert (C : match matrix_invert_RT_only_2D ex_rt2 with Ok m' => (is_finite (be m' 2%nat 0%nat) && is_finite (be m' 2%nat 1%nat))%bool | _ => false end = true) by (vm_compute; reflexivity). rewrite E in C. apply andb_true_iff in C. destruct C. intros [|[|i]] Hi; [..|lia]; auto. }
  split; [exact NO|]. split; [exact Ff|]. pose proof u53_small as U. pose proof eta53 as Et. assert (U2 : u_round 53 <= / 256) by lra.
  destruct (invert_RT_only_2D_accuracy 53 1024 U2 ex_rt2 m' 0 E NO ltac:(lra)) as [_ A]. specialize (A 1%nat ltac:(lia) (Ff 1%nat ltac:(lia))).
  assert (S : rsum 2 (fun k => B2R (be ex_rt2 2%nat k) * B2R (be ex_rt2 1%nat k)) = -7) by (cbn [rsum]; rewrite !V by lia; ring).
  assert (N : norm 2 (fun k => B2R (be ex_rt2 2%nat k)) <= 8) by (apply sq_le; [lra|]; rewrite norm_sq; cbn [rsum]; rewrite !V by lia; lra). pose proof (norm_pos 2 (fun k => B2R (be ex_rt2 2%nat k))) as N0.
  assert (Z : forall w s n, s = -7 -> 0 <= n <= 8 -> Rabs (w + s) <= 3 * u_round 53 * n + 3 * eta_min 53 1024 -> Rabs (w - 7) <= / 100000).
  { intros w s n -> Hn D. assert (u_round 53 * n <= / 1000000000000 * 8) by (apply Rmult_le_compat; lra). replace (w - 7) with (w + -7) by ring. lra. }
  exact (Z _ _ _ S (conj N0 N) A).
Qed.
Print Assumptions rotation_2D_exact. Print Assumptions transform_vector_2D_accuracy. Print Assumptions transform_point_2D_accuracy. Print Assumptions rotated_2D_length. Print Assumptions orthonormal_basis_2D_accuracy. Print Assumptions align_2D_near_orthogonal. Print Assumptions invert_RT_only_2D_accuracy.
