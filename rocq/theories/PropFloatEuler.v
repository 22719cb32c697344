(** C85: rotation matrices built from Euler angles and about world axes, in IEEE arithmetic. *)
From Coq Require Import ZArith Bool List Arith Lia Reals Lra.
From Flocq Require Import Core BinarySingleNaN.
From Verif Require Import Base RInst MiscModel MatModel MatSpec MatOps RotModel QuatModel VecModel LUModel XfModel MiscSpec FloatModel FloatFacts FloatDot PropFloat PropFloatLU FloatExpr PropFloatForm PropFloatNorm FloatRot PropFloatRot.
Import ListNotations.
Open Scope R_scope.

(** ** Specification: the product of three rotations about coordinate axes, from the cosines and sines of the angles.
    [turn]: PropFloatRot.v; row i is the image of basis vector i, so the rotation applied first stands on the left. *)
Definition unit_axis (a : Z) (k : nat) : R := if Z.eqb a (Z.of_nat k) then 1 else 0.
Definition three_turns (o : euler_order) (c s : nat -> R) : nat -> nat -> R :=
  let T t := turn (c t) (s t) (unit_axis (nth t (eo_name o) 0%Z)) in mmul 3 (mmul 3 (T 0%nat) (T 1%nat)) (T 2%nat).
(** c^2 + s^2 is within [e] of 1, for all three angles *)
Definition unit_pairs (e : R) (c s : nat -> R) : Prop := forall t, (t < 3)%nat -> Rabs (c t * c t + s t * s t - 1) <= e.

(** ** The exact matrix is nearly orthogonal *)
(** frame i, j, k of the code: (x, y) = (c1, s1) if the third axis differs from the first, (-s1, c1) if not *)
Definition in_frame (rep : bool) (c s : nat -> R) (i j : nat) : R :=
  let c0 := c 0%nat in let c1 := c 1%nat in let c2 := c 2%nat in let s0 := s 0%nat in let s1 := s 1%nat in let s2 := s 2%nat in
  if rep then match i, j with
    | 0%nat, 0%nat => c1 | 0%nat, 1%nat => s1 * s2 | 0%nat, _ => - s1 * c2
    | 1%nat, 0%nat => s0 * s1 | 1%nat, 1%nat => - c1 * (s0 * s2) + c0 * c2 | 1%nat, _ => c1 * (s0 * c2) + c0 * s2
    | _, 0%nat => c0 * s1 | _, 1%nat => - c1 * (c0 * s2) - s0 * c2 | _, _ => c1 * (c0 * c2) - s0 * s2 end
  else match i, j with
    | 0%nat, 0%nat => c1 * c2 | 0%nat, 1%nat => c1 * s2 | 0%nat, _ => - s1
    | 1%nat, 0%nat => s1 * (s0 * c2) - c0 * s2 | 1%nat, 1%nat => s1 * (s0 * s2) + c0 * c2 | 1%nat, _ => s0 * c1
    | _, 0%nat => s1 * (c0 * c2) + s0 * s2 | _, 1%nat => s1 * (c0 * s2) - s0 * c2 | _, _ => c0 * c1 end.
Lemma frame_near_orthogonal rep c s e : unit_pairs e c s -> e <= / 16 -> near_orthogonal 3 (4 * e) (in_frame rep c s).
Proof.
  intros H E16. pose proof (H 0%nat ltac:(lia)) as P0. pose proof (H 1%nat ltac:(lia)) as P1. pose proof (H 2%nat ltac:(lia)) as P2. clear H.
  set (p0 := c 0%nat * c 0%nat + s 0%nat * s 0%nat - 1) in *. set (p1 := c 1%nat * c 1%nat + s 1%nat * s 1%nat - 1) in *. set (p2 := c 2%nat * c 2%nat + s 2%nat * s 2%nat - 1) in *.
  assert (E0 : 0 <= e) by (eapply Rle_trans; [apply Rabs_pos|exact P0]).
  pose proof (sq_pos (c 0%nat)) as C0. pose proof (sq_pos (s 0%nat)) as S0. pose proof (sq_pos (c 1%nat)) as C1. pose proof (sq_pos (s 1%nat)) as S1.
  assert (B0 : c 0%nat * c 0%nat + s 0%nat * s 0%nat <= 17 / 16) by (apply Rabs_le_inv in P0; unfold p0 in P0; lra).
  assert (B1 : c 1%nat * c 1%nat + s 1%nat * s 1%nat <= 17 / 16) by (apply Rabs_le_inv in P1; unfold p1 in P1; lra).
  assert (L0 : 15 / 16 <= c 0%nat * c 0%nat + s 0%nat * s 0%nat) by (apply Rabs_le_inv in P0; unfold p0 in P0; lra).
  assert (L1 : 15 / 16 <= c 1%nat * c 1%nat + s 1%nat * s 1%nat) by (apply Rabs_le_inv in P1; unfold p1 in P1; lra).
  assert (M : forall x p y, Rabs x <= y -> Rabs p <= e -> Rabs (x * p) <= y * e) by (intros x p y Hx Hp; rewrite Rabs_mult; apply Rmult_le_compat; auto using Rabs_pos).
  assert (K3 : forall x y, 0 <= x <= 17 / 16 -> 0 <= y <= 289 / 256 -> Rabs (p0 + x * p1 + y * p2) <= 4 * e).
  { intros x y Hx Hy. eapply Rle_trans; [apply Rabs_triang|]. eapply Rle_trans; [apply Rplus_le_compat_r, Rabs_triang|].
    pose proof (M x p1 (17 / 16) ltac:(rewrite Rabs_pos_eq; lra) P1). pose proof (M y p2 (289 / 256) ltac:(rewrite Rabs_pos_eq; lra) P2). lra. }
  assert (K2 : forall x, 0 <= x <= 17 / 16 -> Rabs (p1 + x * p2) <= 4 * e).
  { intros x Hx. eapply Rle_trans; [apply Rabs_triang|]. pose proof (M x p2 (17 / 16) ltac:(rewrite Rabs_pos_eq; lra) P2). lra. }
  assert (K1 : forall x y z, Rabs (x * y) <= 1 -> Rabs z <= 2 -> Rabs (x * y * z * p2) <= 4 * e).
  { intros x y z Hx Hz. pose proof (M (x * y * z) p2 2 ltac:(rewrite Rabs_mult; replace 2 with (1 * 2) by ring; apply Rmult_le_compat; auto using Rabs_pos) P2). lra. }
  assert (K0 : forall x y, Rabs (x * y) <= 1 -> Rabs y <= 1 -> Rabs x <= 1 -> forall w, Rabs w <= 17 / 16 -> Rabs (x * y * (p1 + w * p2)) <= 4 * e).
  { intros x y Hxy _ _ w Hw. pose proof (M w p2 (17 / 16) Hw P2). assert (Rabs (p1 + w * p2) <= 33 / 16 * e) by (eapply Rle_trans; [apply Rabs_triang|]; lra).
    rewrite Rabs_mult. assert (Rabs (x * y) * Rabs (p1 + w * p2) <= 1 * (33 / 16 * e)) by (apply Rmult_le_compat; auto using Rabs_pos). lra. }
  assert (T1 : Rabs (c 1%nat * s 1%nat) <= 1) by (eapply Rle_trans; [apply abs_prod|]; lra).
  assert (T0 : Rabs (s 0%nat * c 0%nat) <= 1) by (eapply Rle_trans; [apply abs_prod|]; lra).
  assert (Z2 : forall x, x * x <= 17 / 16 -> Rabs x <= 2) by (intros x Hx; apply sq_le; [lra|]; rewrite <- Rabs_mult, Rabs_pos_eq by apply sq_pos; lra).
  assert (Y : forall x y z, 0 <= x <= 17 / 16 -> 0 <= y -> 0 <= z -> y + z <= 17 / 16 -> 0 <= x * y + z <= 289 / 256).
  { intros x y z Hx Hy Hz Hyz. assert (0 <= x * y <= 17 / 16 * y) by (split; [apply Rmult_le_pos; lra|apply Rmult_le_compat_r; lra]). lra. }
  assert (W : forall x, 0 <= x <= 17 / 16 -> Rabs (x - 1) <= 17 / 16) by (intros; apply Rabs_le; lra).
  assert (K : forall x, 0 <= x <= 17 / 16 -> Rabs (s 0%nat * c 0%nat * (p1 + (x - 1) * p2)) <= 4 * e).
  { intros x Hx. pose proof (M (x - 1) p2 (17 / 16) (W x Hx) P2). assert (Rabs (p1 + (x - 1) * p2) <= 33 / 16 * e) by (eapply Rle_trans; [apply Rabs_triang|]; lra).
    rewrite Rabs_mult. assert (Rabs (s 0%nat * c 0%nat) * Rabs (p1 + (x - 1) * p2) <= 1 * (33 / 16 * e)) by (apply Rmult_le_compat; auto using Rabs_pos). lra. }
  clear K0 M.
  intros i j Hi Hj. revert i Hi. apply cases3; revert j Hj; apply cases3; unfold gram; destruct rep; cbn [rsum in_frame Nat.eqb].
  all: match goal with |- Rabs ?x <= _ => first
    [ replace x with (p1 + s 1%nat * s 1%nat * p2) by (unfold p1, p2; ring); apply K2; lra
    | replace x with (p1 + c 1%nat * c 1%nat * p2) by (unfold p1, p2; ring); apply K2; lra
    | replace x with (p0 + s 0%nat * s 0%nat * p1 + (c 1%nat * c 1%nat * (s 0%nat * s 0%nat) + c 0%nat * c 0%nat) * p2) by (unfold p0, p1, p2; ring); apply K3; [lra|apply Y; lra]
    | replace x with (p0 + s 0%nat * s 0%nat * p1 + (s 1%nat * s 1%nat * (s 0%nat * s 0%nat) + c 0%nat * c 0%nat) * p2) by (unfold p0, p1, p2; ring); apply K3; [lra|apply Y; lra]
    | replace x with (p0 + c 0%nat * c 0%nat * p1 + (c 1%nat * c 1%nat * (c 0%nat * c 0%nat) + s 0%nat * s 0%nat) * p2) by (unfold p0, p1, p2; ring); apply K3; [lra|apply Y; lra]
    | replace x with (p0 + c 0%nat * c 0%nat * p1 + (s 1%nat * s 1%nat * (c 0%nat * c 0%nat) + s 0%nat * s 0%nat) * p2) by (unfold p0, p1, p2; ring); apply K3; [lra|apply Y; lra]
    | replace x with (c 1%nat * s 1%nat * s 0%nat * p2) by (unfold p2; ring); apply K1; [auto|apply Z2; lra]
    | replace x with (c 1%nat * s 1%nat * c 0%nat * p2) by (unfold p2; ring); apply K1; [auto|apply Z2; lra]
    | replace x with (c 1%nat * s 1%nat * - s 0%nat * p2) by (unfold p2; ring); apply K1; [auto|rewrite Rabs_Ropp; apply Z2; lra]
    | replace x with (c 1%nat * s 1%nat * - c 0%nat * p2) by (unfold p2; ring); apply K1; [auto|rewrite Rabs_Ropp; apply Z2; lra]
    | replace x with (s 0%nat * c 0%nat * (p1 + (c 1%nat * c 1%nat - 1) * p2)) by (unfold p1, p2; ring); apply K; lra
    | replace x with (s 0%nat * c 0%nat * (p1 + (s 1%nat * s 1%nat - 1) * p2)) by (unfold p1, p2; ring); apply K; lra ] end.
Qed.
(** the code's frame is the product of the three turns; odd orders use the negated angles *)
Definition place (a : euler_axes) (i : nat) : nat := if Z.eqb (ea_i a) (Z.of_nat i) then 0%nat else if Z.eqb (ea_j a) (Z.of_nat i) then 1%nat else 2%nat.
Lemma frame_is_turns o c s i j : (i < 3)%nat -> (j < 3)%nat -> let a := unpack_euler (eo_value o) in
  in_frame (ea_repeat a) c s (place a i) (place a j) = three_turns o c (fun t => if ea_odd a then - s t else s t) i j.
Proof.
  intros Hi Hj a. subst a. revert i Hi. destruct o; apply cases3; revert j Hj; apply cases3; vm_compute unpack_euler; cbn [ea_repeat ea_odd]; unfold place; cbn [ea_i ea_j Z.eqb Z.of_nat Pos.of_succ_nat Pos.succ Pos.eqb];
  unfold three_turns, mmul, turn, unit_axis; cbn; ring.
Qed.
(** orders whose second axis does not follow the first cyclically *)
Definition reversed (o : euler_order) : bool := negb (Z.eqb ((nth 0 (eo_name o) 0 + 1) mod 3) (nth 1 (eo_name o) 0))%Z.
Lemma reversed_odd o : reversed o = ea_odd (unpack_euler (eo_value o)). Proof. destruct o; reflexivity. Qed.

Lemma near_orthogonal_place o d A : let a := unpack_euler (eo_value o) in near_orthogonal 3 d A -> near_orthogonal 3 d (fun i j => A (place a i) (place a j)).
Proof.
  intros a H i j Hi Hj. unfold gram.
  assert (P : forall k, (k < 3)%nat -> (place a k < 3)%nat) by (intros k Hk; unfold place; destruct (Z.eqb _ _); [lia|destruct (Z.eqb _ _); lia]).
  replace (rsum 3 (fun k => A (place a i) (place a k) * A (place a j) (place a k))) with (gram 3 A (place a i) (place a j)).
  - replace (Nat.eqb i j) with (Nat.eqb (place a i) (place a j)); [apply H; auto|]. subst a. clear H P. revert i Hi. destruct o; apply cases3; revert j Hj; apply cases3; reflexivity.
  - unfold gram. cbn [rsum]. subst a. clear. destruct o; vm_compute unpack_euler; unfold place; cbn [ea_i ea_j Z.eqb Z.of_nat Pos.of_succ_nat Pos.succ Pos.eqb]; ring.
Qed.
(** the entries as formulas: variables 0-2 are the cosines, 3-5 the sines *)
Definition frame_formula (rep : bool) (i j : nat) : formula :=
  let c0 := FVar 0 in let c1 := FVar 1 in let c2 := FVar 2 in let s0 := FVar 3 in let s1 := FVar 4 in let s2 := FVar 5 in
  if rep then match i, j with
    | 0%nat, 0%nat => c1 | 0%nat, 1%nat => FMul s1 s2 | 0%nat, _ => FMul (FNeg s1) c2
    | 1%nat, 0%nat => FMul s0 s1 | 1%nat, 1%nat => FAdd (FMul (FNeg c1) (FMul s0 s2)) (FMul c0 c2) | 1%nat, _ => FAdd (FMul c1 (FMul s0 c2)) (FMul c0 s2)
    | _, 0%nat => FMul c0 s1 | _, 1%nat => FSub (FMul (FNeg c1) (FMul c0 s2)) (FMul s0 c2) | _, _ => FSub (FMul c1 (FMul c0 c2)) (FMul s0 s2) end
  else match i, j with
    | 0%nat, 0%nat => FMul c1 c2 | 0%nat, 1%nat => FMul c1 s2 | 0%nat, _ => FNeg s1
    | 1%nat, 0%nat => FSub (FMul s1 (FMul s0 c2)) (FMul c0 s2) | 1%nat, 1%nat => FAdd (FMul s1 (FMul s0 s2)) (FMul c0 c2) | 1%nat, _ => FMul s0 c1
    | _, 0%nat => FAdd (FMul s1 (FMul c0 c2)) (FMul s0 s2) | _, 1%nat => FSub (FMul s1 (FMul c0 s2)) (FMul s0 c2) | _, _ => FMul c0 c1 end.
Section Eval.
Context {T : Type} {Op : Ops T} {MO : MathOps T}.
(** the angle handed to the math library *)
Definition handed (o : euler_order) (angle : T) : T := if reversed o then neg angle else angle.
Definition pairs (o : euler_order) (a0 a1 a2 : T) (k : nat) : T :=
  match k with
  | 0%nat => mcos (handed o a0) | 1%nat => mcos (handed o a1) | 2%nat => mcos (handed o a2)
  | 3%nat => msin (handed o a0) | 4%nat => msin (handed o a1) | 5%nat => msin (handed o a2) | _ => zero end.
Lemma euler_eval (m m' : mx T) a0 a1 a2 o : matrix_rotation_euler m a0 a1 a2 (eo_value o) = Ok m' -> forall i j, (i < 3)%nat -> (j < 3)%nat ->
  let a := unpack_euler (eo_value o) in be m' i j = feval (pairs o a0 a1 a2) (frame_formula (ea_repeat a) (place a i) (place a j)).
Proof.
  intros E i j Hi Hj a. unfold matrix_rotation_euler in E. apply check_ok in E. subst a.
  destruct o; vm_compute unpack_euler in E; vm_compute unpack_euler; cbn [ea_repeat ea_odd ea_i ea_j ea_k] in *; apply ok_inj in E; subst m'; revert i Hi; apply cases3; revert j Hj; apply cases3; destruct m as [rr cc [|] f]; reflexivity.
Qed.
Definition axis_entry (axis : Z) (c s : T) (i j : nat) : T :=
  let n := Z.to_nat axis in
  if Nat.eqb i n then if Nat.eqb j n then one else zero
  else if Nat.eqb j n then zero
  else if Nat.eqb i j then c
  else if Nat.eqb (S i mod 3) j then s else neg s.
Lemma world_axis_eval (m m' : mx T) axis angle : matrix_rotation_world_axis m axis angle = Ok m' ->
  (axis = 0 \/ axis = 1 \/ axis = 2)%Z /\ forall i j, (i < 3)%nat -> (j < 3)%nat -> be m' i j = axis_entry axis (mcos angle) (msin angle) i j.
Proof.
  intros E. unfold matrix_rotation_world_axis in E. apply check_ok in E. unfold require in E.
  destruct (Z.leb_spec 0 axis); [|discriminate]. destruct (Z.leb_spec axis 2); [|discriminate]. cbn [andb bind] in E.
  assert (A : (axis = 0 \/ axis = 1 \/ axis = 2)%Z) by lia. split; [exact A|]. intros i j Hi Hj.
  destruct A as [-> |[-> | ->]]; apply ok_inj in E; subst m'; revert i Hi; apply cases3; revert j Hj; apply cases3; destruct m as [rr cc [|] f]; reflexivity.
Qed.
Lemma plane_eval (m m' : mx T) angle : matrix_rotation_2D m angle = Ok m' -> be m' 0 0 = mcos angle /\ be m' 0 1 = msin angle /\ be m' 1 0 = neg (msin angle) /\ be m' 1 1 = mcos angle.
Proof. intros E. unfold matrix_rotation_2D in E. apply check_ok, ok_inj in E. subst m'. destruct m as [rr cc [|] f]; repeat split. Qed.
End Eval.

Section IEEE.
Context (prec emax : Z) {Hprec : Prec_gt_0 prec} {Hmax : Prec_lt_emax prec emax}.
Notation F := (binary_float prec emax).
Notation u := (u_round prec).
Notation eta := (eta_min prec emax).
Notation val := (@B2R prec emax).
Notation fin x := (is_finite x = true).
Notation vals := (vals prec emax).
Notation B m := (fun i j => val (be m i j)).

Theorem euler_matrix_near_rotation : forall (MO : MathOps F) (m m' : mx F) (angle : nat -> F) o e, u <= / 256 ->
  matrix_rotation_euler m (angle 0%nat) (angle 1%nat) (angle 2%nat) (eo_value o) = Ok m' ->
  (forall t, (t < 3)%nat -> fin (mcos (handed o (angle t))) /\ fin (msin (handed o (angle t)))) ->
  let c t := val (mcos (handed o (angle t))) in let s t := if reversed o then - val (msin (handed o (angle t))) else val (msin (handed o (angle t))) in
  unit_pairs e c s -> e <= / 64 ->
  (forall i j, (i < 3)%nat -> (j < 3)%nat -> fin (be m' i j) /\ Rabs (B m' i j - three_turns o c s i j) <= 13 * u) /\ near_orthogonal 3 (4 * e + 53 * u) (B m').
Proof.
  intros MO m m' angle o e U256 E Fcs c s He E64. pose (s' := fun t => val (msin (handed o (angle t)))).
  assert (He' : unit_pairs e c s'). { intros t Ht. pose proof (He t Ht) as H. unfold s in H. destruct (reversed o); [|exact H]. fold (s' t) in H. replace (- s' t * - s' t) with (s' t * s' t) in H by ring. exact H. }
  pose (a := unpack_euler (eo_value o)). pose proof (euler_eval m m' _ _ _ o E) as Ev. cbv zeta in Ev. fold a in Ev. set (rho := pairs o (angle 0%nat) (angle 1%nat) (angle 2%nat)) in *.
  assert (P : forall k, (k < 3)%nat -> (place a k < 3)%nat) by (intros k Hk; unfold place; destruct (Z.eqb _ _); [lia|destruct (Z.eqb _ _); lia]).
  assert (E0 : 0 <= e) by (eapply Rle_trans; [apply Rabs_pos|exact (He 0%nat ltac:(lia))]).
  assert (C1 : forall t, (t < 3)%nat -> Rabs (c t) <= 101 / 100 /\ Rabs (s' t) <= 101 / 100).
  { intros t Ht. pose proof (He' t Ht) as H. apply Rabs_le_inv in H. pose proof (sq_pos (c t)). pose proof (sq_pos (s' t)). split; (apply sq_le; [lra|]; rewrite <- Rabs_mult, Rabs_pos_eq by apply sq_pos; lra). }
  assert (Frho : forall k, fin (rho k)) by (intros [|[|[|[|[|[|k]]]]]]; try (apply Fcs; lia); reflexivity).
  pose (r := fun k => val (rho k)). assert (R : r 0%nat = c 0%nat /\ r 1%nat = c 1%nat /\ r 2%nat = c 2%nat /\ r 3%nat = s' 0%nat /\ r 4%nat = s' 1%nat /\ r 5%nat = s' 2%nat) by (repeat split).
  destruct R as (R0 & R1 & R2 & R3 & R4 & R5).
  destruct (C1 0%nat ltac:(lia)) as [Bc0 Bs0]. destruct (C1 1%nat ltac:(lia)) as [Bc1 Bs1]. destruct (C1 2%nat ltac:(lia)) as [Bc2 Bs2].
  assert (Brho : forall k, Rabs (r k) <= 2) by (intros [|[|[|[|[|[|k]]]]]]; rewrite ?R0, ?R1, ?R2, ?R3, ?R4, ?R5; try lra; unfold r, rho; cbn; rewrite Rabs_R0; lra).
  assert (Q : forall rep i j, (i < 3)%nat -> (j < 3)%nat -> fin (feval rho (frame_formula rep i j)) /\ Rabs (val (feval rho (frame_formula rep i j)) - in_frame rep c s' i j) <= 13 * u).
  { intros rep i j Hi Hj.
    assert (Pl : plain (frame_formula rep i j)) by (revert i Hi; apply cases3; revert j Hj; apply cases3; destruct rep; cbn; tauto).
    assert (Fi : fin (feval rho (frame_formula rep i j))).
    { apply low_fits; auto. clear Pl. revert i Hi. apply cases3; revert j Hj; apply cases3; destruct rep; cbn; repeat split; lia. }
    split; [exact Fi|]. pose proof (formula_near prec emax rho (frame_formula rep i j) Pl Fi) as N. cbv zeta in N. change (fun k => val (rho k)) with r in N.
    assert (Ex : feval (T:=R) r (frame_formula rep i j) = in_frame rep c s' i j).
    { clear N Fi Pl. revert i Hi. apply cases3; revert j Hj; apply cases3; destruct rep; cbn [frame_formula in_frame feval add sub mul neg ROps]; rewrite ?R0, ?R1, ?R2, ?R3, ?R4, ?R5; ring. }
    rewrite Ex in N. clear Ex.
    assert (M2 : forall x y, Rabs x <= 101 / 100 -> Rabs y <= 101 / 100 -> 0 <= Rabs x * Rabs y <= 103 / 100).
    { intros x y Hx Hy. split; [apply Rmult_le_pos; apply Rabs_pos|]. assert (Rabs x * Rabs y <= 101 / 100 * (101 / 100)) by (apply Rmult_le_compat; auto using Rabs_pos). lra. }
    assert (M3 : forall x y z, Rabs x <= 101 / 100 -> Rabs y <= 101 / 100 -> Rabs z <= 101 / 100 -> 0 <= Rabs x * (Rabs y * Rabs z) <= 105 / 100).
    { intros x y z Hx Hy Hz. destruct (M2 y z Hy Hz). split; [apply Rmult_le_pos; auto using Rabs_pos|]. assert (Rabs x * (Rabs y * Rabs z) <= 101 / 100 * (103 / 100)) by (apply Rmult_le_compat; auto using Rabs_pos). lra. }
    apply (near_13 prec emax (steps (frame_formula rep i j)) (size r (frame_formula rep i j)) (tiny eta r (frame_formula rep i j))); auto.
    - clear. destruct rep, i as [|[|i]], j as [|[|j]]; cbn; lia.
    - split; [apply tiny_pos|]. clear N Fi Pl. revert i Hi. apply cases3; revert j Hj; apply cases3; destruct rep; cbn [frame_formula tiny size]; rewrite ?R0, ?R1, ?R2, ?R3, ?R4, ?R5; lra.
    - split; [apply size_pos|]. clear N Fi Pl. revert i Hi. apply cases3; revert j Hj; apply cases3; destruct rep; cbn [frame_formula size]; rewrite ?R0, ?R1, ?R2, ?R3, ?R4, ?R5;
        repeat match goal with |- context [Rabs ?x * (Rabs ?y * Rabs ?z)] => pose proof (M3 x y z ltac:(assumption) ltac:(assumption) ltac:(assumption)); set (Rabs x * (Rabs y * Rabs z)) in * end;
        repeat match goal with |- context [Rabs ?x * Rabs ?y] => pose proof (M2 x y ltac:(assumption) ltac:(assumption)); set (Rabs x * Rabs y) in * end; lra. }
  assert (Tr : forall i j, (i < 3)%nat -> (j < 3)%nat -> in_frame (ea_repeat a) c s' (place a i) (place a j) = three_turns o c s i j).
  { intros i j Hi Hj. pose proof (frame_is_turns o c s' i j Hi Hj) as H. cbv zeta in H. fold a in H. rewrite H. unfold a. rewrite <- reversed_odd. reflexivity. }
  assert (Near : forall i j, (i < 3)%nat -> (j < 3)%nat -> fin (be m' i j) /\ Rabs (B m' i j - in_frame (ea_repeat a) c s' (place a i) (place a j)) <= 13 * u) by (intros i j Hi Hj; rewrite Ev by auto; apply Q; auto).
  split.
  - intros i j Hi Hj. rewrite <- Tr by auto. apply Near; auto.
  - apply (close_13 prec emax (4 * e) (4 * e) (fun i j => in_frame (ea_repeat a) c s' (place a i) (place a j))); auto; try lra; [|intros; apply Near; auto].
    apply near_orthogonal_place. apply frame_near_orthogonal; auto. lra.
Qed.
(** a vector turned by the matrix keeps its length *)
Theorem euler_rotation_keeps_length : forall (MO : MathOps F) (m m' : mx F) (angle : nat -> F) o e v r, u <= / 4096 ->
  matrix_rotation_euler m (angle 0%nat) (angle 1%nat) (angle 2%nat) (eo_value o) = Ok m' ->
  (forall t, (t < 3)%nat -> fin (mcos (handed o (angle t))) /\ fin (msin (handed o (angle t)))) ->
  unit_pairs e (fun t => val (mcos (handed o (angle t)))) (fun t => val (msin (handed o (angle t)))) -> e <= / 128 ->
  transform_vector m' v = Ok r -> (forall k, (k < 3)%nat -> fin (el v k)) -> 2 * norm 3 (vals v) + 4 * eta < bpow radix2 emax ->
  (forall i, (i < 3)%nat -> fin (el r i)) /\ Rabs (norm 3 (vals r) - norm 3 (vals v)) <= (12 * e + 165 * u) * norm 3 (vals v) + 6 * eta.
Proof.
  intros MO m m' angle o e v r U Em Fcs He E128 Ev Fv Fit. pose proof (u_pos prec) as U0. assert (E0 : 0 <= e) by (eapply Rle_trans; [apply Rabs_pos|exact (He 0%nat ltac:(lia))]).
  assert (He' : unit_pairs e (fun t => val (mcos (handed o (angle t)))) (fun t => if reversed o then - val (msin (handed o (angle t))) else val (msin (handed o (angle t))))).
  { intros t Ht. pose proof (He t Ht) as H. cbv beta in *. destruct (reversed o); [|exact H]. rewrite Rmult_opp_opp. exact H. }
  destruct (euler_matrix_near_rotation MO m m' angle o e ltac:(lra) Em Fcs He' ltac:(lra)) as [En NO].
  destruct (rotated_vector_length prec emax m' v r (4 * e + 53 * u) ltac:(lra) Ev NO ltac:(lra) (fun i j Hi Hj => proj1 (En i j Hi Hj)) Fv Fit) as [A C]. split; [auto|]. eapply Rle_trans; [exact C|]. right. ring.
Qed.
(** about one coordinate axis nothing is rounded *)
Theorem world_axis_matrix_exact : forall (MO : MathOps F) (m m' : mx F) axis angle, matrix_rotation_world_axis m axis angle = Ok m' -> fin (mcos angle) -> fin (msin angle) ->
  forall i j, (i < 3)%nat -> (j < 3)%nat -> fin (be m' i j) /\ B m' i j = turn (val (mcos angle)) (val (msin angle)) (unit_axis axis) i j.
Proof.
  intros MO m m' axis angle E Fc Fs i j Hi Hj. pose proof (world_axis_eval m m' axis angle E) as [A Ev]. rewrite (Ev i j Hi Hj).
  destruct (val_1 prec emax) as [V1 F1]. assert (V0 : val (zero : F) = 0) by reflexivity. assert (F0 : fin (zero : F)) by reflexivity.
  assert (Vn : forall x : F, val (neg x) = - val x) by (intros; apply B2R_Bopp). assert (Fn : forall x : F, fin x -> fin (neg x)) by (intros x Hx; cbn [neg BOps]; rewrite is_finite_Bopp; exact Hx).
  destruct A as [-> |[-> | ->]]; revert i Hi; apply cases3; revert j Hj; apply cases3; cbv [axis_entry Z.to_nat Pos.to_nat Pos.iter_op Nat.add Nat.eqb Nat.modulo Nat.divmod Nat.sub snd fst];
    (split; [solve [auto]|rewrite ?Vn, ?V1, ?V0; unfold turn, unit_axis; cbn; ring]).
Qed.
Theorem plane_matrix_exact : forall (MO : MathOps F) (m m' : mx F) angle, matrix_rotation_2D m angle = Ok m' -> fin (mcos angle) -> fin (msin angle) ->
  let c := val (mcos angle) in let s := val (msin angle) in
  (forall i j, (i < 2)%nat -> (j < 2)%nat -> fin (be m' i j)) /\ B m' 0%nat 0%nat = c /\ B m' 0%nat 1%nat = s /\ B m' 1%nat 0%nat = - s /\ B m' 1%nat 1%nat = c.
Proof.
  intros MO m m' angle E Fc Fs c s. pose proof (plane_eval m m' angle E) as (E00 & E01 & E10 & E11).
  assert (Vn : forall x : F, val (neg x) = - val x) by (intros; apply B2R_Bopp). assert (Fn : forall x : F, fin x -> fin (neg x)) by (intros x Hx; cbn [neg BOps]; rewrite is_finite_Bopp; exact Hx).
  split; [intros [|[|i]] [|[|j]] Hi Hj; try lia; rewrite ?E00, ?E01, ?E10, ?E11; auto|]. rewrite E00, E01, E10, E11, Vn. auto.
Qed.
(** so the rows are orthonormal up to what the math library left *)
Corollary world_axis_near_orthogonal : forall (MO : MathOps F) (m m' : mx F) axis angle e, matrix_rotation_world_axis m axis angle = Ok m' -> fin (mcos angle) -> fin (msin angle) ->
  Rabs (val (mcos angle) * val (mcos angle) + val (msin angle) * val (msin angle) - 1) <= e -> near_orthogonal 3 e (B m').
Proof.
  intros MO m m' axis angle e E Fc Fs He i j Hi Hj. destruct (world_axis_eval m m' axis angle E) as [A _]. pose proof (fun i j Hi Hj => proj2 (world_axis_matrix_exact MO m m' axis angle E Fc Fs i j Hi Hj)) as V. cbv beta in V.
  assert (E0 : 0 <= e) by (eapply Rle_trans; [apply Rabs_pos|exact He]).
  unfold gram. cbn [rsum]. rewrite !V by (auto; lia). set (c := val (mcos angle)) in *. set (s := val (msin angle)) in *. clear V E Fc Fs.
  destruct A as [-> |[-> | ->]]; revert i Hi; apply cases3; revert j Hj; apply cases3; unfold turn, unit_axis; cbn;
  match goal with |- Rabs ?x <= _ => first [replace x with 0 by ring; rewrite Rabs_R0; exact E0|replace x with (c * c + s * s - 1) by ring; exact He] end.
Qed.
End IEEE.

(** ** Examples in double precision, with the math library of PropFloatRot.v *)
Example euler_case : let MO := turn_math in forall o, exists m', matrix_rotation_euler ex_m (dbl 1 0) (dbl 3 (-1)) (dbl (-2) 0) (eo_value o) = Ok m' /\ near_orthogonal 3 (/ 128) (fun i j => B2R (be m' i j)).
Proof.
  intros MO o. assert (E : exists m', matrix_rotation_euler ex_m (dbl 1 0) (dbl 3 (-1)) (dbl (-2) 0) (eo_value o) = Ok m') by (unfold matrix_rotation_euler; destruct (ea_repeat _); eexists; reflexivity).
  destruct E as [m' E]. exists m'. split; [exact E|].
  assert (D : forall m e, (Z.abs m < 2 ^ 53)%Z -> (-1000 <= e <= 900)%Z -> is_finite (dbl m e) = true /\ B2R (dbl m e) = IZR m * bpow radix2 e) by apply dbl_val.
  assert (U9 : u_round 53 <= / 1000000) by (apply Rle_trans with (bpow radix2 (-20)); [apply bpow_le; lia|cbn; lra]).
  destruct (euler_matrix_near_rotation 53 1024 MO ex_m m' (fun t => nth t [dbl 1 0; dbl 3 (-1); dbl (-2) 0] (dbl 0 0)) o (/ 1024) ltac:(lra) E) as [_ NO].
  - intros t Ht. split; apply D; lia.
  - intros t Ht. cbn [mcos msin MO turn_math]. rewrite !(fun m e A B => proj2 (D m e A B)) by lia. destruct (reversed o); cbn; apply Rabs_le; lra.
  - lra.
  - intros i j Hi Hj. eapply Rle_trans; [apply NO; auto|]. lra.
Qed.
Print Assumptions euler_matrix_near_rotation.
Print Assumptions euler_rotation_keeps_length.
Print Assumptions world_axis_matrix_exact.
Print Assumptions plane_matrix_exact.
Print Assumptions world_axis_near_orthogonal.
