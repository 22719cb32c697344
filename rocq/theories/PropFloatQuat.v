(** C86: quaternions built from angles, in IEEE arithmetic. *)
From Coq Require Import ZArith Bool List Arith Lia Reals Lra.
From Flocq Require Import Core BinarySingleNaN.
From Verif Require Import Base RInst MiscModel MatModel MatSpec MatOps RotModel QuatModel VecModel LUModel XfModel MiscSpec FloatModel FloatFacts FloatDot PropFloat PropFloatLU FloatExpr PropFloatForm PropFloatNorm FloatRot PropFloatRot PropFloatEuler.
Import ListNotations.
Open Scope R_scope.

(** ** Specification.  [hamilton], the product of quaternions (w, x, y, z): PropFloatForm.v; [unit_within]: PropFloatRot.v; [unit_axis], [unit_pairs], [reversed]: PropFloatEuler.v *)
(** the quaternion of a turn whose half angle has cosine [c] and sine [s] *)
Definition half_turn (c s : R) (n : nat -> R) (i : nat) : R := match i with 0%nat => c | S k => s * n k end.
(** the turn applied first stands on the right *)
Definition three_half_turns (o : euler_order) (c s : nat -> R) : nat -> R :=
  let H t := half_turn (c t) (s t) (unit_axis (nth t (eo_name o) 0%Z)) in
  hamilton positive_cross (hamilton positive_cross (H 2%nat) (H 1%nat)) (H 0%nat).

(** ** The components as formulas; variables 0-2 are the cosines, 3-5 the sines *)
Definition frame_parts (rep odd : bool) (p : nat) : formula :=
  let c0 := FVar 0 in let c1 := FVar 1 in let c2 := FVar 2 in let s0 := FVar 3 in let s1 := FVar 4 in let s2 := FVar 5 in
  let J x := if odd then FNeg x else x in
  if rep then match p with
    | 0%nat => FMul c1 (FSub (FMul c0 c2) (FMul s0 s2)) | 1%nat => FMul c1 (FAdd (FMul c0 s2) (FMul s0 c2))
    | 2%nat => J (FMul s1 (FAdd (FMul c0 c2) (FMul s0 s2))) | _ => FMul s1 (FSub (FMul c0 s2) (FMul s0 c2)) end
  else match p with
    | 0%nat => FAdd (FMul c1 (FMul c0 c2)) (FMul s1 (FMul s0 s2)) | 1%nat => FSub (FMul c1 (FMul s0 c2)) (FMul s1 (FMul c0 s2))
    | 2%nat => J (FAdd (FMul c1 (FMul s0 s2)) (FMul s1 (FMul c0 c2))) | _ => FSub (FMul c1 (FMul c0 s2)) (FMul s1 (FMul s0 c2)) end.
Definition place4 (a : euler_axes) (i : nat) : nat := match i with 0%nat => 0%nat | S k => S (place a k) end.
Lemma cases4 (P : nat -> Prop) : P 0%nat -> P 1%nat -> P 2%nat -> P 3%nat -> forall i, (i < 4)%nat -> P i.
Proof. intros A B C D [|[|[|[|i]]]] H; auto; lia. Qed.
Section Eval.
Context {T : Type} {Op : Ops T} {MO : MathOps T}.
(** half the angle; orders that are [reversed] negate the second angle before *)
Definition halved (o : euler_order) (t : nat) (angle : T) : T := div (if reversed o && Nat.eqb t 1 then neg angle else angle) two.
Definition half_pairs (o : euler_order) (a0 a1 a2 : T) (k : nat) : T :=
  match k with
  | 0%nat => mcos (halved o 0 a0) | 1%nat => mcos (halved o 1 a1) | 2%nat => mcos (halved o 2 a2)
  | 3%nat => msin (halved o 0 a0) | 4%nat => msin (halved o 1 a1) | 5%nat => msin (halved o 2 a2) | _ => zero end.
Lemma euler_quat_eval qo (q : quat T) a0 a1 a2 o : forall i, (i < 4)%nat -> let a := unpack_euler (eo_value o) in
  qget (quaternion_rotation_euler qo q a0 a1 a2 (eo_value o)) (part qo i) = feval (half_pairs o a0 a1 a2) (frame_parts (ea_repeat a) (ea_odd a) (place4 a i)).
Proof. intros i Hi a. subst a. revert i Hi. destruct o; destruct qo; destruct q; apply cases4; reflexivity. Qed.
Lemma world_axis_quat_eval qo (q q' : quat T) axis angle : quaternion_rotation_world_axis qo q axis angle = Ok q' -> (axis = 0 \/ axis = 1 \/ axis = 2)%Z /\
  forall i, (i < 4)%nat -> qget q' (part qo i) = match i with 0%nat => mcos (div angle two) | S k => if Z.eqb axis (Z.of_nat k) then msin (div angle two) else zero end.
Proof.
  intros E. unfold quaternion_rotation_world_axis, require in E. destruct (Z.leb_spec 0 axis); [|discriminate]. destruct (Z.leb_spec axis 2); [|discriminate]. cbn [andb bind] in E.
  assert (A : (axis = 0 \/ axis = 1 \/ axis = 2)%Z) by lia. split; [exact A|]. apply ok_inj in E. subst q'.
  destruct A as [-> |[-> | ->]]; destruct qo, q; apply cases4; reflexivity.
Qed.
Lemma axis_angle_quat_eval qo (q q' : quat T) axis angle : quaternion_rotation_axis_angle qo q axis angle = Ok q' ->
  forall i, (i < 4)%nat -> qget q' (part qo i) = match i with 0%nat => mcos (div angle two) | S k => mul (el axis k) (msin (div angle two)) end.
Proof.
  intros E. unfold quaternion_rotation_axis_angle in E.
  assert (L : length axis = 3%nat) by (unfold check_size, require in E; destruct (Nat.eqb_spec (length axis) 3); [auto|discriminate]).
  apply check_ok in E. destruct axis as [|x [|y [|z [|]]]]; try discriminate L. apply ok_inj in E. subst q'. destruct qo, q; apply cases4; reflexivity.
Qed.
End Eval.
(** ** Exact components *)
Lemma half_turns_frame o c s i : (i < 4)%nat -> let a := unpack_euler (eo_value o) in let r k := match k with 0%nat => c 0%nat | 1%nat => c 1%nat | 2%nat => c 2%nat | 3%nat => s 0%nat | 4%nat => s 1%nat | _ => s 2%nat end in
  feval (T:=R) r (frame_parts (ea_repeat a) (ea_odd a) (place4 a i)) = three_half_turns o c (fun t => if reversed o && Nat.eqb t 1 then - s t else s t) i.
Proof.
  intros Hi a r. subst a. revert i Hi. destruct o; apply cases4; unfold three_half_turns; cbn; ring.
Qed.
Lemma three_half_turns_unit o c s e : unit_pairs e c s -> e <= / 16 -> unit_within 4 (4 * e) (three_half_turns o c s).
Proof.
  intros H E16. pose proof (H 0%nat ltac:(lia)) as P0. pose proof (H 1%nat ltac:(lia)) as P1. pose proof (H 2%nat ltac:(lia)) as P2. clear H.
  set (p0 := c 0%nat * c 0%nat + s 0%nat * s 0%nat - 1) in *. set (p1 := c 1%nat * c 1%nat + s 1%nat * s 1%nat - 1) in *. set (p2 := c 2%nat * c 2%nat + s 2%nat * s 2%nat - 1) in *.
  assert (E0 : 0 <= e) by (eapply Rle_trans; [apply Rabs_pos|exact P0]). unfold unit_within.
  replace (rsum 4 (fun k => three_half_turns o c s k * three_half_turns o c s k) - 1) with (p0 + p1 + p2 + (p0 * p1 + p0 * p2 + p1 * p2) + p0 * p1 * p2).
  - assert (M : forall x y z, Rabs x <= z -> Rabs y <= e -> Rabs (x * y) <= z * e) by (intros x y z Hx Hy; rewrite Rabs_mult; apply Rmult_le_compat; auto using Rabs_pos).
    pose proof (M p0 p1 e P0 P1) as A. pose proof (M p0 p2 e P0 P2) as B. pose proof (M p1 p2 e P1 P2) as C. pose proof (M (p0 * p1) p2 (e * e) A P2) as D.
    assert (Q : e * e <= / 16 * e) by (apply Rmult_le_compat_r; lra). assert (Q3 : e * e * e <= / 16 * e * e) by (apply Rmult_le_compat_r; lra).
    repeat (match goal with H : Rabs _ <= _ |- _ => apply Rabs_le_inv in H end). apply Rabs_le. lra.
  - unfold p0, p1, p2. destruct o; unfold three_half_turns; cbn; ring.
Qed.

Section IEEE.
Context (prec emax : Z) {Hprec : Prec_gt_0 prec} {Hmax : Prec_lt_emax prec emax}.
Notation F := (binary_float prec emax).
Notation u := (u_round prec).
Notation eta := (eta_min prec emax).
Notation val := (@B2R prec emax).
Notation fin x := (is_finite x = true).
Notation vals := (vals prec emax).
Notation B m := (fun i j => val (be m i j)).
Notation wxyz := (wxyz prec emax).

Lemma near_13' c s t d e : u <= / 256 -> (c <= 4)%nat -> 0 <= t <= 5 -> 0 <= s <= 25 / 8 -> near prec emax c s t d e -> Rabs (d - e) <= 13 * u.
Proof.
  intros U256 Hc Ht Hs N. destruct (eight_bits prec emax U256) as (U & [Et Eu] & _ & _ & [P1 P4]).
  assert (N4 : near prec emax 4 s t d e) by (revert N; apply near_up; auto; lra). eapply Rle_trans; [exact N4|].
  assert (((1 + u) ^ 4 - 1) * s <= 81 / 20 * u * (25 / 8)) by (apply Rmult_le_compat; lra).
  assert ((1 + u) ^ 4 * t <= 2 * 5) by (apply Rmult_le_compat; lra).
  assert (0 <= (1 + u) ^ 4 * t) by (apply Rmult_le_pos; lra).
  assert ((1 + u) ^ 4 * t * eta <= 2 * 5 * (u / 128)) by (apply Rmult_le_compat; lra). lra.
Qed.
(** quaternions close to one of length one *)
Lemma close_unit (a b : nat -> R) d h : unit_within 4 d b -> d <= / 4 -> 0 <= h <= / 16 -> (forall i, (i < 4)%nat -> Rabs (a i - b i) <= h) -> unit_within 4 (d + 5 * h) a.
Proof.
  intros Hb D [H0 H1] C. unfold unit_within in *. cbn [rsum] in *. rewrite Rplus_0_l in *.
  pose proof (C 0%nat ltac:(lia)) as C0. pose proof (C 1%nat ltac:(lia)) as C1. pose proof (C 2%nat ltac:(lia)) as C2. pose proof (C 3%nat ltac:(lia)) as C3.
  set (x0 := a 0%nat - b 0%nat) in *. set (x1 := a 1%nat - b 1%nat) in *. set (x2 := a 2%nat - b 2%nat) in *. set (x3 := a 3%nat - b 3%nat) in *.
  replace (a 0%nat) with (b 0%nat + x0) by (unfold x0; ring). replace (a 1%nat) with (b 1%nat + x1) by (unfold x1; ring). replace (a 2%nat) with (b 2%nat + x2) by (unfold x2; ring). replace (a 3%nat) with (b 3%nat + x3) by (unfold x3; ring).
  assert (S : forall x, Rabs x <= h -> 0 <= x * x <= h * h) by (intros x Hx; split; [apply sq_pos|]; rewrite <- (Rabs_pos_eq (x * x)) by apply sq_pos; rewrite Rabs_mult; apply Rmult_le_compat; auto using Rabs_pos).
  pose proof (S _ C0). pose proof (S _ C1). pose proof (S _ C2). pose proof (S _ C3).
  assert (Hh : h * h <= / 16 * h) by (apply Rmult_le_compat_r; lra).
  (* 2 |b x| <= h b^2 + x^2 / h is avoided: |b| is bounded through the sum of the squares *)
  set (N := b 0%nat * b 0%nat + b 1%nat * b 1%nat + b 2%nat * b 2%nat + b 3%nat * b 3%nat) in *.
  assert (L : Rabs (b 0%nat) + Rabs (b 1%nat) + Rabs (b 2%nat) + Rabs (b 3%nat) <= 9 / 4).
  { apply Rabs_le_inv in Hb. assert (Q : forall x, Rabs x * Rabs x = x * x) by (intros x; rewrite <- Rabs_mult; apply Rabs_pos_eq, sq_pos).
    pose proof (sq_pos (Rabs (b 0%nat) - 9 / 16)). pose proof (sq_pos (Rabs (b 1%nat) - 9 / 16)). pose proof (sq_pos (Rabs (b 2%nat) - 9 / 16)). pose proof (sq_pos (Rabs (b 3%nat) - 9 / 16)).
    pose proof (Q (b 0%nat)). pose proof (Q (b 1%nat)). pose proof (Q (b 2%nat)). pose proof (Q (b 3%nat)). unfold N in Hb. lra. }
  assert (X : forall y x, Rabs x <= h -> Rabs (y * x) <= Rabs y * h) by (intros y x Hx; rewrite Rabs_mult; apply Rmult_le_compat_l; auto using Rabs_pos).
  pose proof (X (b 0%nat) _ C0) as X0. pose proof (X (b 1%nat) _ C1) as X1. pose proof (X (b 2%nat) _ C2) as X2. pose proof (X (b 3%nat) _ C3) as X3.
  assert (L' : (Rabs (b 0%nat) + Rabs (b 1%nat) + Rabs (b 2%nat) + Rabs (b 3%nat)) * h <= 9 / 4 * h) by (apply Rmult_le_compat_r; auto).
  apply Rabs_le_inv in Hb. apply Rabs_le_inv in X0. apply Rabs_le_inv in X1. apply Rabs_le_inv in X2. apply Rabs_le_inv in X3. unfold N in Hb. apply Rabs_le. lra.
Qed.

Theorem world_axis_quaternion_exact : forall (MO : MathOps F) o (q q' : quat F) axis angle, quaternion_rotation_world_axis o q axis angle = Ok q' ->
  let c := mcos (div angle two) : F in let s := msin (div angle two) : F in fin c -> fin s ->
  all_fin prec emax q' /\ forall i, (i < 4)%nat -> wxyz o q' i = half_turn (val c) (val s) (unit_axis axis) i.
Proof.
  intros MO o q q' axis angle E c s Fc Fs. destruct (world_axis_quat_eval o q q' axis angle E) as [A Ev]. split.
  - apply (all_fin_parts prec emax o). intros i Hi. rewrite Ev by auto. destruct i as [|k]; [exact Fc|]. destruct (Z.eqb _ _); [exact Fs|reflexivity].
  - intros i Hi. unfold PropFloatForm.wxyz. rewrite Ev by auto. destruct i as [|k]; [reflexivity|]. unfold half_turn, unit_axis. destruct (Z.eqb _ _); [change (val s = val s * 1)|change (0 = val s * 0)]; ring.
Qed.
Theorem axis_angle_quaternion_unit : forall (MO : MathOps F) o (q q' : quat F) axis angle e d, u <= / 256 -> quaternion_rotation_axis_angle o q axis angle = Ok q' ->
  let c := mcos (div angle two) : F in let s := msin (div angle two) : F in fin c -> fin s -> (forall k, (k < 3)%nat -> fin (el axis k)) ->
  Rabs (val c * val c + val s * val s - 1) <= e -> e <= / 64 -> unit_within 3 d (vals axis) -> d <= / 64 ->
  all_fin prec emax q' /\ (forall i, (i < 4)%nat -> Rabs (wxyz o q' i - half_turn (val c) (val s) (vals axis) i) <= 2 * u) /\ unit_within 4 (e + 2 * d + 10 * u) (wxyz o q').
Proof.
  intros MO o q q' axis angle e d U256 E c s Fc Fs Fn He E64 Hu D64. pose proof (axis_angle_quat_eval o q q' axis angle E) as Ev. destruct (eight_bits prec emax U256) as (U & [Et Eu] & B9 & _).
  assert (D0 : 0 <= d) by (eapply Rle_trans; [apply Rabs_pos|exact Hu]). assert (E0 : 0 <= e) by (eapply Rle_trans; [apply Rabs_pos|exact He]).
  set (a := vals axis) in *. assert (Hu' := Hu). unfold unit_within in Hu'. cbn [rsum] in Hu'. rewrite Rplus_0_l in Hu'. apply Rabs_le_inv in Hu'. assert (He' := He). apply Rabs_le_inv in He'.
  pose proof (fun i => sq_pos (a i)) as SP. pose proof (SP 0%nat). pose proof (SP 1%nat). pose proof (SP 2%nat). pose proof (sq_pos (val c)). pose proof (sq_pos (val s)).
  assert (AB : forall x y, 0 <= y -> x * x <= y * y -> Rabs x <= y) by (intros x y Hy H'; apply sq_le; auto; rewrite <- Rabs_mult, Rabs_pos_eq by apply sq_pos; auto).
  assert (S1 : Rabs (val s) <= 101 / 100) by (apply AB; lra). assert (A1 : forall k, (k < 3)%nat -> Rabs (a k) <= 101 / 100) by (apply cases3; apply AB; lra).
  assert (Q : forall k, (k < 3)%nat -> fin (mul (el axis k) s) /\ Rabs (val (mul (el axis k) s) - val s * a k) <= 2 * u).
  { intros k Hk. pose (rho := fun i : nat => if Nat.eqb i 0 then el axis k else s). pose (f := FMul (FVar 0) (FVar 1)). change (mul (el axis k) s) with (feval rho f).
    assert (Fi : fin (feval rho f)).
    { apply low_fits; auto; [cbn; tauto|cbn; repeat split; lia| |]; intros [|i]; cbn [rho Nat.eqb]; auto; pose proof (A1 k Hk); unfold a, PropFloat.vals in *; unfold el; lra. }
    split; [exact Fi|]. pose proof (formula_near prec emax rho f ltac:(cbn; tauto) Fi) as N. unfold FloatExpr.near in N. cbn [f steps size tiny feval rho Nat.eqb pow mul ROps Nat.add] in N. change (val (el axis k)) with (a k) in N.
    assert (P : Rabs (a k) * Rabs (val s) <= 101 / 100 * (101 / 100)) by (apply Rmult_le_compat; auto using Rabs_pos). pose proof (Rmult_le_pos _ _ (Rabs_pos (a k)) (Rabs_pos (val s))) as P0.
    rewrite (Rmult_comm (val s)). eapply Rle_trans; [exact N|].
    assert (u * (Rabs (a k) * Rabs (val s)) <= u * (103 / 100)) by (apply Rmult_le_compat_l; lra). assert (u * eta <= / 256 * eta) by (apply Rmult_le_compat_r; lra). lra. }
  assert (N : forall i, (i < 4)%nat -> Rabs (wxyz o q' i - half_turn (val c) (val s) a i) <= 2 * u).
  { intros i Hi. unfold PropFloatForm.wxyz. rewrite Ev by auto. destruct i as [|k]; [cbn [half_turn]; fold c; rewrite Rminus_eq_0, Rabs_R0; lra|]. apply Q. lia. }
  split; [|split; [exact N|]].
  - apply (all_fin_parts prec emax o). intros i Hi. rewrite Ev by auto. destruct i as [|k]; [exact Fc|]. apply Q. lia.
  - replace (e + 2 * d + 10 * u) with (e + 2 * d + 5 * (2 * u)) by ring. apply (close_unit _ (half_turn (val c) (val s) a)); auto; try lra.
    unfold unit_within. cbn [rsum half_turn]. set (n := a 0%nat * a 0%nat + a 1%nat * a 1%nat + a 2%nat * a 2%nat - 1) in *.
    match goal with |- Rabs ?x <= _ => replace x with (val c * val c + val s * val s - 1 + val s * val s * n) by (unfold n; ring) end.
    eapply Rle_trans; [apply Rabs_triang|]. assert (Rabs (val s * val s * n) <= 2 * d); [|lra].
    rewrite Rabs_mult. apply Rmult_le_compat; auto using Rabs_pos; [rewrite Rabs_pos_eq by apply sq_pos; lra|]. apply Rabs_le. lra.
Qed.
Theorem euler_quaternion_unit : forall (MO : MathOps F) qo (q : quat F) (angle : nat -> F) o e, u <= / 256 ->
  (forall t, (t < 3)%nat -> fin (mcos (halved o t (angle t))) /\ fin (msin (halved o t (angle t)))) ->
  let c t := val (mcos (halved o t (angle t))) in let s t := (if reversed o && Nat.eqb t 1 then -1 else 1) * val (msin (halved o t (angle t))) in
  unit_pairs e c s -> e <= / 64 ->
  let q' := quaternion_rotation_euler qo q (angle 0%nat) (angle 1%nat) (angle 2%nat) (eo_value o) in
  all_fin prec emax q' /\ (forall i, (i < 4)%nat -> Rabs (wxyz qo q' i - three_half_turns o c s i) <= 13 * u) /\ unit_within 4 (4 * e + 65 * u) (wxyz qo q').
Proof.
  intros MO qo q angle o e U256 Fcs c s He E64 q'. pose (s' := fun t => val (msin (halved o t (angle t)))).
  assert (He' : unit_pairs e c s'). { intros t Ht. pose proof (He t Ht) as H. unfold s in H. fold (s' t) in H. destruct (reversed o && Nat.eqb t 1); [replace (-1 * s' t * (-1 * s' t)) with (s' t * s' t) in H by ring|rewrite Rmult_1_l in H]; exact H. }
  pose (a := unpack_euler (eo_value o)). pose proof (euler_quat_eval qo q (angle 0%nat) (angle 1%nat) (angle 2%nat) o) as Ev. cbv zeta in Ev. fold a q' in Ev. set (rho := half_pairs o (angle 0%nat) (angle 1%nat) (angle 2%nat)) in *.
  assert (P : forall k, (k < 4)%nat -> (place4 a k < 4)%nat) by (intros [|k] Hk; cbn [place4]; [lia|]; unfold place; destruct (Z.eqb _ _); [lia|destruct (Z.eqb _ _); lia]).
  assert (E0 : 0 <= e) by (eapply Rle_trans; [apply Rabs_pos|exact (He 0%nat ltac:(lia))]). destruct (eight_bits prec emax U256) as (U & [Et Eu] & _).
  assert (C1 : forall t, (t < 3)%nat -> Rabs (c t) <= 101 / 100 /\ Rabs (s' t) <= 101 / 100).
  { intros t Ht. pose proof (He' t Ht) as H. apply Rabs_le_inv in H. pose proof (sq_pos (c t)). pose proof (sq_pos (s' t)). split; (apply sq_le; [lra|]; rewrite <- Rabs_mult, Rabs_pos_eq by apply sq_pos; lra). }
  assert (Frho : forall k, fin (rho k)) by (intros [|[|[|[|[|[|k]]]]]]; try (apply (Fcs 0%nat); lia); try (apply (Fcs 1%nat); lia); try (apply (Fcs 2%nat); lia); reflexivity).
  pose (r := fun k => val (rho k)). assert (R : r 0%nat = c 0%nat /\ r 1%nat = c 1%nat /\ r 2%nat = c 2%nat /\ r 3%nat = s' 0%nat /\ r 4%nat = s' 1%nat /\ r 5%nat = s' 2%nat) by (repeat split).
  destruct R as (R0 & R1 & R2 & R3 & R4 & R5).
  destruct (C1 0%nat ltac:(lia)) as [Bc0 Bs0]. destruct (C1 1%nat ltac:(lia)) as [Bc1 Bs1]. destruct (C1 2%nat ltac:(lia)) as [Bc2 Bs2].
  assert (Brho : forall k, Rabs (r k) <= 2) by (intros [|[|[|[|[|[|k]]]]]]; rewrite ?R0, ?R1, ?R2, ?R3, ?R4, ?R5; try lra; unfold r, rho; cbn; rewrite Rabs_R0; lra).
  assert (Q : forall rep odd i, (i < 4)%nat -> fin (feval rho (frame_parts rep odd i)) /\ Rabs (val (feval rho (frame_parts rep odd i)) - feval (T:=R) r (frame_parts rep odd i)) <= 13 * u).
  { intros rep odd i Hi.
    assert (Pl : plain (frame_parts rep odd i)) by (revert i Hi; apply cases4; destruct rep, odd; cbn; tauto).
    assert (Fi : fin (feval rho (frame_parts rep odd i))).
    { apply low_fits; auto. clear Pl. revert i Hi. apply cases4; destruct rep, odd; cbn; repeat split; lia. }
    split; [exact Fi|]. pose proof (formula_near prec emax rho (frame_parts rep odd i) Pl Fi) as N. cbv zeta in N. change (fun k => val (rho k)) with r in N.
    assert (M2 : forall x y, Rabs x <= 101 / 100 -> Rabs y <= 101 / 100 -> 0 <= Rabs x * Rabs y <= 103 / 100).
    { intros x y Hx Hy. split; [apply Rmult_le_pos; apply Rabs_pos|]. assert (Rabs x * Rabs y <= 101 / 100 * (101 / 100)) by (apply Rmult_le_compat; auto using Rabs_pos). lra. }
    assert (M3 : forall x z, Rabs x <= 101 / 100 -> 0 <= z <= 207 / 100 -> 0 <= Rabs x * z <= 210 / 100).
    { intros x z Hx Hz. split; [apply Rmult_le_pos; [apply Rabs_pos|lra]|]. assert (Rabs x * z <= 101 / 100 * (207 / 100)) by (apply Rmult_le_compat; try lra; auto using Rabs_pos). lra. }
    assert (M4 : forall x z, Rabs x <= 101 / 100 -> 0 <= z <= 103 / 100 -> 0 <= Rabs x * z <= 105 / 100).
    { intros x z Hx Hz. split; [apply Rmult_le_pos; [apply Rabs_pos|lra]|]. assert (Rabs x * z <= 101 / 100 * (103 / 100)) by (apply Rmult_le_compat; try lra; auto using Rabs_pos). lra. }
    apply (near_13' (steps (frame_parts rep odd i)) (size r (frame_parts rep odd i)) (tiny eta r (frame_parts rep odd i))); auto.
    - clear. destruct rep, odd, i as [|[|[|i]]]; cbn; lia.
    - split; [apply tiny_pos|]. clear N Fi Pl. revert i Hi. apply cases4; destruct rep, odd; cbn [frame_parts tiny size]; rewrite ?R0, ?R1, ?R2, ?R3, ?R4, ?R5; lra.
    - split; [apply size_pos|]. clear N Fi Pl. pose proof (M2 _ _ Bc0 Bc2). pose proof (M2 _ _ Bc0 Bs2). pose proof (M2 _ _ Bs0 Bc2). pose proof (M2 _ _ Bs0 Bs2).
      revert i Hi. apply cases4; destruct rep, odd; cbn [frame_parts size]; rewrite ?R0, ?R1, ?R2, ?R3, ?R4, ?R5;
      first [match goal with |- Rabs ?x * ?z <= _ => pose proof (M3 x z ltac:(assumption) ltac:(lra)) end; lra
            |match goal with |- Rabs ?x * ?z + Rabs ?y * ?w <= _ => pose proof (M4 x z ltac:(assumption) ltac:(lra)); pose proof (M4 y w ltac:(assumption) ltac:(lra)) end; lra]. }
  assert (Ex : forall i, (i < 4)%nat -> feval (T:=R) r (frame_parts (ea_repeat a) (ea_odd a) (place4 a i)) = three_half_turns o c s i).
  { intros i Hi. pose proof (half_turns_frame o c s' i Hi) as H. cbv zeta in H. fold a in H.
    transitivity (three_half_turns o c (fun t => if reversed o && Nat.eqb t 1 then - s' t else s' t) i).
    - rewrite <- H. generalize (ea_repeat a) (ea_odd a). pose proof (P i Hi) as Pi. revert Pi. generalize (place4 a i). intros p Hp rep odd. revert p Hp. apply cases4; destruct rep, odd; reflexivity.
    - assert (S : forall t, (t < 3)%nat -> (if reversed o && Nat.eqb t 1 then - s' t else s' t) = s t) by (intros t _; unfold s; fold (s' t); destruct (reversed o && Nat.eqb t 1); ring).
      unfold three_half_turns. rewrite !S by lia. reflexivity. }
  assert (N : forall i, (i < 4)%nat -> Rabs (wxyz qo q' i - three_half_turns o c s i) <= 13 * u) by (intros i Hi; unfold PropFloatForm.wxyz; rewrite Ev, <- Ex by auto; apply Q; auto).
  split; [|split; [exact N|]].
  - apply (all_fin_parts prec emax qo). intros i Hi. rewrite Ev by auto. apply Q. auto.
  - replace (4 * e + 65 * u) with (4 * e + 5 * (13 * u)) by ring. apply (close_unit _ (three_half_turns o c s)); auto; try lra. apply three_half_turns_unit; auto. lra.
Qed.
(** vectors turned with the matrix of such a quaternion keep their length *)
Theorem euler_quaternion_keeps_length : forall (MO : MathOps F) qo (q : quat F) (angle : nat -> F) o e (m m' : mx F) v r, u <= / 65536 ->
  (forall t, (t < 3)%nat -> fin (mcos (halved o t (angle t))) /\ fin (msin (halved o t (angle t)))) ->
  unit_pairs e (fun t => val (mcos (halved o t (angle t)))) (fun t => val (msin (halved o t (angle t)))) -> e <= / 1024 ->
  matrix_rotation_quaternion m qo (quaternion_rotation_euler qo q (angle 0%nat) (angle 1%nat) (angle 2%nat) (eo_value o)) = Ok m' ->
  transform_vector m' v = Ok r -> (forall k, (k < 3)%nat -> fin (el v k)) -> 2 * norm 3 (vals v) + 4 * eta < bpow radix2 emax ->
  (forall i, (i < 3)%nat -> fin (el r i)) /\ Rabs (norm 3 (vals r) - norm 3 (vals v)) <= (60 * e + 1140 * u) * norm 3 (vals v) + 6 * eta.
Proof.
  intros MO qo q angle o e m m' v r U Fcs He E1 Em Ev Fv Fit. pose proof (u_pos prec) as U0. assert (E0 : 0 <= e) by (eapply Rle_trans; [apply Rabs_pos|exact (He 0%nat ltac:(lia))]).
  assert (He' : unit_pairs e (fun t => val (mcos (halved o t (angle t)))) (fun t => (if reversed o && Nat.eqb t 1 then -1 else 1) * val (msin (halved o t (angle t))))).
  { intros t Ht. pose proof (He t Ht) as H. cbv beta in *. set (x := val (msin _)) in *. destruct (reversed o && Nat.eqb t 1); [replace (-1 * x * (-1 * x)) with (x * x) by ring|rewrite Rmult_1_l]; exact H. }
  destruct (euler_quaternion_unit MO qo q angle o e ltac:(lra) Fcs He' ltac:(lra)) as (Fq & _ & Un).
  destruct (quaternion_rotation_keeps_length prec emax qo m m' _ (4 * e + 65 * u) v r ltac:(lra) Em Fq Un ltac:(lra) Ev Fv Fit) as [A C].
  split; [exact A|]. eapply Rle_trans; [exact C|]. right. ring.
Qed.
End IEEE.

(** ** Examples in double precision, with the math library of PropFloatRot.v *)
Lemma dbl_fin m e : (Z.abs m < 2 ^ 53)%Z -> (-1000 <= e <= 900)%Z -> is_finite (dbl m e) = true /\ B2R (dbl m e) = IZR m * bpow radix2 e.
Proof. apply dbl_val. Qed.
Example euler_quaternion_case : let MO := turn_math in forall qo o, unit_within 4 (/ 128) (wxyz 53 1024 qo (quaternion_rotation_euler qo ex_q (dbl 1 0) (dbl 3 (-1)) (dbl (-2) 0) (eo_value o))).
Proof.
  intros MO qo o. assert (U9 : u_round 53 <= / 1000000) by (apply Rle_trans with (bpow radix2 (-20)); [apply bpow_le; lia|cbn; lra]).
  destruct (euler_quaternion_unit 53 1024 MO qo ex_q (fun t => nth t [dbl 1 0; dbl 3 (-1); dbl (-2) 0] (dbl 0 0)) o (/ 1024) ltac:(lra)) as (_ & _ & Un).
  - intros t Ht. split; apply dbl_fin; lia.
  - intros t Ht. cbn [mcos msin MO turn_math]. rewrite !(fun m e A B => proj2 (dbl_fin m e A B)) by lia. destruct (reversed o && Nat.eqb t 1); cbn; apply Rabs_le; lra.
  - lra.
  - cbn [nth] in Un. unfold unit_within in *. eapply Rle_trans; [exact Un|]. lra.
Qed.
Example axis_angle_quaternion_case : let MO := turn_math in forall qo, exists q', quaternion_rotation_axis_angle qo ex_q [dbl 819 (-10); dbl (-614) (-10); dbl 0 0] (dbl 1 0) = Ok q' /\ unit_within 4 (/ 128) (wxyz 53 1024 qo q').
Proof.
  intros MO qo. assert (U9 : u_round 53 <= / 1000000) by (apply Rle_trans with (bpow radix2 (-20)); [apply bpow_le; lia|cbn; lra]).
  assert (E : exists q', quaternion_rotation_axis_angle qo ex_q [dbl 819 (-10); dbl (-614) (-10); dbl 0 0] (dbl 1 0) = Ok q') by (destruct qo; eexists; reflexivity).
  destruct E as [q' E]. exists q'. split; [exact E|].
  destruct (axis_angle_quaternion_unit 53 1024 MO qo ex_q q' _ _ (/ 1024) (/ 1024) ltac:(lra) E) as (_ & _ & Un); try lra.
  - apply dbl_fin; lia.
  - apply dbl_fin; lia.
  - apply cases3; apply dbl_fin; lia.
  - cbn [mcos msin MO turn_math]. rewrite !(fun m e A B => proj2 (dbl_fin m e A B)) by lia. cbn. apply Rabs_le. lra.
  - unfold unit_within, vals. cbn [rsum nth]. rewrite !(fun m e A B => proj2 (dbl_fin m e A B)) by lia. cbn. apply Rabs_le. lra.
  - unfold unit_within in *. eapply Rle_trans; [exact Un|]. lra.
Qed.
Print Assumptions world_axis_quaternion_exact.
Print Assumptions axis_angle_quaternion_unit.
Print Assumptions euler_quaternion_unit.
Print Assumptions euler_quaternion_keeps_length.
