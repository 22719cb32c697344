(** C65: rounding errors of the closed formulas: cross and triple products, small
    determinants, transformation of points, quaternion products and rotation matrices.
    IEEE arithmetic of any precision (FloatModel.v). *)
From Coq Require Import ZArith Bool List Arith Lia Reals Lra.
From Flocq Require Import Core BinarySingleNaN.
From Verif Require Import Base RInst RotModel QuatModel VecModel LUModel XfModel FloatModel FloatFacts FloatDot PropFloat PropFloatLU FloatExpr.
Import ListNotations.
Open Scope R_scope.

(** ** Specification: cofactor expansion along the first row, exact, in absolute
    values, and the number of underflow terms *)
Definition minor (M : nat -> nat -> R) (j a b : nat) : R := M (S a) (if (b <? j)%nat then b else S b).
Fixpoint laplace (n : nat) (M : nat -> nat -> R) : R :=
  match n with 0 => 1 | S n' => rsum n (fun j => (-1) ^ j * M 0%nat j * laplace n' (minor M j)) end.
Fixpoint permanent (n : nat) (M : nat -> nat -> R) : R :=
  match n with 0 => 1 | S n' => rsum n (fun j => M 0%nat j * permanent n' (minor M j)) end.
Fixpoint underflows (n : nat) (M : nat -> nat -> R) : R :=
  match n with 0 | 1 => 0 | S n' => rsum n (fun j => M 0%nat j * underflows n' (minor M j) + 1) end.

(** the quaternion product (w, x, y, z), by i j = k or by i j = -k *)
Definition hamilton (c : crossing) (a b : nat -> R) (i : nat) : R :=
  let s := match c with positive_cross => 1 | negative_cross => -1 end in
  match i with
  | 0 => a 0%nat * b 0%nat - a 1%nat * b 1%nat - a 2%nat * b 2%nat - a 3%nat * b 3%nat
  | 1 => a 0%nat * b 1%nat + a 1%nat * b 0%nat + s * (a 2%nat * b 3%nat - a 3%nat * b 2%nat)
  | 2 => a 0%nat * b 2%nat + a 2%nat * b 0%nat + s * (a 3%nat * b 1%nat - a 1%nat * b 3%nat)
  | _ => a 0%nat * b 3%nat + a 3%nat * b 0%nat + s * (a 1%nat * b 2%nat - a 2%nat * b 1%nat)
  end.
(** the same with absolute values *)
Definition hamilton_size (a b : nat -> R) (i : nat) : R :=
  match i with
  | 0 => Rabs (a 0%nat * b 0%nat) + Rabs (a 1%nat * b 1%nat) + Rabs (a 2%nat * b 2%nat) + Rabs (a 3%nat * b 3%nat)
  | 1 => Rabs (a 0%nat * b 1%nat) + Rabs (a 1%nat * b 0%nat) + Rabs (a 2%nat * b 3%nat) + Rabs (a 3%nat * b 2%nat)
  | 2 => Rabs (a 0%nat * b 2%nat) + Rabs (a 2%nat * b 0%nat) + Rabs (a 3%nat * b 1%nat) + Rabs (a 1%nat * b 3%nat)
  | _ => Rabs (a 0%nat * b 3%nat) + Rabs (a 3%nat * b 0%nat) + Rabs (a 1%nat * b 2%nat) + Rabs (a 2%nat * b 1%nat)
  end.
(** the rotation of (w, x, y, z): row i is the image of basis vector i *)
Definition rotation (a : nat -> R) (i j : nat) : R :=
  let w := a 0%nat in let x := a 1%nat in let y := a 2%nat in let z := a 3%nat in
  match i, j with
  | 0%nat, 0%nat => 1 - 2 * (y * y + z * z) | 0%nat, 1%nat => 2 * (x * y + z * w)       | 0%nat, _ => 2 * (x * z - y * w)
  | 1%nat, 0%nat => 2 * (x * y - z * w)       | 1%nat, 1%nat => 1 - 2 * (x * x + z * z) | 1%nat, _ => 2 * (y * z + x * w)
  | _, 0%nat => 2 * (x * z + y * w)       | _, 1%nat => 2 * (y * z - x * w)       | _, _ => 1 - 2 * (x * x + y * y)
  end.

(** length of (w, x, y, z); distance *)
Definition len4 (a : nat -> R) : R := sqrt (rsum 4 (fun i => a i * a i)).
Definition dist4 (a b : nat -> R) : R := len4 (fun i => a i - b i).

Lemma sum4_pos a : 0 <= rsum 4 (fun i => a i * a i).
Proof. apply rsum_nonneg. intros k _. pose proof (Rle_0_sqr (a k)). unfold Rsqr in *. lra. Qed.
Lemma len4_pos a : 0 <= len4 a. Proof. apply sqrt_pos. Qed.
Lemma len4_sq a : len4 a * len4 a = rsum 4 (fun i => a i * a i). Proof. apply sqrt_sqrt, sum4_pos. Qed.
Lemma len4_ext a b : (forall i, (i < 4)%nat -> a i = b i) -> len4 a = len4 b.
Proof. intros H. unfold len4. f_equal. apply rsum_ext. intros k Hk. rewrite H; auto. Qed.
Lemma le_sq x y : 0 <= y -> x * x <= y * y -> x <= y.
Proof. intros Hy H. destruct (Rle_or_lt x y); auto. assert (y * y < x * x) by (apply Rmult_le_0_lt_compat; lra). lra. Qed.
Lemma cauchy4 a b : Rabs (a 0%nat) * Rabs (b 0%nat) + Rabs (a 1%nat) * Rabs (b 1%nat) + Rabs (a 2%nat) * Rabs (b 2%nat) + Rabs (a 3%nat) * Rabs (b 3%nat) <= len4 a * len4 b.
Proof.
  apply le_sq; [apply Rmult_le_pos; apply len4_pos|]. replace (len4 a * len4 b * (len4 a * len4 b)) with ((len4 a * len4 a) * (len4 b * len4 b)) by ring. rewrite !len4_sq. cbn [rsum].
  assert (SQ : forall x, x * x = Rabs x * Rabs x) by (intros x; rewrite <- Rabs_mult; symmetry; apply Rabs_pos_eq; pose proof (Rle_0_sqr x); unfold Rsqr in *; lra).
  rewrite (SQ (a 0%nat)), (SQ (a 1%nat)), (SQ (a 2%nat)), (SQ (a 3%nat)), (SQ (b 0%nat)), (SQ (b 1%nat)), (SQ (b 2%nat)), (SQ (b 3%nat)).
  set (x0 := Rabs (a 0%nat)). set (x1 := Rabs (a 1%nat)). set (x2 := Rabs (a 2%nat)). set (x3 := Rabs (a 3%nat)).
  set (y0 := Rabs (b 0%nat)). set (y1 := Rabs (b 1%nat)). set (y2 := Rabs (b 2%nat)). set (y3 := Rabs (b 3%nat)).
  pose proof (Rle_0_sqr (x0 * y1 - x1 * y0)). pose proof (Rle_0_sqr (x0 * y2 - x2 * y0)). pose proof (Rle_0_sqr (x0 * y3 - x3 * y0)).
  pose proof (Rle_0_sqr (x1 * y2 - x2 * y1)). pose proof (Rle_0_sqr (x1 * y3 - x3 * y1)). pose proof (Rle_0_sqr (x2 * y3 - x3 * y2)). unfold Rsqr in *. lra.
Qed.
Lemma len4_triangle a b : len4 (fun i => a i + b i) <= len4 a + len4 b.
Proof.
  apply le_sq; [pose proof (len4_pos a); pose proof (len4_pos b); lra|]. rewrite len4_sq. replace ((len4 a + len4 b) * (len4 a + len4 b)) with (len4 a * len4 a + 2 * (len4 a * len4 b) + len4 b * len4 b) by ring.
  rewrite !len4_sq. pose proof (cauchy4 a b) as C. assert (P : forall x y, x * y <= Rabs x * Rabs y) by (intros; rewrite <- Rabs_mult; apply RRle_abs).
  pose proof (P (a 0%nat) (b 0%nat)). pose proof (P (a 1%nat) (b 1%nat)). pose proof (P (a 2%nat) (b 2%nat)). pose proof (P (a 3%nat) (b 3%nat)). cbn [rsum]. lra.
Qed.
Lemma dist4_triangle a b c : dist4 a c <= dist4 a b + dist4 b c.
Proof. unfold dist4. eapply Rle_trans; [|apply len4_triangle]. right. apply len4_ext. intros. ring. Qed.
Lemma dist4_len a b : Rabs (len4 a - len4 b) <= dist4 a b.
Proof.
  assert (A : len4 a <= len4 b + dist4 a b) by (eapply Rle_trans; [|apply len4_triangle]; right; apply len4_ext; intros; ring).
  assert (B : len4 b <= len4 a + dist4 a b).
  { replace (dist4 a b) with (dist4 b a). { eapply Rle_trans; [|apply len4_triangle]. right. apply len4_ext. intros. ring. } unfold dist4, len4. f_equal. apply rsum_ext. intros. ring. }
  apply Rabs_le. lra.
Qed.
Lemma len4_bound a E : 0 <= E -> (forall i, (i < 4)%nat -> Rabs (a i) <= E) -> len4 a <= 2 * E.
Proof.
  intros E0 H. apply le_sq; [lra|]. rewrite len4_sq. assert (S : forall i, (i < 4)%nat -> a i * a i <= E * E).
  { intros i Hi. rewrite <- (Rabs_pos_eq (a i * a i)) by (pose proof (Rle_0_sqr (a i)); unfold Rsqr in *; lra). rewrite Rabs_mult. apply Rmult_le_compat; auto using Rabs_pos. }
  pose proof (S 0 ltac:(lia))%nat. pose proof (S 1 ltac:(lia))%nat. pose proof (S 2 ltac:(lia))%nat. pose proof (S 3 ltac:(lia))%nat. cbn [rsum]. lra.
Qed.
(** quaternion products multiply lengths *)
Lemma hamilton_len c a b : len4 (hamilton c a b) = len4 a * len4 b.
Proof. unfold len4. rewrite <- sqrt_mult by apply sum4_pos. f_equal. destruct c; cbn [rsum hamilton]; ring. Qed.
Lemma hamilton_dist c a a' b : dist4 (hamilton c a b) (hamilton c a' b) = dist4 a a' * len4 b.
Proof. unfold dist4. rewrite <- (hamilton_len c). apply len4_ext. intros i Hi. destruct i as [|[|[|i]]]; cbn [hamilton]; ring. Qed.
Lemma hamilton_size_len a b i : 0 <= hamilton_size a b i <= len4 a * len4 b.
Proof.
  split; [destruct i as [|[|[|i]]]; cbn; repeat apply Rplus_le_le_0_compat; apply Rabs_pos|].
  pose (pick := fun (v : nat -> R) p q r s k => match k with 0%nat => v p | 1%nat => v q | 2%nat => v r | _ => v s end : R).
  assert (P : forall v p q r s, rsum 4 (fun i => v i * v i) = v p * v p + v q * v q + v r * v r + v s * v s -> len4 (pick v p q r s) = len4 v).
  { intros v p q r s E. unfold len4. f_equal. rewrite E. cbn [rsum pick]. ring. }
  destruct i as [|[|[|i]]]; cbn [hamilton_size]; rewrite !Rabs_mult.
  - apply cauchy4.
  - pose proof (cauchy4 a (pick b 1 0 3 2)%nat) as C. rewrite P in C by (cbn [rsum]; ring). cbn [pick] in C. exact C.
  - pose proof (cauchy4 (pick a 0 2 3 1)%nat (pick b 2 0 1 3)%nat) as C. rewrite !P in C by (cbn [rsum]; ring). cbn [pick] in C. exact C.
  - pose proof (cauchy4 (pick a 0 3 1 2)%nat (pick b 3 0 2 1)%nat) as C. rewrite !P in C by (cbn [rsum]; ring). cbn [pick] in C. exact C.
Qed.

Section IEEE.
Context (prec emax : Z) {Hprec : Prec_gt_0 prec} {Hmax : Prec_lt_emax prec emax}.
Notation F := (binary_float prec emax).
Notation u := (u_round prec).
Notation eta := (eta_min prec emax).
Notation val := (@B2R prec emax).
Notation fin x := (is_finite x = true).
(** [near c s t d e]: |d - e| <= ((1+u)^c - 1) s + (1+u)^c t eta (FloatExpr.v) *)
Notation near := (near prec emax).
Notation vals := (vals prec emax).

Lemma near_up c c' s s' t t' d e : (c <= c')%nat -> s <= s' -> 0 <= s' -> 0 <= t -> t <= t' -> near c s t d e -> near c' s' t' d e.
Proof.
  intros Hc Hs S0 T0 Ht H. unfold near in *. pose proof (u_pos prec) as U. pose proof (eta_pos prec emax) as Et. eapply Rle_trans; [exact H|].
  assert (P1 : forall n, 1 <= (1 + u) ^ n) by (intros; apply one_le_pow; lra). pose proof (P1 c). assert (UP : (1 + u) ^ c <= (1 + u) ^ c') by (apply pow_up; auto; lra).
  apply Rplus_le_compat; [|apply Rmult_le_compat_r; [lra|]; apply Rmult_le_compat; lra].
  apply Rle_trans with (((1 + u) ^ c - 1) * s'); [apply Rmult_le_compat_l; lra|apply Rmult_le_compat_r; lra].
Qed.
(** run the formula of the code on variables *)
Lemma by_formula (rho : nat -> F) e c s t (d : F) x : d = feval rho e -> fin d -> plain e -> steps e = c ->
  size (fun k => val (rho k)) e = s -> tiny eta (fun k => val (rho k)) e = t -> feval (T:=R) (fun k => val (rho k)) e = x -> near c s t (val d) x.
Proof. intros -> H P <- <- <- <-. apply formula_near; auto. Qed.

Lemma ok_inj {A} (x y : A) : Ok x = Ok y -> x = y. Proof. congruence. Qed.
Lemma check_size_eq {T} (v : list T) n {A} (k : out A) r : (check_size v n ;;; k) = Ok r -> length v = n /\ k = Ok r.
Proof. unfold check_size, require. destruct (Nat.eqb_spec (length v) n); cbn [bind]; [auto|discriminate]. Qed.
Definition env3 (a b c : nat -> F) (k : nat) : F := if (k <? 3)%nat then a k else if (k <? 6)%nat then b (k - 3)%nat else c (k - 6)%nat.

Theorem perp_dot_accuracy : forall v w (d : F), vperp_dot v w = Ok d -> fin d -> let a := vals v in let b := vals w in
  near 2 (Rabs (a 0%nat * b 1%nat) + Rabs (a 1%nat * b 0%nat)) 2 (val d) (a 0%nat * b 1%nat - a 1%nat * b 0%nat).
Proof.
  intros v w d E H a b. unfold vperp_dot in E. apply check_size_eq in E. destruct E as [_ E]. apply check_size_eq in E. destruct E as [_ E]. injection E as <-.
  eapply (by_formula (env3 (el v) (el w) (el w)) (FSub (FMul (FVar 0) (FVar 4)) (FMul (FVar 1) (FVar 3)))); auto; cbn; try tauto; try reflexivity; rewrite ?Rabs_mult; try reflexivity. ring.
Qed.
Theorem cross_accuracy : forall v w r : list F, vcross3 v w = Ok r -> length r = 3%nat /\ let a := vals v in let b := vals w in forall i, (i < 3)%nat -> fin (el r i) ->
  let j := ((i + 1) mod 3)%nat in let k := ((i + 2) mod 3)%nat in
  near 2 (Rabs (a j * b k) + Rabs (a k * b j)) 2 (vals r i) (a j * b k - a k * b j).
Proof.
  intros v w r E. unfold vcross3 in E. apply check_size_eq in E. destruct E as [_ E]. apply check_size_eq in E. destruct E as [_ E]. injection E as <-. split; [reflexivity|]. intros a b i Hi H j k. revert H. unfold vals at 1. fold (el (elems 3 (fun i => let i0 := ((i + 1) mod 3)%nat in let i1 := ((i + 2) mod 3)%nat in sub (mul (el v i0) (el w i1)) (mul (el v i1) (el w i0)))) i).
  subst j k a b. destruct i as [|[|[|i]]]; [..|lia]; intros H.
  - eapply (by_formula (env3 (el v) (el w) (el w)) (FSub (FMul (FVar 1) (FVar 5)) (FMul (FVar 2) (FVar 4)))); auto; cbn; try tauto; try reflexivity; rewrite ?Rabs_mult; try reflexivity; ring.
  - eapply (by_formula (env3 (el v) (el w) (el w)) (FSub (FMul (FVar 2) (FVar 3)) (FMul (FVar 0) (FVar 5)))); auto; cbn; try tauto; try reflexivity; rewrite ?Rabs_mult; try reflexivity; ring.
  - eapply (by_formula (env3 (el v) (el w) (el w)) (FSub (FMul (FVar 0) (FVar 4)) (FMul (FVar 1) (FVar 3)))); auto; cbn; try tauto; try reflexivity; rewrite ?Rabs_mult; try reflexivity; ring.
Qed.
Definition rows3 (a b c : nat -> R) (i : nat) : nat -> R := match i with 0%nat => a | 1%nat => b | _ => c end.
Theorem triple_accuracy : forall (v w x : list F) d, vtriple v w x = Ok d -> fin d -> let M := rows3 (vals v) (vals w) (vals x) in let A i j := Rabs (M i j) in
  near 5 (permanent 3 A) (underflows 3 A) (val d) (laplace 3 M).
Proof.
  intros v w x d E H M A. unfold vtriple in E. apply check_size_eq in E. destruct E as [Lv E]. apply check_size_eq in E. destruct E as [Lw E]. apply check_size_eq in E. destruct E as [Lx E].
  destruct v as [|v0 [|v1 [|v2 [|]]]]; try discriminate. destruct w as [|w0 [|w1 [|w2 [|]]]]; try discriminate. destruct x as [|x0 [|x1 [|x2 [|]]]]; try discriminate.
  cbn [bind check_vmin check_vsame] in E. apply ok_inj in E. subst d. let X := eval vm_compute in (vtriple [FVar 0; FVar 1; FVar 2] [FVar 3; FVar 4; FVar 5] [FVar 6; FVar 7; FVar 8]) in
  match X with Ok ?e => eapply (by_formula (env3 (el [v0; v1; v2]) (el [w0; w1; w2]) (el [x0; x1; x2])) e); [reflexivity|auto|cbn; tauto|reflexivity|..] end;
    subst A M; unfold laplace, permanent, underflows, minor, rows3, vals; cbn; ring.
Qed.

(** ** Determinants *)
Lemma det_near (M : nat -> nat -> F) n (f : (nat -> nat -> F) -> F) e : f M = feval (fun k => M (k / n)%nat (k mod n)%nat) e -> fin (f M) -> plain e ->
  let r := fun i j => val (M i j) in let A i j := Rabs (r i j) in
  steps e = (n * (n + 1) / 2 - 1)%nat -> size (fun k => r (k / n)%nat (k mod n)%nat) e = permanent n A -> tiny eta (fun k => r (k / n)%nat (k mod n)%nat) e = underflows n A ->
  feval (T:=R) (fun k => r (k / n)%nat (k mod n)%nat) e = laplace n r -> near (n * (n + 1) / 2 - 1) (permanent n A) (underflows n A) (val (f M)) (laplace n r).
Proof. intros E H P r A S1 S2 S3 S4. exact (by_formula _ e _ _ _ _ _ E H P S1 S2 S3 S4). Qed.
Theorem determinant_accuracy : forall (fabs : F -> F) eps (m : mx F) d, determinant fabs eps m = Ok d -> fin d -> (2 <= mrows m <= 4)%nat ->
  let n := mrows m in let M i j := val (mel m i j) in let A i j := Rabs (M i j) in
  near (n * (n + 1) / 2 - 1) (permanent n A) (underflows n A) (val d) (laplace n M).
Proof.
  intros fabs eps m d E H Hn n M A. subst n M A. unfold determinant, require in E. destruct (Nat.eqb _ _); [|discriminate]. cbn [bind] in E. destruct (mrows m) as [|[|[|[|[|n]]]]]; try (exfalso; clear -Hn; lia); apply ok_inj in E; subst d.
  - eapply (det_near (mel m) 2 det2 (det2 (fun i j => FVar (i * 2 + j)))); auto; [cbn; tauto|unfold permanent, underflows, laplace, minor; cbn; ring..].
  - eapply (det_near (mel m) 3 det3 (det3 (fun i j => FVar (i * 3 + j)))); auto; [cbn; tauto|unfold permanent, underflows, laplace, minor; cbn; ring..].
  - let e := eval vm_compute in (det4 (fun i j => FVar (i * 4 + j))) in apply (det_near (mel m) 4 det4 e).
    + reflexivity.
    + auto.
    + cbn. tauto.
    + reflexivity.
    + unfold permanent, minor. cbn. ring.
    + unfold underflows, minor. cbn. ring.
    + unfold laplace, minor. cbn. ring.
Qed.

(** ** Transformation of vectors and points *)
Lemma check_ok {A B} (c : out A) (k : out B) r : (c ;;; k) = Ok r -> k = Ok r.
Proof. destruct c; cbn [bind]; [auto|discriminate..]. Qed.
Definition env_mv (m : mx F) (v : list F) (k : nat) : F := if (k <? 16)%nat then be m (k / 4) (k mod 4) else el v (k - 16).
Notation B m := (fun i j => val (be m i j)).
Theorem transform_vector_accuracy : forall (m : mx F) v r, transform_vector m v = Ok r -> length r = 3%nat /\ forall i, (i < 3)%nat -> fin (el r i) ->
  near 3 (rsum 3 (fun k => Rabs (B m k i * vals v k))) 3 (vals r i) (rsum 3 (fun k => B m k i * vals v k)).
Proof.
  intros m v r E. unfold transform_vector in E. apply check_ok, check_ok, ok_inj in E. subst r. split; [reflexivity|]. intros i Hi.
  destruct i as [|[|[|i]]]; [..|lia]; cbn [el nth]; intros H.
  - eapply (by_formula (env_mv m v) (FAdd (FAdd (FMul (FVar 0) (FVar 16)) (FMul (FVar 4) (FVar 17))) (FMul (FVar 8) (FVar 18)))); auto; cbn; try tauto; try reflexivity; rewrite ?Rabs_mult; unfold vals, el; ring.
  - eapply (by_formula (env_mv m v) (FAdd (FAdd (FMul (FVar 1) (FVar 16)) (FMul (FVar 5) (FVar 17))) (FMul (FVar 9) (FVar 18)))); auto; cbn; try tauto; try reflexivity; rewrite ?Rabs_mult; unfold vals, el; ring.
  - eapply (by_formula (env_mv m v) (FAdd (FAdd (FMul (FVar 2) (FVar 16)) (FMul (FVar 6) (FVar 17))) (FMul (FVar 10) (FVar 18)))); auto; cbn; try tauto; try reflexivity; rewrite ?Rabs_mult; unfold vals, el; ring.
Qed.
Theorem transform_point_accuracy : forall (m : mx F) v r, transform_point m v = Ok r -> length r = 3%nat /\ forall i, (i < 3)%nat -> fin (el r i) ->
  near 4 (rsum 3 (fun k => Rabs (B m k i * vals v k)) + Rabs (B m 3%nat i)) 3 (vals r i) (rsum 3 (fun k => B m k i * vals v k) + B m 3%nat i).
Proof.
  intros m v r E. unfold transform_point in E. apply check_ok, check_ok, ok_inj in E. subst r. split; [reflexivity|]. intros i Hi.
  destruct i as [|[|[|i]]]; [..|lia]; cbn [el nth]; intros H.
  - eapply (by_formula (env_mv m v) (FAdd (FAdd (FAdd (FMul (FVar 0) (FVar 16)) (FMul (FVar 4) (FVar 17))) (FMul (FVar 8) (FVar 18))) (FVar 12))); auto; cbn; try tauto; try reflexivity; rewrite ?Rabs_mult; unfold vals, el; ring.
  - eapply (by_formula (env_mv m v) (FAdd (FAdd (FAdd (FMul (FVar 1) (FVar 16)) (FMul (FVar 5) (FVar 17))) (FMul (FVar 9) (FVar 18))) (FVar 13))); auto; cbn; try tauto; try reflexivity; rewrite ?Rabs_mult; unfold vals, el; ring.
  - eapply (by_formula (env_mv m v) (FAdd (FAdd (FAdd (FMul (FVar 2) (FVar 16)) (FMul (FVar 6) (FVar 17))) (FMul (FVar 10) (FVar 18))) (FVar 14))); auto; cbn; try tauto; try reflexivity; rewrite ?Rabs_mult; unfold vals, el; ring.
Qed.

(** ** Quaternions: the parts (w, x, y, z) in either storage order *)
Definition part (o : order) (i : nat) : nat := match i with 0%nat => oW o | 1%nat => oX o | 2%nat => oY o | _ => oZ o end.
Definition wxyz (o : order) (q : quat F) (i : nat) : R := val (qget q (part o i)).
Definition env_q (o : order) (p q : quat F) (k : nat) : F := if (k <? 4)%nat then qget p (part o k) else qget q (part o (k - 4)).
Definition qvar (o : order) (b : nat) : quat formula :=
  match o with
  | real_first => Quat (FVar b) (FVar (b + 1)) (FVar (b + 2)) (FVar (b + 3))
  | imaginary_first => Quat (FVar (b + 1)) (FVar (b + 2)) (FVar (b + 3)) (FVar b)
  end.
Lemma q_mul_formula o c (p q : quat F) i : (i < 4)%nat -> let e := qget (q_mul o c (qget (qvar o 0)) (qget (qvar o 4))) (part o i) in
  qget (q_mul o c (qget p) (qget q)) (part o i) = feval (env_q o p q) e /\ flat e /\ (steps e <= 4)%nat /\
  let r := fun k => val (env_q o p q k) in size r e = hamilton_size (wxyz o p) (wxyz o q) i /\ tiny eta r e = 4 /\ feval (T:=R) r e = hamilton c (wxyz o p) (wxyz o q) i.
Proof.
  intros Hi. destruct i as [|[|[|[|i]]]]; [..|lia]; destruct o, c; (split; [reflexivity|]; split; [cbn; tauto|]; split; [cbn; lia|]; cbn; rewrite ?Rabs_mult; unfold wxyz; cbn; split; [ring|]; split; ring).
Qed.
Theorem quaternion_product_accuracy : forall o c (p q : quat F) i, (i < 4)%nat -> let r := q_mul o c (qget p) (qget q) in fin (qget r (part o i)) ->
  near 4 (hamilton_size (wxyz o p) (wxyz o q) i) 4 (wxyz o r i) (hamilton c (wxyz o p) (wxyz o q) i).
Proof.
  intros o c p q i Hi r H. destruct (q_mul_formula o c p q i Hi) as (E & Fl & St & Sz & Ti & Ex). fold r in E. rewrite E in H.
  pose proof (formula_near prec emax _ _ (flat_plain prec emax _ Fl) H) as N. cbv zeta in N. rewrite <- E in N. rewrite Sz, Ti, Ex in N. revert N. apply near_up; auto; try lra.
  destruct i as [|[|[|i]]]; cbn; repeat apply Rplus_le_le_0_compat; apply Rabs_pos.
Qed.
Theorem quaternion_product_no_overflow : forall o c (p q : quat F) i, (i < 4)%nat -> (forall k, fin (qget p k) /\ fin (qget q k)) ->
  (1 + u) ^ 4 * (hamilton_size (wxyz o p) (wxyz o q) i + 4 * eta) < bpow radix2 emax -> fin (qget (q_mul o c (qget p) (qget q)) (part o i)).
Proof.
  intros o c p q i Hi Fpq H. destruct (q_mul_formula o c p q i Hi) as (E & Fl & St & Sz & Ti & Ex). rewrite E. apply flat_fits; auto.
  - intros k. unfold env_q. destruct (k <? 4)%nat; apply Fpq.
  - rewrite Sz, Ti. eapply Rle_lt_trans; [|exact H]. pose proof (u_pos prec) as U. pose proof (eta_pos prec emax). rewrite (Rmult_comm eta). apply Rmult_le_compat_r; [|apply pow_up; auto; lra].
    assert (0 <= hamilton_size (wxyz o p) (wxyz o q) i) by (destruct i as [|[|[|i]]]; cbn; repeat apply Rplus_le_le_0_compat; apply Rabs_pos). lra.
Qed.
(** rotation matrix of a quaternion *)
Theorem rotation_quaternion_accuracy : forall o (m m' : mx F) q, matrix_rotation_quaternion m o q = Ok m' -> let a := wxyz o q in
  forall i j, (i < 3)%nat -> (j < 3)%nat -> fin (be m' i j) ->
  exists s, near 4 s 2 (B m' i j) (rotation a i j) /\ 0 <= s <= 1 + 2 * (a 0%nat * a 0%nat + a 1%nat * a 1%nat + a 2%nat * a 2%nat + a 3%nat * a 3%nat).
Proof.
  intros o m m' q E a. unfold matrix_rotation_quaternion in E. apply check_ok, ok_inj in E. subst m'.
  assert (SQ : forall x, Rabs x * Rabs x = x * x) by (intros x; rewrite <- Rabs_mult; apply Rabs_pos_eq; pose proof (Rle_0_sqr x); unfold Rsqr in *; lra).
  assert (SP : forall x, 0 <= x * x) by (intros x; pose proof (Rle_0_sqr x); unfold Rsqr in *; lra).
  assert (AM : forall x y, 0 <= 2 * (Rabs x * Rabs y) <= x * x + y * y).
  { intros x y. split; [pose proof (Rmult_le_pos _ _ (Rabs_pos x) (Rabs_pos y)); lra|]. pose proof (SP (Rabs x - Rabs y)). pose proof (SQ x). pose proof (SQ y). lra. }
  assert (G : forall e d x, d = feval (env_q o q q) e -> fin d -> plain e -> (steps e <= 4)%nat -> let r := fun k => val (env_q o q q k) in tiny eta r e = 2 -> feval (T:=R) r e = x ->
    (size r e <= 1 + 2 * (a 0%nat * a 0%nat + a 1%nat * a 1%nat + a 2%nat * a 2%nat + a 3%nat * a 3%nat)) ->
    exists s, near 4 s 2 (val d) x /\ 0 <= s <= 1 + 2 * (a 0%nat * a 0%nat + a 1%nat * a 1%nat + a 2%nat * a 2%nat + a 3%nat * a 3%nat)).
  { intros e d x -> Fd Pl St r Ti <- Sz. exists (size r e). split; [|split; [apply size_pos|exact Sz]]. eapply near_up; [exact St|apply Rle_refl|apply size_pos| | |apply formula_near; auto]; rewrite ?Ti; fold r; rewrite ?Ti; lra. }
  assert (SZ := fun x => SP (a x)). pose proof (SZ 0%nat). pose proof (SZ 1%nat). pose proof (SZ 2%nat). pose proof (SZ 3%nat). pose proof (fun x y => AM (a x) (a y)) as AA.
  pose (D := fun k l => FSub (FSub FOne (FMul (FVar k) (FAdd (FVar k) (FVar k)))) (FMul (FVar l) (FAdd (FVar l) (FVar l)))).
  pose (X := fun (op : formula -> formula -> formula) k l p r => op (FMul (FVar k) (FAdd (FVar l) (FVar l))) (FMul (FVar p) (FAdd (FVar r) (FVar r)))).
  pose (E := fun i j => match i, j with
    | 0%nat, 0%nat => D 2%nat 3%nat | 0%nat, 1%nat => X FAdd 1 2 0 3 | 0%nat, _ => X FSub 3 1 0 2
    | 1%nat, 0%nat => X FSub 1 2 0 3 | 1%nat, 1%nat => D 3%nat 1%nat | 1%nat, _ => X FAdd 2 3 0 1
    | _, 0%nat => X FAdd 3 1 0 2 | _, 1%nat => X FSub 2 3 0 1 | _, _ => D 1%nat 2%nat end%nat).
  intros i j Hi Hj Hf. apply (G (E i j)); auto; clear G Hf.
  - destruct m as [rr cc [|] f]; (destruct i as [|[|[|i]]]; [..|lia]); (destruct j as [|[|[|j]]]; [..|lia]); reflexivity.
  - (destruct i as [|[|[|i]]]; [..|lia]); (destruct j as [|[|[|j]]]; [..|lia]); cbn; tauto.
  - (destruct i as [|[|[|i]]]; [..|lia]); (destruct j as [|[|[|j]]]; [..|lia]); cbn; lia.
  - (destruct i as [|[|[|i]]]; [..|lia]); (destruct j as [|[|[|j]]]; [..|lia]); cbn; ring.
  - (destruct i as [|[|[|i]]]; [..|lia]); (destruct j as [|[|[|j]]]; [..|lia]); cbn; unfold a, wxyz; cbn; ring.
  - pose proof (AA 0 1)%nat. pose proof (AA 0 2)%nat. pose proof (AA 0 3)%nat. pose proof (AA 1 2)%nat. pose proof (AA 1 3)%nat. pose proof (AA 2 3)%nat.
    pose proof (SQ (a 0%nat)). pose proof (SQ (a 1%nat)). pose proof (SQ (a 2%nat)). pose proof (SQ (a 3%nat)).
    (destruct i as [|[|[|i]]]; [..|lia]); (destruct j as [|[|[|j]]]; [..|lia]); cbn [E D X size]; change (val (env_q o q q 0)) with (a 0%nat); change (val (env_q o q q 1)) with (a 1%nat); change (val (env_q o q q 2)) with (a 2%nat); change (val (env_q o q q 3)) with (a 3%nat); lra.
Qed.

(** ** One product, and a history of products *)
Definition relative : R := 2 * ((1 + u) ^ 4 - 1).
Definition absolute : R := 8 * (1 + u) ^ 4 * eta.
Lemma consts_pos : 0 <= relative /\ 0 <= absolute.
Proof.
  pose proof (u_pos prec). pose proof (eta_pos prec emax). pose proof (one_le_pow (1 + u) 4 ltac:(lra)). unfold relative, absolute. split; [lra|]. apply Rmult_le_pos; lra.
Qed.
Definition all_fin (q : quat F) : Prop := forall k, fin (qget q k).
Lemma all_fin_parts o q : (forall i, (i < 4)%nat -> fin (qget q (part o i))) -> all_fin q.
Proof.
  intros H k. pose proof (H 0 ltac:(lia))%nat. pose proof (H 1 ltac:(lia))%nat. pose proof (H 2 ltac:(lia))%nat. pose proof (H 3 ltac:(lia))%nat. destruct o; cbn in *; destruct k as [|[|[|k]]]; cbn; auto.
Qed.
Theorem quaternion_product_relative : forall o c (p q : quat F), let r := q_mul o c (qget p) (qget q) in all_fin r ->
  dist4 (wxyz o r) (hamilton c (wxyz o p) (wxyz o q)) <= relative * (len4 (wxyz o p) * len4 (wxyz o q)) + absolute.
Proof.
  intros o c p q r H. pose proof (u_pos prec) as U. pose proof (eta_pos prec emax) as Et. pose proof (one_le_pow (1 + u) 4 ltac:(lra)) as P4.
  set (E := ((1 + u) ^ 4 - 1) * (len4 (wxyz o p) * len4 (wxyz o q)) + (1 + u) ^ 4 * 4 * eta).
  assert (L0 : 0 <= len4 (wxyz o p) * len4 (wxyz o q)) by (apply Rmult_le_pos; apply len4_pos).
  assert (E0 : 0 <= E) by (apply Rplus_le_le_0_compat; [apply Rmult_le_pos; lra|apply Rmult_le_pos; lra]).
  replace (relative * _ + absolute) with (2 * E) by (unfold E, relative, absolute; ring). apply len4_bound; auto. intros i Hi.
  eapply Rle_trans; [apply (quaternion_product_accuracy o c p q i Hi); apply H|]. unfold E. apply Rplus_le_compat_r. apply Rmult_le_compat_l; [lra|]. apply hamilton_size_len.
Qed.
Lemma q_mul_eq_mul (MO : MathOps F) o c (p q : quat F) : q_mul_eq o c (XQuat q) p = q_mul o c (qget p) (qget q).
Proof. destruct o, c; reflexivity. Qed.
(** q *= r for every r of a list; the same in exact arithmetic *)
Definition accumulate_rotations {MO : MathOps F} (o : order) (c : crossing) (q : quat F) (l : list (quat F)) : quat F :=
  fold_left (fun q r => q_mul_eq o c (XQuat r) q) l q.
Definition exact_product (c : crossing) (a : nat -> R) (l : list (nat -> R)) : nat -> R := fold_left (fun a b => hamilton c a b) l a.

Lemma chain (MO : MathOps F) o c delta : 0 <= delta -> forall l (q : quat F) a H S,
  (forall r, In r l -> all_fin r /\ len4 (wxyz o r) <= 1 + delta) -> all_fin q -> len4 a <= S -> dist4 (wxyz o q) a <= H - S -> 0 <= H ->
  let n := length l in let beta := (1 + delta) * (1 + relative) in
  (1 + u) ^ 4 * (beta ^ n * (H + INR n * absolute) + 4 * eta) < bpow radix2 emax ->
  all_fin (accumulate_rotations o c q l) /\
  dist4 (wxyz o (accumulate_rotations o c q l)) (exact_product c a (map (wxyz o) l)) <= beta ^ n * (H + INR n * absolute) - (1 + delta) ^ n * S.
Proof.
  intros D0. pose proof (u_pos prec) as U. pose proof (eta_pos prec emax) as Et. destruct consts_pos as [K0 T0]. pose proof (one_le_pow (1 + u) 4 ltac:(lra)) as P4.
  set (beta := (1 + delta) * (1 + relative)). assert (B1 : 1 <= beta) by (unfold beta; assert (0 <= delta * relative) by (apply Rmult_le_pos; lra); lra).
  induction l as [|r l IH]; intros q a H S Hl Fq Ha Hd H0; cbn [length map].
  - cbv zeta. intros _. split; [exact Fq|]. cbn. lra.
  - cbv zeta in IH |- *. intros Fit. set (n := length l) in *. destruct (Hl r (or_introl eq_refl)) as [Fr Lr].
    assert (Lq : len4 (wxyz o q) <= H) by (pose proof (dist4_len (wxyz o q) a) as X; apply Rabs_le_inv in X; lra).
    set (q1 := q_mul o c (qget q) (qget r)). assert (E1 : q_mul_eq o c (XQuat r) q = q1) by apply q_mul_eq_mul.
    pose proof (len4_pos (wxyz o q)) as Pq. pose proof (len4_pos (wxyz o r)) as Pr. pose proof (pos_INR n) as Pn.
    assert (LL : len4 (wxyz o q) * len4 (wxyz o r) <= H * (1 + delta)) by (apply Rmult_le_compat; auto).
    assert (Bn : 1 <= beta ^ n) by (apply one_le_pow; auto). assert (NT : 0 <= INR n * absolute) by (apply Rmult_le_pos; auto).
    assert (ST : beta ^ n * (beta * H + absolute + INR n * absolute) <= beta ^ Datatypes.S n * (H + INR (Datatypes.S n) * absolute)).
    { cbn [pow]. rewrite S_INR. replace (beta * beta ^ n * (H + (INR n + 1) * absolute)) with (beta ^ n * (beta * (H + (INR n + 1) * absolute))) by ring. apply Rmult_le_compat_l; [lra|].
      assert (0 <= (beta - 1) * ((INR n + 1) * absolute)) by (apply Rmult_le_pos; [lra|apply Rmult_le_pos; lra]). lra. }
    assert (BIG : H * (1 + delta) <= beta ^ n * (beta * H + absolute + INR n * absolute)).
    { apply Rle_trans with (1 * (beta * H + absolute + INR n * absolute)); [|apply Rmult_le_compat_r; auto].
      - unfold beta. assert (0 <= H * (1 + delta) * relative) by (apply Rmult_le_pos; [apply Rmult_le_pos; lra|lra]). lra.
      - assert (0 <= beta * H) by (apply Rmult_le_pos; lra). lra. }
    assert (F1 : all_fin q1).
    { apply (all_fin_parts o). intros i Hi. apply quaternion_product_no_overflow; auto. eapply Rle_lt_trans; [|exact Fit]. apply Rmult_le_compat_l; [lra|]. apply Rplus_le_compat_r.
      destruct (hamilton_size_len (wxyz o q) (wxyz o r) i) as [_ X]. lra. }
    pose proof (quaternion_product_relative o c q r F1) as QR. fold q1 in QR.
    destruct (IH q1 (hamilton c a (wxyz o r)) (beta * H + absolute) ((1 + delta) * S)) as [IF ID]; auto.
    + intros x Hx. apply Hl. right. auto.
    + rewrite hamilton_len, Rmult_comm. apply Rmult_le_compat; auto using len4_pos.
    + eapply Rle_trans; [apply (dist4_triangle _ (hamilton c (wxyz o q) (wxyz o r)))|]. rewrite hamilton_dist.
      assert (A1 : relative * (len4 (wxyz o q) * len4 (wxyz o r)) <= relative * (H * (1 + delta))) by (apply Rmult_le_compat_l; auto).
      assert (A2 : dist4 (wxyz o q) a * len4 (wxyz o r) <= (H - S) * (1 + delta)) by (apply Rmult_le_compat; auto; apply len4_pos). unfold beta. lra.
    + assert (0 <= beta * H) by (apply Rmult_le_pos; lra). lra.
    + eapply Rle_lt_trans; [|exact Fit]. apply Rmult_le_compat_l; [lra|]. lra.
    + unfold accumulate_rotations, exact_product in *. cbn [fold_left map]. rewrite E1. split; [exact IF|]. eapply Rle_trans; [exact ID|]. cbn [pow]. cbn [pow] in ST. lra.
Qed.
(** after n factors of length at most 1 + delta *)
Theorem rotation_chain_drift : forall (MO : MathOps F) o c delta (q : quat F) l, 0 <= delta ->
  all_fin q -> (forall r, In r l -> all_fin r /\ len4 (wxyz o r) <= 1 + delta) ->
  let n := length l in let L := len4 (wxyz o q) in let bound := ((1 + delta) * (1 + relative)) ^ n * (L + INR n * absolute) in
  (1 + u) ^ 4 * (bound + 4 * eta) < bpow radix2 emax ->
  let r := accumulate_rotations o c q l in all_fin r /\ dist4 (wxyz o r) (exact_product c (wxyz o q) (map (wxyz o) l)) <= bound - (1 + delta) ^ n * L.
Proof.
  intros MO o c delta q l D0 Fq Hl n L bound Fit r. apply (chain MO o c delta D0 l q (wxyz o q) L L); auto.
  - apply Rle_refl.
  - unfold Rminus. rewrite Rplus_opp_r. right. unfold dist4. rewrite (len4_ext _ (fun _ => 0)) by (intros; ring). unfold len4. cbn [rsum]. replace (0 + 0 * 0 + 0 * 0 + 0 * 0 + 0 * 0) with 0 by ring. apply sqrt_0.
  - apply len4_pos.
Qed.
(** with factors of length at most one, in round numbers: an error of 16 u per factor *)
Theorem unit_chain_drift : forall (MO : MathOps F) o c (q : quat F) l, all_fin q -> (forall r, In r l -> all_fin r /\ len4 (wxyz o r) <= 1) -> len4 (wxyz o q) <= 1 ->
  let n := length l in INR (8 * n + 4) * u <= / 2 -> 4 + 64 * INR (n + 1) * eta < bpow radix2 emax ->
  let r := accumulate_rotations o c q l in all_fin r /\ dist4 (wxyz o r) (exact_product c (wxyz o q) (map (wxyz o) l)) <= 16 * INR n * u + 32 * INR n * eta.
Proof.
  intros MO o c q l Fq Hl Lq n Hn Hx r. pose proof (u_pos prec) as U. pose proof (eta_pos prec emax) as Et. pose proof (pos_INR n) as Pn. pose proof (len4_pos (wxyz o q)) as Pq. destruct consts_pos as [K0 T0].
  rewrite plus_INR, mult_INR in Hn. replace (INR 8) with 8 in Hn by (cbn; ring). replace (INR 4) with 4 in Hn by (cbn; ring). assert (NU : 0 <= INR n * u) by (apply Rmult_le_pos; lra). assert (NE : 0 <= INR n * eta) by (apply Rmult_le_pos; lra).
  destruct (growth u 4 ltac:(lra)) as [G1 G2]. { replace (INR 4) with 4 by (cbn; ring). lra. }
  destruct (growth u (8 * n) ltac:(lra)) as [G3 G4]. { rewrite mult_INR. replace (INR 8) with 8 by (cbn; ring). lra. }
  rewrite mult_INR in G3. replace (INR 8) with 8 in G3 by (cbn; ring). pose proof (one_le_pow (1 + u) 4 ltac:(lra)) as P4.
  assert (A : absolute <= 16 * eta) by (unfold absolute; assert ((1 + u) ^ 4 * eta <= 2 * eta) by (apply Rmult_le_compat_r; lra); lra).
  assert (Be : (1 + 0) * (1 + relative) <= (1 + u) ^ 8).
  { replace ((1 + u) ^ 8) with ((1 + u) ^ 4 * (1 + u) ^ 4) by ring. unfold relative. pose proof (Rle_0_sqr ((1 + u) ^ 4 - 1)) as X. unfold Rsqr in X. lra. }
  set (b := ((1 + 0) * (1 + relative)) ^ n). assert (Bn : b <= (1 + u) ^ (8 * n)) by (rewrite pow_mult; apply pow_incr; split; [lra|exact Be]). assert (B1 : 1 <= b) by (apply one_le_pow; lra).
  set (L := len4 (wxyz o q)) in *. assert (NA : 0 <= INR n * absolute <= 16 * (INR n * eta)).
  { split; [apply Rmult_le_pos; auto|]. assert (INR n * absolute <= INR n * (16 * eta)) by (apply Rmult_le_compat_l; auto). lra. }
  assert (BA : b * (INR n * absolute) <= 2 * (16 * (INR n * eta))) by (apply Rmult_le_compat; lra).
  assert (BL : b * L - L <= (b - 1) * 1) by (replace (b * L - L) with ((b - 1) * L) by ring; apply Rmult_le_compat_l; lra).
  destruct (rotation_chain_drift MO o c 0 q l (Rle_refl _) Fq) as [A1 A2].
  - intros x Hx'. rewrite Rplus_0_r. apply Hl. auto.
  - fold n b L. eapply Rle_lt_trans; [|exact Hx]. rewrite plus_INR. replace (INR 1) with 1 by reflexivity.
    assert (X : b * (L + INR n * absolute) <= 2 + 32 * (INR n * eta)) by lra.
    assert (Y : (1 + u) ^ 4 * (b * (L + INR n * absolute) + 4 * eta) <= 2 * (2 + 32 * (INR n * eta) + 4 * eta)).
    { apply Rmult_le_compat; try lra. apply Rplus_le_le_0_compat; [apply Rmult_le_pos; lra|lra]. }
    lra.
  - split; [exact A1|]. eapply Rle_trans; [exact A2|]. fold n b L. rewrite Rplus_0_r, pow1. lra.
Qed.
End IEEE.

(** ** Examples in double precision *)
Example determinant_accuracy_case : let m := Mx 4 4 row_basis (fun i j => dbl (Z.of_nat (i * i * j + 3 * j + 1) - 7) (-3)) in
  exists d, determinant Babs (dbl 1 (-52)) m = Ok d /\ is_finite d = true.
Proof. cbv zeta. eexists. split; [reflexivity|]. vm_compute. reflexivity. Qed.
Example products_accuracy_case : let v := [dbl 1 0; dbl 7 (-2); dbl (-3) 5] in let w := [dbl 11 (-3); dbl 1 0; dbl 5 0] in let x := [dbl 1 (-60); dbl 3 0; dbl 1 0] in
  (exists r, vcross3 v w = Ok r /\ forallb is_finite r = true) /\ (exists d, vtriple v w x = Ok d /\ is_finite d = true) /\
  exists d, vperp_dot [dbl 1 0; dbl 3 0] [dbl 5 0; dbl 7 0] = Ok d /\ Beqb d (dbl (-8) 0) = true.
Proof. cbv zeta. split; [|split]; eexists; (split; [reflexivity|]; vm_compute; reflexivity). Qed.
Example transform_accuracy_case : let m := Mx 4 4 col_basis (fun i j => dbl (Z.of_nat (1 + i + 2 * j)) (-1)) in let v := [dbl 1 0; dbl 7 (-2); dbl (-3) 5] in
  (exists r, transform_point m v = Ok r /\ forallb is_finite r = true) /\ exists r, transform_vector m v = Ok r /\ forallb is_finite r = true.
Proof. cbv zeta. split; eexists; (split; [reflexivity|]; vm_compute; reflexivity). Qed.
Example rotation_quaternion_accuracy_case : let q := Quat (dbl 1 (-1)) (dbl 5 (-3)) (dbl (-1) (-1)) (dbl 3 (-3)) in let m := Mx 3 3 col_basis (fun _ _ => dbl 0 0) in
  exists m', matrix_rotation_quaternion m real_first q = Ok m' /\ forallb (fun i => forallb (fun j => is_finite (be m' i j)) (seq 0 3)) (seq 0 3) = true.
Proof. cbv zeta. eexists. split; [reflexivity|]. vm_compute. reflexivity. Qed.
(** a thousand products of doubles *)
Example unit_chain_drift_case : let q := Quat (dbl 1 0) (dbl 0 0) (dbl 0 0) (dbl 0 0) in let r := Quat (dbl 1 (-1)) (dbl (-5) (-3)) (dbl 1 (-1)) (dbl 1 (-3)) in let l := repeat r 1000 in
  all_fin 53 1024 q /\ (forall x, In x l -> all_fin 53 1024 x /\ len4 (wxyz 53 1024 real_first x) <= 1) /\ len4 (wxyz 53 1024 real_first q) <= 1 /\
  INR (8 * length l + 4) * u_round 53 <= / 2 /\ 4 + 64 * INR (length l + 1) * eta_min 53 1024 < bpow radix2 1024.
Proof.
  intros q r l. assert (D : forall m e, (Z.abs m < 2 ^ 53)%Z -> (-1000 <= e <= 900)%Z -> is_finite (dbl m e) = true /\ B2R (dbl m e) = IZR m * bpow radix2 e) by apply dbl_val.
  assert (Fin : forall m e, (Z.abs m < 2 ^ 53)%Z -> (-1000 <= e <= 900)%Z -> is_finite (dbl m e) = true) by (intros; apply D; auto).
  assert (V : forall m e, (Z.abs m < 2 ^ 53)%Z -> (-1000 <= e <= 900)%Z -> B2R (dbl m e) = IZR m * bpow radix2 e) by (intros; apply D; auto).
  split; [intros [|[|[|k]]]; apply Fin; lia|]. split; [|split; [|split]].
  - intros x Hx. apply repeat_spec in Hx. subst x. split; [intros [|[|[|k]]]; apply Fin; lia|]. apply le_sq; [lra|]. rewrite len4_sq. cbn [rsum]. unfold wxyz. cbn [qget part oW oX oY oZ r q0 q1 q2 q3].
    rewrite !V by lia. cbn. lra.
  - apply le_sq; [lra|]. rewrite len4_sq. cbn [rsum]. unfold wxyz. cbn [qget part oW oX oY oZ q q0 q1 q2 q3]. rewrite !V by lia. cbn. lra.
  - replace (length l) with 1000%nat by (symmetry; apply repeat_length). rewrite (proj1 roundoff_values). replace (INR (8 * 1000 + 4)) with 8004 by (rewrite INR_IZR_INZ; f_equal; vm_compute; reflexivity). lra.
  - replace (length l) with 1000%nat by (symmetry; apply repeat_length). pose proof (proj1 (proj2 (proj2 roundoff_values))) as E. replace (INR (1000 + 1)) with 1001 by (rewrite INR_IZR_INZ; f_equal; vm_compute; reflexivity).
    apply Rlt_trans with (bpow radix2 20); [|apply bpow_lt; lia]. assert (eta_min 53 1024 <= 1) by (change 1 with (bpow radix2 0); apply bpow_le; lia).
    apply Rle_lt_trans with (4 + 64 * 1001 * 1); [|cbn; lra]. apply Rplus_le_compat_l, Rmult_le_compat_l; [lra|auto].
Qed.
Print Assumptions perp_dot_accuracy.
Print Assumptions cross_accuracy.
Print Assumptions triple_accuracy.
Print Assumptions determinant_accuracy.
Print Assumptions transform_vector_accuracy.
Print Assumptions transform_point_accuracy.
Print Assumptions quaternion_product_accuracy.
Print Assumptions quaternion_product_no_overflow.
Print Assumptions quaternion_product_relative.
Print Assumptions rotation_quaternion_accuracy.
Print Assumptions rotation_chain_drift.
Print Assumptions unit_chain_drift.
