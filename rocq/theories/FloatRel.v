(** Relative accuracy: computations in which only inputs, or numbers of one sign, are added keep
    a relative error of one rounding per operation, as long as nothing leaves the range
    of normal numbers. *)
From Coq Require Import ZArith Bool List Arith Lia Reals Lra.
From Flocq Require Import Core Relative Mult_error Plus_error BinarySingleNaN.
From Verif Require Import Base FloatModel FloatFacts.
Import ListNotations.
Open Scope R_scope.

Section IEEE.
Context (prec emax : Z) {Hprec : Prec_gt_0 prec} {Hmax : Prec_lt_emax prec emax}.
Context (P5 : (5 <= prec)%Z).
Notation F := (binary_float prec emax).
Notation emin := (3 - emax - prec)%Z.
Notation u := (u_round prec).
Notation rnd := (round radix2 (FLT_exp emin prec) ZnearestE).
Notation val := (@B2R prec emax).
Notation fin x := (is_finite x = true).
Notation pow2 := (bpow radix2).

Lemma u_small : 0 < u <= / 32.
Proof. split; [apply u_pos|]. unfold u_round. change (/ 32) with (pow2 (-5)). apply bpow_le. lia. Qed.
Lemma pow_dec k : 1 - INR k * u <= (1 - u) ^ k <= 1.
Proof.
  pose proof u_small. induction k; cbn [pow]; [cbn; lra|]. rewrite S_INR.
  assert (0 <= INR k * u) by (apply Rmult_le_pos; [apply pos_INR|lra]). nra.
Qed.
Lemma pow_pos k : 0 < (1 - u) ^ k. Proof. apply pow_lt. pose proof u_small. lra. Qed.
Lemma pow_half k : (k <= 16)%nat -> / 2 <= (1 - u) ^ k.
Proof. intros K. pose proof (pow_dec k). apply le_INR in K. replace (INR 16) with 16 in K by (cbn; ring). pose proof u_small. nra. Qed.
Lemma pow_anti k l : (k <= l)%nat -> (1 - u) ^ l <= (1 - u) ^ k.
Proof.
  intros H. replace l with (k + (l - k))%nat by lia. rewrite pow_add. pose proof (pow_pos k). pose proof (pow_dec (l - k)). nra.
Qed.

(** x is e up to k relative roundings *)
Definition rel (k : nat) (x e : R) : Prop := exists t, x = e * t /\ (1 - u) ^ k <= t <= / (1 - u) ^ k.
Lemma rel_refl x : rel 0 x x. Proof. exists 1. cbn. rewrite Rinv_1. lra. Qed.
Lemma rel_up k l x e : (k <= l)%nat -> rel k x e -> rel l x e.
Proof.
  intros H (t & E & A & B). exists t. split; auto. pose proof (pow_anti k l H). split; [lra|]. eapply Rle_trans; [exact B|]. apply Rinv_le; auto using pow_pos.
Qed.
Lemma rel_trans k l x e f : rel k x e -> rel l e f -> rel (k + l) x f.
Proof.
  intros (t & -> & A & B) (s & -> & C & D). exists (s * t). split; [ring|]. rewrite pow_add, Rinv_mult.
  pose proof (pow_pos k). pose proof (pow_pos l). assert (0 < t) by lra. assert (0 < s) by lra. rewrite (Rmult_comm s). split; apply Rmult_le_compat; lra.
Qed.
Lemma rel_mul k l x e y f : rel k x e -> rel l y f -> rel (k + l) (x * y) (e * f).
Proof.
  intros (t & -> & A & B) (s & -> & C & D). exists (t * s). split; [ring|]. rewrite pow_add, Rinv_mult.
  pose proof (pow_pos k). pose proof (pow_pos l). split; apply Rmult_le_compat; lra.
Qed.
Lemma rel_inv k x e : rel k x e -> rel k (/ x) (/ e).
Proof.
  intros (t & -> & A & B). pose proof (pow_pos k). assert (T : 0 < t) by lra. destruct (Req_dec e 0) as [->|N].
  - exists 1. rewrite Rmult_0_l, Rinv_0. split; [ring|]. pose proof (pow_dec k). split; [lra|]. rewrite <- Rinv_1 at 1. apply Rinv_le; lra.
  - exists (/ t). split; [now rewrite Rinv_mult|]. split.
    + rewrite <- (Rinv_inv ((1 - u) ^ k)). apply Rinv_le; lra.
    + apply Rinv_le; lra.
Qed.
Lemma rel_div k l x e y f : rel k x e -> rel l y f -> rel (k + l) (x / y) (e / f).
Proof. intros X Y. apply rel_mul; auto. now apply rel_inv. Qed.
Lemma rel_opp k x e : rel k x e -> rel k (- x) (- e).
Proof. intros (t & -> & H). exists t. split; auto. ring. Qed.
Lemma rel_round d : Rabs d <= u -> rel 1 (1 + d) 1.
Proof.
  intros H. exists (1 + d). split; [ring|]. rewrite pow_1. pose proof u_small. apply Rabs_le_inv in H. split; [lra|].
  apply Rmult_le_reg_r with (1 - u); [lra|]. rewrite Rinv_l by lra. nra.
Qed.
Lemma rel_add k x e y f : 0 <= e -> 0 <= f -> rel k x e -> rel k y f -> rel k (x + y) (e + f).
Proof.
  intros E F (t & -> & A & B) (s & -> & C & D). destruct (Req_dec (e + f) 0) as [Z|N].
  - assert (e = 0) by lra. assert (f = 0) by lra. subst. exists t. split; [ring|auto].
  - exists ((e * t + f * s) / (e + f)). split; [field; auto|]. assert (0 < e + f) by lra.
    split; (apply Rmult_le_reg_r with (e + f); [auto|]); unfold Rdiv; rewrite Rmult_assoc, Rinv_l, Rmult_1_r by auto; nra.
Qed.
(** in the classical form *)
Definition gamma (k : nat) : R := INR k * u / (1 - INR k * u).
Lemma rel_bound k x e : INR k * u < 1 -> rel k x e -> Rabs (x - e) <= gamma k * Rabs e.
Proof.
  intros K (t & -> & A & B). replace (e * t - e) with ((t - 1) * e) by ring. rewrite Rabs_mult. apply Rmult_le_compat_r; [apply Rabs_pos|].
  unfold gamma. pose proof (pow_dec k) as [P Q]. pose proof (pow_pos k). pose proof u_small. assert (0 <= INR k * u) by (apply Rmult_le_pos; [apply pos_INR|lra]).
  assert (G : / (1 - u) ^ k <= / (1 - INR k * u)) by (apply Rinv_le; lra).
  assert (G' : / (1 - INR k * u) = 1 + INR k * u / (1 - INR k * u)) by (field; lra).
  assert (G2 : INR k * u <= INR k * u / (1 - INR k * u)).
  { apply Rmult_le_reg_r with (1 - INR k * u); [lra|]. replace (INR k * u / (1 - INR k * u) * (1 - INR k * u)) with (INR k * u) by (field; lra). nra. }
  apply Rabs_le. lra.
Qed.

Definition band (a : Z) (e : R) : Prop := e = 0 \/ pow2 (- a) <= Rabs e <= pow2 a.
(** the float x stands for e: k roundings away, e zero or between 2^-a and 2^a *)
Definition ok (x : F) (e : R) (k : nat) (a : Z) : Prop := fin x /\ rel k (val x) e /\ band a e.

Lemma band_up a b e : (a <= b)%Z -> band a e -> band b e.
Proof. intros H [E|[A B]]; [now left|right]. split; [eapply Rle_trans; [|exact A]|eapply Rle_trans; [exact B|]]; apply bpow_le; lia. Qed.
Lemma ok_up x e k l a b : (k <= l)%nat -> (a <= b)%Z -> ok x e k a -> ok x e l b.
Proof. intros K A (H & R & B). split; auto. split; [eapply rel_up; eauto|eapply band_up; eauto]. Qed.
Lemma band_mul a b e f : band a e -> band b f -> band (a + b) (e * f).
Proof.
  intros [->|[A B]]; [intros _; left; ring|]. intros [->|[C D]]; [left; ring|]. right. rewrite Rabs_mult. replace (- (a + b))%Z with (- a + - b)%Z by lia.
  rewrite !bpow_plus. split; apply Rmult_le_compat; auto; try apply bpow_ge_0; apply Rabs_pos.
Qed.
Lemma band_nz a e : band a e -> e <> 0 -> pow2 (- a) <= Rabs e <= pow2 a. Proof. intros [E|H] N; [contradiction|auto]. Qed.
Lemma band_inv a e : band a e -> band a (/ e).
Proof.
  intros [->|[A B]]; [left; apply Rinv_0|]. right. assert (N : 0 < Rabs e) by (eapply Rlt_le_trans; [apply bpow_gt_0|exact A]).
  assert (e <> 0) by (intros ->; rewrite Rabs_R0 in N; lra). rewrite Rabs_inv. rewrite bpow_opp. split; [apply Rinv_le; auto|].
  rewrite <- (Rinv_inv (pow2 a)). rewrite <- bpow_opp. apply Rinv_le; auto. apply bpow_gt_0.
Qed.
Lemma band_opp a e : band a e -> band a (- e).
Proof. intros [->|H]; [left; ring|right; now rewrite Rabs_Ropp]. Qed.

Lemma rnd_0 : rnd 0 = 0. Proof. apply round_0. auto with typeclass_instances. Qed.
Lemma rnd_rel x : pow2 (2 - emax) <= Rabs x -> exists d, Rabs d <= u /\ rnd x = x * (1 + d).
Proof.
  intros H. destruct (relative_error_N_FLT_ex radix2 emin prec Hprec (fun z => negb (Z.even z)) x) as (d & A & B).
  - replace (emin + prec - 1)%Z with (2 - emax)%Z by lia. auto.
  - exists d. split; [|exact B]. eapply Rle_trans; [exact A|]. rewrite half_bpow. unfold u_round. apply Req_le. f_equal. lia.
Qed.
Lemma rnd_bound x n : (emin <= n)%Z -> Rabs x <= pow2 n -> Rabs (rnd x) <= pow2 n.
Proof.
  intros N H. apply abs_round_le_generic; auto with typeclass_instances. apply generic_format_bpow. unfold FLT_exp. unfold Prec_gt_0 in Hprec. lia.
Qed.
Lemma spread k a v e : (k <= 16)%nat -> rel k v e -> band a e -> v = 0 \/ pow2 (- a - 1) <= Rabs v <= pow2 (a + 1).
Proof.
  intros K (t & -> & A & B) [->|[C D]]; [left; ring|]. right. pose proof (pow_half k K) as H. assert (T : / 2 <= t <= 2).
  { split; [lra|]. eapply Rle_trans; [exact B|]. rewrite <- (Rinv_inv 2). apply Rinv_le; lra. }
  rewrite Rabs_mult, (Rabs_pos_eq t) by lra. rewrite bpow_plus, Rmult_comm. unfold Zminus. rewrite bpow_plus. change (pow2 1) with 2. change (pow2 (- (1))) with (/ 2).
  pose proof (bpow_gt_0 radix2 (- a)). pose proof (bpow_gt_0 radix2 a). split; [rewrite Rmult_comm|rewrite (Rmult_comm t)]; apply Rmult_le_compat; try lra; apply Rabs_pos.
Qed.
(** rounding a number in the safe range *)
Lemma rounded k a v e : (k <= 15)%nat -> (0 <= a)%Z -> (a + 3 <= emax)%Z -> rel k v e -> band a e -> Rabs (rnd v) < pow2 emax /\ rel (S k) (rnd v) e.
Proof.
  intros K A0 A3 R B. destruct (spread k a v e ltac:(lia) R B) as [->|[L H]].
  - rewrite rnd_0, Rabs_R0. split; [apply bpow_gt_0|]. eapply rel_up; [|exact R]. lia.
  - split.
    + apply Rle_lt_trans with (pow2 (a + 1)); [apply rnd_bound; auto|apply bpow_lt; lia]. unfold Prec_gt_0, Prec_lt_emax in *. lia.
    + destruct (rnd_rel v) as (d & D & E).
      * eapply Rle_trans; [|exact L]. apply bpow_le. lia.
      * rewrite E. replace (S k) with (k + 1)%nat by lia. rewrite <- (Rmult_1_r e). apply rel_mul; auto. now apply rel_round.
Qed.
Lemma fexp_eq : (fun e : Z => Z.max (e - prec) (3 - emax - prec)) = FLT_exp emin prec. Proof. reflexivity. Qed.

Lemma mul_ok x e k a y f l b : ok x e k a -> ok y f l b -> (k + l <= 15)%nat -> (0 <= a)%Z -> (0 <= b)%Z -> (a + b + 3 <= emax)%Z ->
  ok (mul x y) (e * f) (S (k + l)) (a + b).
Proof.
  intros (Fx & Rx & Bx) (Fy & Ry & By) K A0 B0 A3. destruct (rounded (k + l) (a + b) (val x * val y) (e * f)) as [H R]; auto using rel_mul, band_mul; try lia.
  pose proof (Bmult_correct prec emax Hprec Hmax mode_NE x y) as C. cbn [round_mode] in C. unfold SpecFloat.fexp, SpecFloat.emin in C. rewrite fexp_eq in C. rewrite Rlt_bool_true in C by exact H.
  destruct C as (C & D & _). split; [cbn [mul BOps]; rewrite D, Fx, Fy; auto|]. split; [|auto using band_mul]. cbn [mul BOps]. now rewrite C.
Qed.
Lemma ok_nz x e k a : ok x e k a -> e <> 0 -> val x <> 0.
Proof. intros (_ & (t & E & A & _) & _) N. rewrite E. pose proof (pow_pos k). apply Rmult_integral_contrapositive_currified; lra. Qed.
Lemma div_ok x e k a y f l b : ok x e k a -> ok y f l b -> f <> 0 -> (k + l <= 15)%nat -> (0 <= a)%Z -> (0 <= b)%Z -> (a + b + 3 <= emax)%Z ->
  ok (div x y) (e / f) (S (k + l)) (a + b).
Proof.
  intros (Fx & Rx & Bx) Oy N K A0 B0 A3. pose proof (ok_nz _ _ _ _ Oy N) as Ny. destruct Oy as (Fy & Ry & By).
  assert (Bd : band (a + b) (e / f)) by (apply band_mul; auto using band_inv).
  destruct (rounded (k + l) (a + b) (val x / val y) (e / f)) as [H R]; auto using rel_div; try lia.
  pose proof (Bdiv_correct prec emax Hprec Hmax mode_NE x y Ny) as C. cbn [round_mode] in C. unfold SpecFloat.fexp, SpecFloat.emin in C. rewrite fexp_eq in C. rewrite Rlt_bool_true in C by exact H.
  destruct C as (C & D & _). split; [cbn [div BOps]; rewrite D; auto|]. split; auto. cbn [div BOps]. now rewrite C.
Qed.
(** sums of numbers that are exact, and of numbers of one sign *)
Lemma add_rounds (x y : F) a : fin x -> fin y -> band a (val x + val y) -> (0 <= a)%Z -> (a + 3 <= emax)%Z -> ok (add x y) (val x + val y) 1 a.
Proof.
  intros Fx Fy B A0 A3. destruct (rounded 0 a (val x + val y) (val x + val y)) as [H R]; auto using rel_refl; try lia.
  pose proof (Bplus_correct prec emax Hprec Hmax mode_NE x y Fx Fy) as C. cbn [round_mode] in C. unfold SpecFloat.fexp, SpecFloat.emin in C. rewrite fexp_eq in C. rewrite Rlt_bool_true in C by exact H.
  destruct C as (C & D & _). split; [exact D|]. split; auto. cbn [add BOps]. now rewrite C.
Qed.
Lemma sub_rounds (x y : F) a : fin x -> fin y -> band a (val x - val y) -> (0 <= a)%Z -> (a + 3 <= emax)%Z -> ok (sub x y) (val x - val y) 1 a.
Proof.
  intros Fx Fy B A0 A3. destruct (rounded 0 a (val x - val y) (val x - val y)) as [H R]; auto using rel_refl; try lia.
  pose proof (Bminus_correct prec emax Hprec Hmax mode_NE x y Fx Fy) as C. cbn [round_mode] in C. unfold SpecFloat.fexp, SpecFloat.emin in C. rewrite fexp_eq in C. rewrite Rlt_bool_true in C by exact H.
  destruct C as (C & D & _). split; [exact D|]. split; auto. cbn [sub BOps]. now rewrite C.
Qed.
Lemma band_sum a b e f : (0 <= a)%Z -> (0 <= b)%Z -> 0 <= e -> 0 <= f -> band a e -> band b f -> band (Z.max a b + 1) (e + f).
Proof.
  intros A0 B0 E F A B. destruct A as [->|[A A']]; [rewrite Rplus_0_l; eapply band_up; [|exact B]; lia|].
  destruct B as [->|[B B']]; [rewrite Rplus_0_r; eapply band_up; [|right; split; eauto]; lia|]. right.
  rewrite Rabs_pos_eq in * by lra. rewrite bpow_plus. change (pow2 1) with 2.
  assert (pow2 a <= pow2 (Z.max a b)) by (apply bpow_le; lia). assert (pow2 b <= pow2 (Z.max a b)) by (apply bpow_le; lia).
  assert (pow2 (- (Z.max a b + 1)) <= pow2 (- a)) by (apply bpow_le; lia). lra.
Qed.
Lemma add_ok x e k a y f l b : ok x e k a -> ok y f l b -> 0 <= e -> 0 <= f -> (k <= 15)%nat -> (l <= 15)%nat -> (0 <= a)%Z -> (0 <= b)%Z -> (Z.max a b + 4 <= emax)%Z ->
  ok (add x y) (e + f) (S (Nat.max k l)) (Z.max a b + 1).
Proof.
  intros (Fx & Rx & Bx) (Fy & Ry & By) E F K L A0 B0 A3. assert (B : band (Z.max a b + 1) (e + f)) by (apply band_sum; auto).
  destruct (rounded (Nat.max k l) (Z.max a b + 1) (val x + val y) (e + f)) as [H R]; try lia; auto.
  { apply rel_add; auto; [apply (rel_up k)|apply (rel_up l)]; auto; lia. }
  pose proof (Bplus_correct prec emax Hprec Hmax mode_NE x y Fx Fy) as C. cbn [round_mode] in C. unfold SpecFloat.fexp, SpecFloat.emin in C. rewrite fexp_eq in C. rewrite Rlt_bool_true in C by exact H.
  destruct C as (C & D & _). split; [exact D|]. split; auto. cbn [add BOps]. now rewrite C.
Qed.
Lemma neg_ok x e k a : ok x e k a -> ok (neg x) (- e) k a.
Proof. intros (Fx & Rx & Bx). split; [cbn [neg BOps]; now rewrite is_finite_Bopp|]. split; [cbn [neg BOps]; rewrite B2R_Bopp; now apply rel_opp|now apply band_opp]. Qed.
Lemma exact_ok (x : F) a : fin x -> band a (val x) -> ok x (val x) 0 a.
Proof. intros Fx B. split; auto. split; auto using rel_refl. Qed.
Lemma one_ok : ok one 1 0 0.
Proof.
  assert (E : val one = 1) by (cbn [one BOps]; apply Bone_correct). assert (Fi : fin (one : F)) by (cbn [one BOps]; apply is_finite_Bone).
  rewrite <- E. apply exact_ok; auto. rewrite E. right. rewrite Rabs_R1. change (pow2 (- 0)) with 1. change (pow2 0) with 1. lra.
Qed.
(** multiplication by powers of two is exact *)
Lemma rnd_val (x : F) : rnd (val x) = val x. Proof. apply round_generic; auto with typeclass_instances. apply format. Qed.
Lemma shift_exact (x : F) n a k e : rel k (val x) e -> band a e -> (k <= 15)%nat -> (a + 4 <= emax)%Z -> (-1 <= n)%Z -> rnd (val x * pow2 n) = val x * pow2 n.
Proof.
  intros R B K A N. apply round_generic; auto with typeclass_instances. destruct (spread k a (val x) e ltac:(lia) R B) as [->|[L _]].
  - rewrite Rmult_0_l. apply generic_format_0.
  - apply mult_bpow_exact_FLT; [apply format|]. assert (M : (- a - 1 < mag radix2 (val x))%Z).
    { apply Z.lt_le_trans with (mag radix2 (pow2 (- a - 1))); [rewrite mag_bpow; lia|]. apply mag_le_abs; [apply Rgt_not_eq, bpow_gt_0|]. rewrite (Rabs_pos_eq (pow2 _)) by apply bpow_ge_0. auto. }
    lia.
Qed.
Lemma band_shift a e s n : Rabs s = 1 -> band a e -> band (a + Z.abs n) (s * pow2 n * e).
Proof.
  intros Hs [->|[A B]]; [left; ring|]. right. rewrite !Rabs_mult, Hs, Rmult_1_l, (Rabs_pos_eq (pow2 n)) by apply bpow_ge_0. rewrite Rmult_comm.
  replace (- (a + Z.abs n))%Z with (- a + - Z.abs n)%Z by lia. rewrite !bpow_plus.
  split; apply Rmult_le_compat; auto; try apply bpow_ge_0; try apply Rabs_pos; apply bpow_le; lia.
Qed.
Lemma shift_rel k x e s n : rel k x e -> rel k (s * pow2 n * x) (s * pow2 n * e).
Proof. intros (t & -> & H). exists t. split; auto. ring. Qed.
Lemma shift_fits (x : F) n a k e : rel k (val x) e -> band a e -> (k <= 15)%nat -> (0 <= a)%Z -> (a + 4 <= emax)%Z -> (-1 <= n <= 1)%Z -> Rabs (val x * pow2 n) < pow2 emax.
Proof.
  intros R B K A0 A N. destruct (spread k a (val x) e ltac:(lia) R B) as [->|[_ L]].
  - rewrite Rmult_0_l, Rabs_R0. apply bpow_gt_0.
  - rewrite Rabs_mult, (Rabs_pos_eq (pow2 n)) by apply bpow_ge_0. apply Rle_lt_trans with (pow2 (a + 1) * pow2 1).
    + apply Rmult_le_compat; auto using Rabs_pos, bpow_ge_0. apply bpow_le. lia.
    + rewrite <- bpow_plus. apply bpow_lt. lia.
Qed.
Lemma scale_ok (c x : F) s n e k a : fin c -> val c = s * pow2 n -> s = 1 \/ s = -1 -> ok x e k a -> (k <= 15)%nat -> (0 <= a)%Z -> (a + 4 <= emax)%Z -> (-1 <= n <= 1)%Z ->
  ok (mul c x) (s * pow2 n * e) k (a + Z.abs n).
Proof.
  intros Fc Ec S (Fx & R & B) K A0 A N. assert (As : Rabs s = 1) by (destruct S as [-> | ->]; rewrite ?Rabs_Ropp, ?Rabs_R1; auto; unfold Rabs; destruct (Rcase_abs _); lra).
  assert (E : rnd (val c * val x) = s * pow2 n * val x).
  { rewrite Ec. destruct S as [-> | ->]; replace (1 * pow2 n * val x) with (val x * pow2 n) by ring; replace (-1 * pow2 n * val x) with (- (val x * pow2 n)) by ring;
      rewrite ?round_NE_opp, (shift_exact x n a k e); auto; try lia; ring. }
  pose proof (Bmult_correct prec emax Hprec Hmax mode_NE c x) as C. cbn [round_mode] in C. unfold SpecFloat.fexp, SpecFloat.emin in C. rewrite fexp_eq, E in C.
  rewrite Rlt_bool_true in C by (rewrite Rmult_assoc, Rabs_mult, As, Rmult_1_l, Rmult_comm; eapply shift_fits; eauto).
  destruct C as (C & D & _). split; [cbn [mul BOps]; rewrite D, Fc, Fx; auto|]. split; [|now apply band_shift]. cbn [mul BOps]. rewrite C. now apply shift_rel.
Qed.
Lemma two_val : val two = 2 /\ fin (two : F).
Proof.
  pose proof one_ok as (F1 & _ & _). assert (E : val one = 1) by (cbn [one BOps]; apply Bone_correct).
  assert (R : rnd (val one + val one) = 2).
  { rewrite E. replace (1 + 1) with (pow2 1) by (cbn; ring). rewrite round_generic; [reflexivity|auto with typeclass_instances|]. apply generic_format_bpow. unfold FLT_exp. unfold Prec_gt_0, Prec_lt_emax in *. lia. }
  pose proof (Bplus_correct prec emax Hprec Hmax mode_NE one one F1 F1) as C. cbn [round_mode] in C. unfold SpecFloat.fexp, SpecFloat.emin in C. rewrite fexp_eq, R in C.
  rewrite Rlt_bool_true in C.
  - destruct C as (C & D & _). split; [exact C|exact D].
  - rewrite Rabs_pos_eq by lra. change 2 with (pow2 1). apply bpow_lt. unfold Prec_gt_0, Prec_lt_emax in *. lia.
Qed.
Lemma mul_two x e k a : ok x e k a -> (k <= 15)%nat -> (0 <= a)%Z -> (a + 4 <= emax)%Z -> ok (mul two x) (2 * e) k (a + 1).
Proof.
  intros O K A0 A. destruct two_val as [E Fi]. replace (2 * e) with (1 * pow2 1 * e) by (change (pow2 1) with 2; ring). replace (a + 1)%Z with (a + Z.abs 1)%Z by lia.
  apply scale_ok; auto; try lia. rewrite E. change (pow2 1) with 2. ring.
Qed.
Lemma div_two x e k a : ok x e k a -> (k <= 15)%nat -> (0 <= a)%Z -> (a + 4 <= emax)%Z -> ok (div x two) (e / 2) k (a + 1).
Proof.
  intros (Fx & R & B) K A0 A. destruct two_val as [E Fi].
  assert (Q : rnd (val x / val two) = val x * pow2 (-1)).
  { rewrite E. unfold Rdiv. change (/ 2) with (pow2 (-1)). apply (shift_exact x (-1) a k e); auto; lia. }
  pose proof (Bdiv_correct prec emax Hprec Hmax mode_NE x two) as C. cbn [round_mode] in C. unfold SpecFloat.fexp, SpecFloat.emin in C. rewrite fexp_eq, Q in C.
  specialize (C ltac:(rewrite E; lra)). rewrite Rlt_bool_true in C by (eapply shift_fits; eauto; lia).
  destruct C as (C & D & _). split; [cbn [div BOps]; rewrite D; auto|]. replace (e / 2) with (1 * pow2 (-1) * e) by (change (pow2 (-1)) with (/ 2); field).
  split; [|replace (a + 1)%Z with (a + Z.abs (-1))%Z by lia; apply band_shift; auto; apply Rabs_R1]. cbn [div BOps]. rewrite C. replace (val x * pow2 (-1)) with (1 * pow2 (-1) * val x) by ring. now apply shift_rel.
Qed.
(** x - (-x) and x + (-x) are exact *)
Lemma double_ok x e k a : ok x e k a -> (k <= 15)%nat -> (0 <= a)%Z -> (a + 4 <= emax)%Z -> ok (sub x (neg x)) (2 * e) k (a + 1).
Proof.
  intros (Fx & R & B) K A0 A. assert (Fn : fin (neg x)) by (cbn [neg BOps]; now rewrite is_finite_Bopp). assert (En : val (neg x) = - val x) by (cbn [neg BOps]; apply B2R_Bopp).
  assert (Q : rnd (val x - val (neg x)) = val x * pow2 1).
  { rewrite En. replace (val x - - val x) with (val x * pow2 1) by (change (pow2 1) with 2; ring). apply (shift_exact x 1 a k e); auto; lia. }
  pose proof (Bminus_correct prec emax Hprec Hmax mode_NE x (neg x) Fx Fn) as C. cbn [round_mode] in C. unfold SpecFloat.fexp, SpecFloat.emin in C. rewrite fexp_eq, Q in C.
  rewrite Rlt_bool_true in C by (eapply shift_fits; eauto; lia). destruct C as (C & D & _). split; [exact D|].
  replace (2 * e) with (1 * pow2 1 * e) by (change (pow2 1) with 2; ring).
  split; [|replace (a + 1)%Z with (a + Z.abs 1)%Z by lia; apply band_shift; auto; apply Rabs_R1]. cbn [sub BOps]. rewrite C. replace (val x * pow2 1) with (1 * pow2 1 * val x) by ring. now apply shift_rel.
Qed.
Lemma cancel_ok (x : F) : fin x -> ok (add x (neg x)) 0 0 0 /\ ok (add (neg x) x) 0 0 0.
Proof.
  intros Fx. assert (Fn : fin (neg x)) by (cbn [neg BOps]; now rewrite is_finite_Bopp). assert (En : val (neg x) = - val x) by (cbn [neg BOps]; apply B2R_Bopp).
  assert (L : forall y z : F, fin y -> fin z -> val y + val z = 0 -> ok (add y z) 0 0 0).
  { intros y z Fy Fz S. pose proof (Bplus_correct prec emax Hprec Hmax mode_NE y z Fy Fz) as C. cbn [round_mode] in C. unfold SpecFloat.fexp, SpecFloat.emin in C. rewrite fexp_eq, S, rnd_0, Rabs_R0 in C.
    rewrite Rlt_bool_true in C by apply bpow_gt_0. destruct C as (C & D & _). split; [exact D|]. split; [|now left]. cbn [add BOps]. rewrite C. apply rel_refl. }
  split; apply L; auto; rewrite En; ring.
Qed.
End IEEE.
