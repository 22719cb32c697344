(** C84: inverses of 2x2, 3x3 and 4x4 matrices in floating point.  IEEE arithmetic of any
    precision (FloatModel.v). *)
From Coq Require Import ZArith Bool List Arith Lia Reals Lra.
From Flocq Require Import Core BinarySingleNaN.
From Verif Require Import Base RInst RotModel QuatModel VecModel LUModel FloatModel FloatFacts FloatDot FloatLU FloatExact PropFloat PropFloatLU FloatExpr PropFloatForm Absorb.
Import ListNotations.
Open Scope R_scope.

(** ** Specification: the cofactors of a real matrix, and sums of absolute values *)
Definition skip (k i : nat) : nat := if (i <? k)%nat then i else S i.
Definition without (b a : nat) (M : nat -> nat -> R) (i j : nat) : R := M (skip b i) (skip a j).
(** entry (a, b) of the adjugate *)
Definition cofactor (n : nat) (M : nat -> nat -> R) (a b : nat) : R := (-1) ^ (a + b) * laplace (n - 1) (without b a M).
(** underflow terms of a cofactor of size k *)
Definition slack (k : nat) (A : nat -> nat -> R) : R := match k with 0%nat | 1%nat => 0 | 2%nat => 2 | _ => 3 + 2 * rsum 3 (fun i => rsum 3 (fun j => A i j)) end.

(** what the numerator of entry (a, b) is as a formula *)
Definition numerator (eta : R) (n a b : nat) (e : formula) : Prop := plain e /\ steps e = ((n - 1) * n / 2 - 1)%nat /\ forall M : nat -> nat -> R, let A := fun i j => Rabs (M i j) in
  size (env n M) e = permanent (n - 1) (without b a A) /\ tiny eta (env n M) e <= slack (n - 1) (without b a A) /\ feval (T:=R) (env n M) e = cofactor n M a b.
Ltac spread M := repeat match goal with |- context [Rabs (M ?i ?j)] => let x := fresh "x" in pose proof (Rabs_pos (M i j)); set (x := Rabs (M i j)) in *; clearbody x end.
Ltac numer := split; [cbn; tauto|]; split; [reflexivity|]; intros M A; subst A; split; [|split];
  [unfold permanent, minor, without, env; cbn; ring|unfold slack, without, env; cbn; spread M; lra|unfold cofactor, laplace, minor, without, env; cbn; ring].
Ltac entry := match goal with |- exists e, ?x = _ /\ _ => let y := eval vm_compute in x in match y with FOther ?e _ => exists e end end; split; [vm_compute; reflexivity|numer].
Lemma numer2 eta a b : (a < 2)%nat -> (b < 2)%nat -> exists e, inv2 (fgrid 2) a b = FOther e (FSub (FMul (FVar 0) (FVar 3)) (FMul (FVar 1) (FVar 2))) /\ numerator eta 2 a b e.
Proof. intros Ha Hb. destruct a as [|[|a]], b as [|[|b]]; try lia; entry. Qed.
Lemma numer3 eta a b : (a < 3)%nat -> (b < 3)%nat -> exists e, inv3 (fgrid 3) a b = FOther e (det3 (fgrid 3)) /\ numerator eta 3 a b e.
Proof. intros Ha Hb. destruct a as [|[|[|a]]], b as [|[|[|b]]]; try lia; entry. Qed.
Lemma numer4 eta a b : (a < 4)%nat -> (b < 4)%nat -> exists e, inv4 (fgrid 4) a b = FOther e (det4 (fgrid 4)) /\ numerator eta 4 a b e.
Proof.
  intros Ha Hb. destruct a as [|[|[|[|a]]]]; try lia; destruct b as [|[|[|[|b]]]]; try lia;
  entry.
Qed.

(** entry (a, b) is the quotient of a cofactor formula by determinant(m) *)
Lemma entry_quotient {T : Type} {Op : Ops T} (eta : R) (fabs fabs' : T -> T) (eps : T) (m r : mx T) d a b : (forall x y : T, mul x y = mul y x) ->
  matrix_inverse fabs m = Ok r -> determinant fabs' eps m = Ok d -> (2 <= mrows m <= 4)%nat -> (a < mrows m)%nat -> (b < mrows m)%nat ->
  exists e, mel r a b = div (feval (env (mrows m) (mel m)) e) d /\ numerator eta (mrows m) a b e.
Proof.
  intros MC E1 E2 Hn Ha Hb. rewrite (inverse_value fabs m r E1). rewrite (determinant_value fabs' eps m d E2). clear E1 E2. destruct (mrows m) as [|[|[|[|[|n]]]]]; try lia.
  - destruct (numer2 eta a b Ha Hb) as (e & E & N). exists e. split; [|exact N]. rewrite (inv2_eval _ a b Ha Hb), E. cbn [feval]. f_equal. unfold env. cbn. unfold det2. rewrite (MC (mel m 0%nat 1%nat)). reflexivity.
  - destruct (numer3 eta a b Ha Hb) as (e & E & N). exists e. split; [|exact N]. rewrite (inv3_eval _ a b Ha Hb), E, det3_eval. reflexivity.
  - destruct (numer4 eta a b Ha Hb) as (e & E & N). exists e. split; [|exact N]. rewrite (inv4_eval _ a b Ha Hb), E, det4_eval. reflexivity.
Qed.

Section IEEE.
Context (prec emax : Z) {Hprec : Prec_gt_0 prec} {Hmax : Prec_lt_emax prec emax}.
Notation F := (binary_float prec emax).
Notation u := (u_round prec).
Notation eta := (eta_min prec emax).
Notation val := (@B2R prec emax).
Notation fin x := (is_finite x = true).
(** ((1+u)^c - 1) s + (1+u)^c t eta *)
Definition error (c : nat) (s t : R) : R := ((1 + u) ^ c - 1) * s + (1 + u) ^ c * t * eta.
(** the error of entry (a, b), relative to the determinant: x is the computed entry, d the computed determinant *)
Definition inverse_error (n : nat) (M : nat -> nat -> R) (a b : nat) (x d : R) : R := let A i j := Rabs (M i j) in
  error ((n - 1) * n / 2 - 1) (permanent (n - 1) (without b a A)) (slack (n - 1) (without b a A)) +
  Rabs x * error (n * (n + 1) / 2 - 1) (permanent n A) (underflows n A) + (u * Rabs x + eta) * Rabs d.

Theorem small_inverse_divides : forall fabs fabs' eps (m r : mx F) d, matrix_inverse fabs m = Ok r -> determinant fabs' eps m = Ok d -> (2 <= mrows m <= 4)%nat ->
  forall a b, (a < mrows m)%nat -> (b < mrows m)%nat -> exists c, mel r a b = div c d /\
    (fin c -> let n := mrows m in let M i j := val (mel m i j) in let A i j := Rabs (M i j) in
     Rabs (val c - cofactor n M a b) <= error ((n - 1) * n / 2 - 1) (permanent (n - 1) (without b a A)) (slack (n - 1) (without b a A))).
Proof.
  intros fabs fabs' eps m r d E1 E2 Hn a b Ha Hb. destruct (entry_quotient eta fabs fabs' eps m r d a b (mul_comm prec emax) E1 E2 Hn Ha Hb) as (e & Q & N).
  exists (feval (env (mrows m) (mel m)) e). split; [exact Q|]. clear Q E1 E2. intros Fc. cbv zeta. destruct N as (P & S & N). specialize (N (fun i j => val (mel m i j))). cbv zeta in N. destruct N as (N1 & N2 & N3).
  pose proof (formula_near prec emax (env (mrows m) (mel m)) e P Fc) as H. cbv zeta in H. change (fun k => val (env (mrows m) (mel m) k)) with (env (mrows m) (fun i j => val (mel m i j))) in H.
  rewrite S, N1, N3 in H. refine (near_up prec emax _ _ _ _ _ _ _ _ (le_n _) (Rle_refl _) _ _ N2 H).
  - rewrite <- N1. apply size_pos.
  - apply tiny_pos.
Qed.
Theorem small_inverse_accuracy : forall fabs fabs' eps (m r : mx F) d, matrix_inverse fabs m = Ok r -> determinant fabs' eps m = Ok d -> fin d -> (2 <= mrows m <= 4)%nat ->
  forall a b, (a < mrows m)%nat -> (b < mrows m)%nat -> fin (mel r a b) -> let n := mrows m in let M i j := val (mel m i j) in let X := val (mel r a b) in
  val d <> 0 /\ Rabs (X * laplace n M - cofactor n M a b) <= inverse_error n M a b X (val d).
Proof.
  intros fabs fabs' eps m r d E1 E2 Fd Hn a b Ha Hb Fx n M X. destruct (small_inverse_divides fabs fabs' eps m r d E1 E2 Hn a b Ha Hb) as (c & Q & N).
  pose proof (determinant_accuracy prec emax fabs' eps m d E2 Fd Hn) as ND. cbv zeta in ND. fold n M in ND. unfold near in ND.
  assert (Fq : fin (div c d)) by (rewrite <- Q; exact Fx). destruct (div_inv prec emax c d Fq Fd) as (Fc & Nd & _).
  destruct (quotient_err prec emax c (mel r a b) d Q Fx Fd) as (_ & QE). specialize (N Fc). cbv zeta in N. fold n M in N. fold X in QE. split; [exact Nd|]. unfold inverse_error.
  set (DE := laplace n M) in *. set (C := cofactor n M a b) in *. clearbody DE C.
  replace (X * DE - C) with ((val c - C) + - (val c - X * val d) + - (X * (val d - DE))) by ring.
  eapply Rle_trans; [apply Rabs_triang|]. rewrite Rabs_Ropp. eapply Rle_trans; [apply Rplus_le_compat_r, Rabs_triang|]. rewrite Rabs_Ropp, (Rabs_mult X (val d - DE)).
  assert (T1 : Rabs (val c - X * val d) <= (u * Rabs X + eta) * Rabs (val d)) by (rewrite Rabs_mult in QE; lra).
  assert (T2 : Rabs X * Rabs (val d - DE) <= Rabs X * error (n * (n + 1) / 2 - 1) (permanent n (fun i j => Rabs (M i j))) (underflows n (fun i j => Rabs (M i j)))) by (apply Rmult_le_compat_l; [apply Rabs_pos|exact ND]).
  lra.
Qed.
(** residual: row a of the computed inverse times column c of the matrix, against the identity *)
Lemma adjugate n (M : nat -> nat -> R) a c : (2 <= n <= 4)%nat -> (a < n)%nat -> (c < n)%nat ->
  rsum n (fun b => cofactor n M a b * M b c) = if Nat.eqb a c then laplace n M else 0.
Proof.
  intros Hn Ha Hc. unfold cofactor. destruct n as [|[|[|[|[|n]]]]]; try lia;
  (destruct a as [|[|[|[|a]]]]; try lia); (destruct c as [|[|[|[|c]]]]; try lia); unfold laplace, minor, without; cbn; ring.
Qed.
Theorem small_inverse_residual : forall fabs fabs' eps (m r : mx F) d, matrix_inverse fabs m = Ok r -> determinant fabs' eps m = Ok d -> fin d -> (2 <= mrows m <= 4)%nat ->
  (forall a b, (a < mrows m)%nat -> (b < mrows m)%nat -> fin (mel r a b)) -> let n := mrows m in let M i j := val (mel m i j) in let X i j := val (mel r i j) in
  forall a c, (a < n)%nat -> (c < n)%nat ->
    Rabs (rsum n (fun b => X a b * M b c) - (if Nat.eqb a c then 1 else 0)) * Rabs (laplace n M) <= rsum n (fun b => inverse_error n M a b (X a b) (val d) * Rabs (M b c)).
Proof.
  intros fabs fabs' eps m r d E1 E2 Fd Hn Fx n M X a c Ha Hc. rewrite <- Rabs_mult.
  assert (E : (rsum n (fun b => X a b * M b c) - (if Nat.eqb a c then 1 else 0)) * laplace n M = rsum n (fun b => (X a b * laplace n M - cofactor n M a b) * M b c)).
  { rewrite (rsum_ext n (fun b => (X a b * laplace n M - cofactor n M a b) * M b c) (fun b => laplace n M * (X a b * M b c) + (-1) * (cofactor n M a b * M b c))) by (intros; ring).
    rewrite rsum_plus, !rsum_scal, (adjugate n M a c Hn Ha Hc). destruct (Nat.eqb a c); ring. }
  rewrite E. eapply Rle_trans; [apply rsum_abs|]. apply rsum_le. intros b Hb. rewrite Rabs_mult. apply Rmult_le_compat_r; [apply Rabs_pos|].
  exact (proj2 (small_inverse_accuracy fabs fabs' eps m r d E1 E2 Fd Hn a b Ha Hb (Fx a b Ha Hb))).
Qed.
End IEEE.

(** ** Examples in double precision, and what fails *)
Example small_inverse_case : let m := dmx [[dbl 3 0; dbl 1 0; dbl 7 (-2)]; [dbl 1 0; dbl (-5) 3; dbl 2 0]; [dbl 11 0; dbl 1 (-4); dbl 1 0]] in
  exists r d, matrix_inverse Babs m = Ok r /\ determinant Babs (dbl 1 (-52)) m = Ok d /\ is_finite d = true /\ (2 <= mrows m <= 4)%nat /\
    forallb (fun i => forallb (fun j => is_finite (mel r i j)) (seq 0 3)) (seq 0 3) = true.
Proof. cbv zeta. do 2 eexists. do 2 (split; [reflexivity|]). split; [vm_compute; reflexivity|]. split; [cbn; lia|]. vm_compute. reflexivity. Qed.
(** an invertible matrix with elements of size 1 whose computed determinant is 0: no entry is finite *)
Theorem invertible_without_inverse_refuted : exists (m r : mx double), mrows m = 2%nat /\ (forall i j, (i < 2)%nat -> (j < 2)%nat -> is_finite (mel m i j) = true /\ 1 <= B2R (mel m i j) <= 2) /\
  laplace 2 (fun i j => B2R (mel m i j)) <> 0 /\ matrix_inverse Babs m = Ok r /\ forall a b, (a < 2)%nat -> (b < 2)%nat -> is_finite (mel r a b) = false.
Proof.
  pose (A := dbl 4503599627370497 (-52)). pose (B := dbl 1 0). pose (C := dbl 4503599627370498 (-52)). exists (dmx [[A; B]; [C; A]]). eexists.
  assert (VA : is_finite A = true /\ B2R A = 4503599627370497 * bpow radix2 (-52)) by (apply dbl_val; lia).
  assert (VB : is_finite B = true /\ B2R B = 1 * bpow radix2 0) by (apply dbl_val; lia).
  assert (VC : is_finite C = true /\ B2R C = 4503599627370498 * bpow radix2 (-52)) by (apply dbl_val; lia).
  change (bpow radix2 0) with 1 in VB. replace (bpow radix2 (-52)) with (/ 4503599627370496) in VA, VC by reflexivity.
  split; [reflexivity|]. split; [|split; [|split; [reflexivity|]]].
  - intros i j Hi Hj. destruct i as [|[|i]], j as [|[|j]]; try lia; cbn [dmx mel nth]; (split; [tauto|]); destruct VA as [_ ->], VB as [_ ->], VC as [_ ->] || idtac; try lra.
  - unfold laplace, minor. cbn [rsum dmx mel nth Nat.ltb Nat.leb pow]. destruct VA as [_ ->], VB as [_ ->], VC as [_ ->]. lra.
  - intros a b Ha Hb. destruct a as [|[|a]], b as [|[|b]]; try lia; vm_compute; reflexivity.
Qed.
(** the determinant overflows: the result is the zero matrix, although the inverse is representable *)
Theorem inverse_overflow_refuted : exists (m r i : mx double), mrows m = 2%nat /\ mcols m = 2%nat /\ (forall a c, (a < 2)%nat -> (c < 2)%nat -> rsum 2 (fun b => B2R (mel i a b) * B2R (mel m b c)) = if Nat.eqb a c then 1 else 0) /\
  matrix_inverse Babs m = Ok r /\ forall a b, (a < 2)%nat -> (b < 2)%nat -> is_finite (mel r a b) = true /\ B2R (mel r a b) = 0.
Proof.
  pose (L := dbl 1 600). pose (S := dbl 1 (-600)). pose (Z := dbl 0 0). exists (dmx [[L; Z]; [Z; L]]). eexists. exists (dmx [[S; Z]; [Z; S]]).
  assert (VL : B2R L = 1 * bpow radix2 600) by (apply dbl_val; lia). assert (VS : B2R S = 1 * bpow radix2 (-600)) by (apply dbl_val; lia). assert (VZ : B2R Z = 0) by reflexivity.
  assert (P : bpow radix2 (-600) * bpow radix2 600 = 1) by (rewrite <- bpow_plus; reflexivity).
  split; [reflexivity|]. split; [reflexivity|]. split; [|split; [reflexivity|]].
  - intros a c Ha Hc. destruct a as [|[|a]], c as [|[|c]]; try lia; cbn [rsum dmx mel nth Nat.eqb]; rewrite ?VL, ?VS, ?VZ; lra.
  - intros a b Ha Hb. assert (Q : forall x : double, match B2SF x with SpecFloat.S754_zero _ => true | _ => false end = true -> is_finite x = true /\ B2R x = 0) by (intros [s|s| |s p e H]; try discriminate; split; reflexivity).
    destruct a as [|[|a]], b as [|[|b]]; try lia; apply Q; vm_compute; reflexivity.
Qed.
Print Assumptions small_inverse_divides.
Print Assumptions small_inverse_accuracy.
Print Assumptions small_inverse_residual.
Print Assumptions invertible_without_inverse_refuted.
Print Assumptions inverse_overflow_refuted.
