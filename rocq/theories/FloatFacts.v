(** Rounding of each operation and of sums of products. *)
From Coq Require Import ZArith Bool List Arith Lia Reals Lra.
From Flocq Require Import Core Relative Plus_error BinarySingleNaN.
From Verif Require Import Base FloatModel.
Import ListNotations.
Open Scope R_scope.

Section IEEE.
Context (prec emax : Z) {Hprec : Prec_gt_0 prec} {Hmax : Prec_lt_emax prec emax}.
Notation F := (binary_float prec emax).
Notation emin := (3 - emax - prec)%Z.
(** half an ulp of 1, half the least positive number *)
Definition u_round : R := bpow radix2 (- prec).
Definition eta_min : R := bpow radix2 (emin - 1).
Notation u := u_round.
Notation eta := eta_min.
Notation rnd := (round radix2 (FLT_exp emin prec) ZnearestE).
Notation val := (@B2R prec emax).
Notation fin x := (is_finite x = true).

Lemma u_pos : 0 < u. Proof. apply bpow_gt_0. Qed.
Lemma eta_pos : 0 < eta. Proof. apply bpow_gt_0. Qed.
Lemma half_bpow k : / 2 * bpow radix2 k = bpow radix2 (k - 1).
Proof. unfold Zminus. rewrite bpow_plus. change (bpow radix2 (-(1))) with (/ 2). ring. Qed.
Lemma u_ro_u : u_ro radix2 prec = u.
Proof. unfold u_ro, u_round. rewrite half_bpow. f_equal. lia. Qed.
Lemma shrink d : Rabs d <= u_ro radix2 prec / (1 + u_ro radix2 prec) -> Rabs d <= u.
Proof. intros H. eapply Rle_trans; [exact H|]. rewrite <- u_ro_u. apply u_rod1pu_ro_le_u_ro. Qed.
Lemma format x : generic_format radix2 (FLT_exp emin prec) (val x).
Proof. apply (generic_format_B2R prec emax x). Qed.
Lemma rnd_err x : exists d e, Rabs d <= u /\ Rabs e <= eta /\ rnd x = x * (1 + d) + e.
Proof.
  destruct (relative_error_N_FLT'_ex radix2 emin prec Hprec (fun z => negb (Z.even z)) x) as (d & e & A & B & _ & C).
  exists d, e. split; [apply shrink; auto|]. split; [|exact C]. eapply Rle_trans; [exact B|]. rewrite half_bpow. apply Rle_refl.
Qed.
Lemma rnd_sum x y : exists d, Rabs d <= u /\ rnd (val x + val y) = (val x + val y) * (1 + d).
Proof.
  destruct (FLT_plus_error_N_ex radix2 emin prec (fun z => negb (Z.even z)) (val x) (val y) (format x) (format y)) as (d & A & B).
  exists d. split; [apply shrink; auto|exact B].
Qed.

Lemma overflow_not_finite (x : F) s : B2SF x = binary_overflow prec emax mode_NE s -> is_finite x = false.
Proof. destruct x; cbn; intros H; auto; discriminate. Qed.

Lemma add_rounded (x y : F) : fin (Bplus mode_NE x y) -> fin x /\ fin y /\ val (Bplus mode_NE x y) = rnd (val x + val y).
Proof.
  intros H. assert (A : fin x /\ fin y) by (destruct x as [[|]|[|]| |], y as [[|]|[|]| |]; cbn in *; auto; discriminate).
  destruct A as [A B]. repeat split; auto. pose proof (Bplus_correct prec emax Hprec Hmax mode_NE x y A B) as C.
  destruct (Rlt_bool _ _) in C; [apply C|]. destruct C as [C _]. apply overflow_not_finite in C. congruence.
Qed.
Lemma sub_rounded (x y : F) : fin (Bminus mode_NE x y) -> fin x /\ fin y /\ val (Bminus mode_NE x y) = rnd (val x - val y).
Proof.
  intros H. assert (A : fin x /\ fin y) by (destruct x as [[|]|[|]| |], y as [[|]|[|]| |]; cbn in *; auto; discriminate).
  destruct A as [A B]. repeat split; auto. pose proof (Bminus_correct prec emax Hprec Hmax mode_NE x y A B) as C.
  destruct (Rlt_bool _ _) in C; [apply C|]. destruct C as [C _]. apply overflow_not_finite in C. congruence.
Qed.
Lemma mul_rounded (x y : F) : fin (Bmult mode_NE x y) -> fin x /\ fin y /\ val (Bmult mode_NE x y) = rnd (val x * val y).
Proof.
  intros H. assert (A : fin x /\ fin y) by (destruct x as [[|]|[|]| |], y as [[|]|[|]| |]; cbn in *; auto; discriminate).
  destruct A as [A B]. repeat split; auto. pose proof (Bmult_correct prec emax Hprec Hmax mode_NE x y) as C.
  destruct (Rlt_bool _ _) in C; [apply C|]. apply overflow_not_finite in C. congruence.
Qed.
Lemma div_rounded (x y : F) : fin (Bdiv mode_NE x y) -> val y <> 0 -> fin x /\ val (Bdiv mode_NE x y) = rnd (val x / val y).
Proof.
  intros H Ny. pose proof (Bdiv_correct prec emax Hprec Hmax mode_NE x y Ny) as C.
  destruct (Rlt_bool _ _) in C; [|apply overflow_not_finite in C; congruence]. destruct C as (C & D & _). split; auto. congruence.
Qed.

Lemma add_err (x y : F) : fin (add x y) -> fin x /\ fin y /\ exists d, Rabs d <= u /\ val (add x y) = (val x + val y) * (1 + d).
Proof. intros H. destruct (add_rounded x y H) as (A & B & C). repeat split; auto. cbn [add BOps]. rewrite C. apply rnd_sum. Qed.
Lemma sub_err (x y : F) : fin (sub x y) -> fin x /\ fin y /\ exists d, Rabs d <= u /\ val (sub x y) = (val x - val y) * (1 + d).
Proof.
  intros H. destruct (sub_rounded x y H) as (A & B & C). repeat split; auto. cbn [sub BOps]. rewrite C.
  destruct (rnd_sum x (Bopp y)) as (d & D & E). rewrite B2R_Bopp in E. exists d. split; auto.
Qed.
Lemma mul_err (x y : F) : fin (mul x y) -> fin x /\ fin y /\ exists d e, Rabs d <= u /\ Rabs e <= eta /\ val (mul x y) = val x * val y * (1 + d) + e.
Proof. intros H. destruct (mul_rounded x y H) as (A & B & C). repeat split; auto. cbn [mul BOps]. rewrite C. apply rnd_err. Qed.
Lemma div_err (x y : F) : fin (div x y) -> val y <> 0 -> fin x /\ exists d e, Rabs d <= u /\ Rabs e <= eta /\ val (div x y) = val x / val y * (1 + d) + e.
Proof. intros H N. destruct (div_rounded x y H N) as (A & C). split; auto. cbn [div BOps]. rewrite C. apply rnd_err. Qed.

(** no overflow *)
Lemma abs_1d d : Rabs d <= u -> Rabs (1 + d) <= 1 + u.
Proof. intros D. eapply Rle_trans; [apply Rabs_triang|]. rewrite Rabs_R1. lra. Qed.
Lemma add_fits (x y : F) : fin x -> fin y -> (1 + u) * Rabs (val x + val y) < bpow radix2 emax -> fin (add x y).
Proof.
  intros A B H. pose proof (Bplus_correct prec emax Hprec Hmax mode_NE x y A B) as C. rewrite Rlt_bool_true in C; [apply C|].
  change (round_mode mode_NE) with ZnearestE. destruct (rnd_sum x y) as (d & D & E). unfold SpecFloat.fexp, SpecFloat.emin. fold (FLT_exp emin prec). 
  change (fun e : Z => Z.max (e - prec) (3 - emax - prec)) with (FLT_exp emin prec).
  rewrite E, Rabs_mult. eapply Rle_lt_trans; [|exact H]. rewrite Rmult_comm. apply Rmult_le_compat_r; [apply Rabs_pos|]. apply abs_1d; auto.
Qed.
Lemma mul_fits (x y : F) : fin x -> fin y -> (1 + u) * Rabs (val x * val y) + eta < bpow radix2 emax -> fin (mul x y).
Proof.
  intros A B H. pose proof (Bmult_correct prec emax Hprec Hmax mode_NE x y) as C. rewrite Rlt_bool_true in C; [destruct C as (_ & C & _); cbn [mul BOps]; rewrite C, A, B; reflexivity|].
  change (round_mode mode_NE) with ZnearestE. destruct (rnd_err (val x * val y)) as (d & e & D & E & V).
  change (fun e : Z => Z.max (e - prec) (3 - emax - prec)) with (FLT_exp emin prec).
  unfold SpecFloat.fexp, SpecFloat.emin. change (fun e : Z => Z.max (e - prec) (3 - emax - prec)) with (FLT_exp emin prec).
  rewrite V. eapply Rle_lt_trans; [|exact H]. eapply Rle_trans; [apply Rabs_triang|]. apply Rplus_le_compat; auto.
  rewrite Rabs_mult, Rmult_comm. apply Rmult_le_compat_r; [apply Rabs_pos|]. apply abs_1d; auto.
Qed.
End IEEE.
