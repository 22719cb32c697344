(** Identities of IEEE arithmetic that hold exactly. *)
From Coq Require Import ZArith Bool List Arith Lia Reals Lra.
From Flocq Require Import Core BinarySingleNaN.
From Verif Require Import Base FloatModel FloatFacts.
Import ListNotations.
Open Scope R_scope.

Section IEEE.
Context (prec emax : Z) {Hprec : Prec_gt_0 prec} {Hmax : Prec_lt_emax prec emax}.
Notation F := (binary_float prec emax).
Notation val := (@B2R prec emax).
Notation fin x := (is_finite x = true).

Lemma mul_comm (x y : F) : mul x y = mul y x.
Proof.
  cbn [mul BOps].
  destruct x as [sx|sx| |sx mx ex Hx] eqn:Ex, y as [sy|sy| |sy my ey Hy] eqn:Ey; try reflexivity; try (cbn; rewrite xorb_comm; reflexivity).
  rewrite <- Ex, <- Ey. assert (Fx : fin x) by (subst; auto). assert (Fy : fin y) by (subst; auto). clear Ex Ey.
  pose proof (Bmult_correct prec emax Hprec Hmax mode_NE x y) as A. pose proof (Bmult_correct prec emax Hprec Hmax mode_NE y x) as B.
  rewrite (Rmult_comm (B2R y)) in B. destruct (Rlt_bool _ _).
  - destruct A as (A1 & A2 & A3), B as (B1 & B2 & B3). rewrite Fx, Fy in *. cbn in A2, B2. apply B2R_Bsign_inj; auto; [congruence|].
    rewrite A3, B3; [apply xorb_comm|destruct (Bmult mode_NE y x); auto|destruct (Bmult mode_NE x y); auto]; cbn in *; discriminate.
  - apply B2SF_inj. rewrite A, B, xorb_comm. reflexivity.
Qed.
Lemma add_comm (x y : F) : add x y = add y x.
Proof.
  cbn [add BOps].
  destruct x as [sx|sx| |sx mx ex Hx] eqn:Ex, y as [sy|sy| |sy my ey Hy] eqn:Ey; try reflexivity; try (destruct sx, sy; reflexivity).
  rewrite <- Ex, <- Ey. assert (Fx : fin x) by (subst; auto). assert (Fy : fin y) by (subst; auto). clear Ex Ey.
  pose proof (Bplus_correct prec emax Hprec Hmax mode_NE x y Fx Fy) as A. pose proof (Bplus_correct prec emax Hprec Hmax mode_NE y x Fy Fx) as B.
  rewrite (Rplus_comm (B2R y)) in B. destruct (Rlt_bool _ _).
  - destruct A as (A1 & A2 & A3), B as (B1 & B2 & B3). apply B2R_Bsign_inj; auto; [congruence|]. rewrite A3, B3, andb_comm. reflexivity.
  - destruct A as [A A'], B as [B _]. apply B2SF_inj. rewrite A, B, A'. reflexivity.
Qed.
Lemma mul_neg_neg (x y : F) : mul (neg x) (neg y) = mul x y.
Proof.
  cbn [mul neg BOps].
  destruct x as [sx|sx| |sx mx ex Hx] eqn:Ex, y as [sy|sy| |sy my ey Hy] eqn:Ey; try reflexivity; try (destruct sx, sy; reflexivity).
  rewrite <- Ex, <- Ey. assert (Fx : fin x) by (subst; auto). assert (Fy : fin y) by (subst; auto).
  assert (Nx : is_nan x = false) by (subst; auto). assert (Ny : is_nan y = false) by (subst; auto). clear Ex Ey.
  pose proof (Bmult_correct prec emax Hprec Hmax mode_NE x y) as A. pose proof (Bmult_correct prec emax Hprec Hmax mode_NE (Bopp x) (Bopp y)) as B.
  rewrite !B2R_Bopp in B. replace (- val x * - val y) with (val x * val y) in B by ring.
  assert (Sg : xorb (Bsign (Bopp x)) (Bsign (Bopp y)) = xorb (Bsign x) (Bsign y)) by (rewrite !Bsign_Bopp by auto; destruct (Bsign x), (Bsign y); reflexivity).
  rewrite Sg, !is_finite_Bopp in B. destruct (Rlt_bool _ _).
  - destruct A as (A1 & A2 & A3), B as (B1 & B2 & B3). rewrite Fx, Fy in *. cbn in A2, B2. apply B2R_Bsign_inj; auto; [congruence|].
    assert (N1 : is_nan (Bmult mode_NE x y) = false) by (destruct (Bmult mode_NE x y); cbn in *; auto; discriminate).
    assert (N2 : is_nan (Bmult mode_NE (Bopp x) (Bopp y)) = false) by (destruct (Bmult mode_NE (Bopp x) (Bopp y)); cbn in *; auto; discriminate).
    rewrite A3, B3; auto.
  - apply B2SF_inj. congruence.
Qed.
Lemma div_neg (x y : F) : div (neg x) y = neg (div x y).
Proof.
  cbn [div neg BOps].
  destruct x as [sx|sx| |sx mx ex Hx] eqn:Ex, y as [sy|sy| |sy my ey Hy] eqn:Ey; try reflexivity; try (destruct sx, sy; reflexivity).
  rewrite <- Ex, <- Ey. assert (Fx : fin x) by (subst; auto).
  assert (Nx : is_nan x = false) by (subst; auto).
  assert (Zy : val y <> 0). { rewrite Ey. cbn. apply Float_prop.F2R_neq_0. destruct sy; cbn; discriminate. }
  clear Ex Ey.
  pose proof (Bdiv_correct prec emax Hprec Hmax mode_NE x y Zy) as A. pose proof (Bdiv_correct prec emax Hprec Hmax mode_NE (Bopp x) y Zy) as B.
  rewrite !B2R_Bopp in B. replace (- val x / val y) with (- (val x / val y)) in B by (field; auto).
  assert (Sg : xorb (Bsign (Bopp x)) (Bsign y) = negb (xorb (Bsign x) (Bsign y))) by (rewrite !Bsign_Bopp by auto; destruct (Bsign x), (Bsign y); reflexivity).
  rewrite Sg, !is_finite_Bopp in B. change (round_mode mode_NE) with ZnearestE in *. rewrite round_NE_opp, Rabs_Ropp in B. destruct (Rlt_bool _ _).
  - destruct A as (A1 & A2 & A3), B as (B1 & B2 & B3). rewrite Fx in *.
    assert (N1 : is_nan (Bdiv mode_NE x y) = false) by (destruct (Bdiv mode_NE x y); cbn in *; auto; discriminate).
    assert (N2 : is_nan (Bdiv mode_NE (Bopp x) y) = false) by (destruct (Bdiv mode_NE (Bopp x) y); cbn in *; auto; discriminate).
    apply B2R_Bsign_inj; auto; [rewrite is_finite_Bopp; auto|rewrite B2R_Bopp; congruence|].
    rewrite Bsign_Bopp by auto. rewrite A3, B3 by auto. reflexivity.
  - apply B2SF_inj. rewrite B. destruct (Bdiv mode_NE x y) as [s|s| |s m e]; cbn in *; try discriminate. unfold binary_overflow in *. cbn in *. injection A as ->. reflexivity.
Qed.
Lemma sub_self (x : F) : fin x -> sub x x = B754_zero false.
Proof.
  intros H. cbn [sub BOps]. pose proof (Bminus_correct prec emax Hprec Hmax mode_NE x x H H) as A.
  unfold Rminus in A. rewrite Rplus_opp_r, round_0, Rabs_R0, Rlt_bool_true, Rcompare_Eq in A by (auto using bpow_gt_0, valid_rnd_round_mode).
  destruct A as (A1 & A2 & A3). apply B2R_Bsign_inj; auto. rewrite A3. cbn. apply andb_negb_r.
Qed.
(** differences change sign exactly, but for the sign of a zero *)
Lemma sub_swap (x y : F) : fin x -> fin y -> val x <> val y -> sub x y = neg (sub y x).
Proof.
  intros Fx Fy N. cbn [sub neg BOps]. pose proof (Bminus_correct prec emax Hprec Hmax mode_NE x y Fx Fy) as A. pose proof (Bminus_correct prec emax Hprec Hmax mode_NE y x Fy Fx) as B.
  replace (val y - val x) with (- (val x - val y)) in B by ring. change (round_mode mode_NE) with ZnearestE in *. rewrite round_NE_opp, Rabs_Ropp in B. destruct (Rlt_bool _ _).
  - destruct A as (A1 & A2 & A3), B as (B1 & B2 & B3).
    assert (Nn : is_nan (Bminus mode_NE y x) = false) by (destruct (Bminus mode_NE y x); cbn in *; auto; discriminate).
    apply B2R_Bsign_inj; auto; [rewrite is_finite_Bopp; auto|rewrite B2R_Bopp, A1, B1; ring|].
    rewrite Bsign_Bopp by auto. rewrite A3, B3.
    destruct (Rtotal_order (val x - val y) 0) as [L|[L|L]].
    + rewrite Rcompare_Lt, Rcompare_Gt by lra. reflexivity.
    + exfalso. lra.
    + rewrite Rcompare_Gt, Rcompare_Lt by lra. reflexivity.
  - destruct A as [A A'], B as [B B']. apply B2SF_inj. rewrite A. destruct (Bminus mode_NE y x) as [s|s| |s m e]; cbn in *; try discriminate.
    unfold binary_overflow in *. cbn in *. injection B as ->. f_equal. destruct (Bsign x), (Bsign y); cbn in *; congruence.
Qed.
Lemma sub_opp (x y : F) : fin (sub x y) -> fin (sub y x) /\ val (sub y x) = - val (sub x y).
Proof.
  intros H. destruct (sub_rounded prec emax x y H) as (Fx & Fy & _). cbn [sub BOps] in *.
  pose proof (Bminus_correct prec emax Hprec Hmax mode_NE x y Fx Fy) as A. pose proof (Bminus_correct prec emax Hprec Hmax mode_NE y x Fy Fx) as B.
  replace (val y - val x) with (- (val x - val y)) in B by ring. change (round_mode mode_NE) with ZnearestE in *. rewrite round_NE_opp, Rabs_Ropp in B. destruct (Rlt_bool _ _).
  - destruct A as (A1 & _), B as (B1 & B2 & _). split; auto. rewrite A1, B1. reflexivity.
  - destruct A as (A & _). apply overflow_not_finite in A. congruence.
Qed.
(** squares and sums of non-negative values *)
Definition nonneg (x : F) : Prop := is_nan x = false /\ Bsign x = false.
Lemma square_nonneg (x : F) : is_nan x = false -> nonneg (mul x x).
Proof.
  intros N. cbn [mul BOps]. destruct x as [s|s| |s m e h] eqn:Ex; try discriminate; try (destruct s; split; reflexivity).
  rewrite <- Ex. assert (Fx : fin x) by (subst; auto). assert (Sx : Bsign x = s) by (subst; auto). clear Ex.
  pose proof (Bmult_correct prec emax Hprec Hmax mode_NE x x) as A. destruct (Rlt_bool _ _).
  - destruct A as (_ & A2 & A3). rewrite Fx in A2. cbn in A2. assert (Nn : is_nan (Bmult mode_NE x x) = false) by (destruct (Bmult mode_NE x x); cbn in *; auto; discriminate).
    split; auto. rewrite A3 by auto. apply xorb_nilpotent.
  - rewrite xorb_nilpotent in A. destruct (Bmult mode_NE x x) as [t|t| |t ? ? ?]; cbn in A; try discriminate. injection A as ->. split; reflexivity.
Qed.
Lemma nonneg_val (x : F) : nonneg x -> 0 <= val x.
Proof. intros [_ S]. destruct x as [s|s| |s m e h]; cbn in *; try lra. subst. apply Float_prop.F2R_ge_0. cbn. lia. Qed.
Lemma sum_nonneg (x y : F) : nonneg x -> nonneg y -> nonneg (add x y).
Proof.
  intros Hx Hy. pose proof (nonneg_val x Hx) as Vx. pose proof (nonneg_val y Hy) as Vy. destruct Hx as [Nx Sx], Hy as [Ny Sy]. cbn [add BOps].
  destruct (is_finite x) eqn:Fx; [|destruct x as [s|s| |s m e h]; try discriminate; cbn in Sx; subst; destruct y as [t|t| |t ? ? ?]; try discriminate; cbn in Sy; subst; split; reflexivity].
  destruct (is_finite y) eqn:Fy; [|destruct y as [s|s| |s m e h]; try discriminate; cbn in Sy; subst; destruct x as [t|t| |t ? ? ?]; try discriminate; cbn in Sx; subst; split; reflexivity].
  pose proof (Bplus_correct prec emax Hprec Hmax mode_NE x y Fx Fy) as A. destruct (Rlt_bool _ _).
  - destruct A as (A1 & A2 & A3). assert (Nn : is_nan (Bplus mode_NE x y) = false) by (destruct (Bplus mode_NE x y); cbn in *; auto; discriminate).
    split; auto. rewrite A3, Sx, Sy. destruct (Rcompare_spec (val x + val y) 0); auto. lra.
  - destruct A as [A _]. rewrite Sx in A. destruct (Bplus mode_NE x y) as [t|t| |t ? ? ?]; cbn in A; try discriminate. injection A as ->. split; reflexivity.
Qed.
Lemma sqrt_nonneg (x : F) : nonneg x -> nonneg (Bsqrt mode_NE x).
Proof.
  intros [N S]. pose proof (Bsqrt_correct prec emax Hprec Hmax mode_NE x) as (_ & B & C).
  destruct x as [s|s| |s m e h]; try discriminate; cbn in S; subst; try (split; reflexivity).
  assert (Nn : is_nan (Bsqrt mode_NE (B754_finite false m e h)) = false) by (destruct (Bsqrt mode_NE _); cbn in *; auto; discriminate).
  split; auto.
Qed.
End IEEE.
