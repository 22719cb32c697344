(** Lemmas for C63: fmod, comparisons and rounding of scalars in IEEE arithmetic. *)
From Coq Require Import ZArith Bool List Arith Lia Reals Lra.
From Flocq Require Import Core Relative Div_sqrt_error BinarySingleNaN.
From Verif Require Import Base RInst FloatModel FloatFacts FloatExact.
Open Scope R_scope.

Lemma Rtrunc_Ztrunc x : Rtrunc x = Ztrunc x.
Proof.
  assert (G : forall y, Int_part y = Zfloor y). { intros y. unfold Int_part, Zfloor. reflexivity. }
  unfold Rtrunc, Ztrunc. destruct (Rle_dec 0 x), (Rlt_bool_spec x 0); try lra; rewrite G; auto.
Qed.
Section IEEE.
Context (prec emax : Z) {Hprec : Prec_gt_0 prec} {Hmax : Prec_lt_emax prec emax}.
Notation F := (binary_float prec emax).
Notation val := (@B2R prec emax).
Notation fin x := (is_finite x = true).
Notation rnd := (round radix2 (SpecFloat.fexp prec emax) ZnearestE).
Notation fmt := (generic_format radix2 (SpecFloat.fexp prec emax)).

Lemma Rfmod_abs x y : y <> 0 -> Rabs (Rfmod x y) <= Rabs x.
Proof.
  intros Ny. unfold Rfmod. rewrite Rtrunc_Ztrunc. set (q := x / y). assert (X : x = q * y) by (unfold q; field; auto).
  replace (x - IZR (Ztrunc q) * y) with ((q - IZR (Ztrunc q)) * y) by (rewrite X at 1; ring). rewrite X, !Rabs_mult. apply Rmult_le_compat_r; [apply Rabs_pos|].
  unfold Ztrunc. destruct (Rlt_bool_spec q 0).
  - unfold Zceil. pose proof (Zfloor_lb (- q)). pose proof (Zfloor_ub (- q)). rewrite opp_IZR. assert (0 <= IZR (Zfloor (- q))) by (apply IZR_le; apply Zfloor_lub; cbn; lra).
    unfold Rabs. repeat destruct Rcase_abs; lra.
  - pose proof (Zfloor_lb q). pose proof (Zfloor_ub q). assert (0 <= IZR (Zfloor q)) by (apply IZR_le; apply Zfloor_lub; auto). unfold Rabs. repeat destruct Rcase_abs; lra.
Qed.
Lemma shift_val s m e e' : (e' <= e)%Z -> @F2R radix2 {| Fnum := cond_Zopp s (Z.pos m); Fexp := e |} = IZR (cond_Zopp s (Z.pos m) * 2 ^ (e - e')) * bpow radix2 e'.
Proof. intros H. unfold F2R. cbn [Fnum Fexp]. rewrite mult_IZR. change 2%Z with (radix_val radix2). rewrite IZR_Zpower by lia. rewrite Rmult_assoc, <- bpow_plus. do 2 f_equal. lia. Qed.
(** fmod is exact *)
Lemma fmod_exact (x y : F) : fin x -> fin y -> val y <> 0 -> fin (Bfmod prec emax x y) /\ val (Bfmod prec emax x y) = Rfmod (val x) (val y).
Proof.
  intros Fx Fy Ny. destruct y as [sy|sy| |sy my ey Hy]; try discriminate; [cbn in Ny; lra|].
  destruct x as [sx|sx| |sx mx ex Hx]; try discriminate.
  - cbn [Bfmod is_finite B2R]. split; auto. unfold Rfmod. rewrite Rtrunc_Ztrunc. unfold Rdiv. rewrite Rmult_0_l, Ztrunc_IZR. cbn. lra.
  - set (x := B754_finite sx mx ex Hx) in *. set (y := B754_finite sy my ey Hy) in *. unfold Bfmod, x, y. fold x y. set (e := Z.min ex ey).
    set (X := (cond_Zopp sx (Z.pos mx) * 2 ^ (ex - e))%Z). set (Y := (cond_Zopp sy (Z.pos my) * 2 ^ (ey - e))%Z).
    assert (VX : val x = IZR X * bpow radix2 e) by (apply shift_val; unfold e; lia). assert (VY : val y = IZR Y * bpow radix2 e) by (apply shift_val; unfold e; lia).
    pose proof (bpow_gt_0 radix2 e) as P. assert (NY : IZR Y <> 0) by (intros Z; apply Ny; rewrite VY, Z; ring). assert (NYz : Y <> 0%Z) by (intros Z; apply NY; rewrite Z; reflexivity).
    assert (R : @F2R radix2 {| Fnum := Z.rem X Y; Fexp := e |} = Rfmod (val x) (val y)).
    { unfold F2R. cbn [Fnum Fexp]. unfold Rfmod. rewrite Rtrunc_Ztrunc, VX, VY. replace (IZR X * bpow radix2 e / (IZR Y * bpow radix2 e)) with (IZR X / IZR Y) by (field; split; auto; lra).
      rewrite Ztrunc_div by auto. assert (Q : IZR (Z.rem X Y) = IZR X - IZR (X ÷ Y) * IZR Y). { rewrite <- mult_IZR, <- minus_IZR. f_equal. pose proof (Z.quot_rem' X Y). lia. } rewrite Q. ring. }
    pose proof (binary_normalize_correct prec emax Hprec Hmax mode_NE (Z.rem X Y) e sx) as C. cbv zeta in C. rewrite R in C.
    assert (G : fmt (Rfmod (val x) (val y))).
    { unfold Rfmod. rewrite Rtrunc_Ztrunc. apply format_REM_ZR; try apply generic_format_B2R. apply fexp_correct; auto. apply fexp_monotone. }
    rewrite round_generic in C by (auto; apply valid_rnd_round_mode). rewrite Rlt_bool_true in C; [tauto|].
    eapply Rle_lt_trans; [apply Rfmod_abs; auto|apply abs_B2R_lt_emax].
Qed.
Lemma ltb_val (x y : F) : fin x -> fin y -> ltb x y = Rlt_bool (val x) (val y).
Proof. intros. apply Bltb_correct; auto. Qed.
Lemma ltb_nan_l (y : F) : ltb B754_nan y = false. Proof. destruct y; reflexivity. Qed.
Lemma ltb_nan_r (x : F) : ltb x B754_nan = false. Proof. destruct x as [|[|]| |[|]]; reflexivity. Qed.
Lemma rnd_mono x y : x <= y -> rnd x <= rnd y.
Proof. apply round_le; [apply fexp_correct; auto|apply valid_rnd_N]. Qed.
Lemma rnd_val (x : F) : rnd (val x) = val x.
Proof. apply round_generic; [apply valid_rnd_N|apply generic_format_B2R]. Qed.
End IEEE.
