(** Conversions between binary formats, and operations done in a wider format. *)
From Coq Require Import ZArith Bool List Arith Lia Reals Lra.
From Flocq Require Import Core BinarySingleNaN Double_rounding.
From Verif Require Import Base FloatModel FloatFacts MixedModel.
Open Scope R_scope.

Section Wide.
Context (p e p' e' : Z) {P : Prec_gt_0 p} {E : Prec_lt_emax p e} {P' : Prec_gt_0 p'} {E' : Prec_lt_emax p' e'}.
Notation F := (binary_float p e).
Notation G := (binary_float p' e').
Notation m := (3 - e - p)%Z.
Notation m' := (3 - e' - p')%Z.
Notation fn := (FLT_exp m p).
Notation fw := (FLT_exp m' p').
Notation rn := (round radix2 fn ZnearestE).
Notation rw := (round radix2 fw ZnearestE).
Notation up := (Bconv p e p' e').
Notation down := (Bconv p' e' p e).
Context (Wp : (2 * p + 2 <= p')%Z) (We : (m' <= 2 * m)%Z) (Wd : (m' <= m - p - 2)%Z) (Wm : (2 * e < e')%Z) (Wq : (e - m < e')%Z) (Wm' : (m' <= m)%Z).

Lemma fexp_n : SpecFloat.fexp p e = fn. Proof. reflexivity. Qed.
Lemma fexp_w : SpecFloat.fexp p' e' = fw. Proof. reflexivity. Qed.
Lemma in_n (x : F) : generic_format radix2 fn (B2R x). Proof. apply generic_format_B2R. Qed.
Lemma in_w (x : G) : generic_format radix2 fw (B2R x). Proof. apply generic_format_B2R. Qed.
Lemma n_in_w x : generic_format radix2 fn x -> generic_format radix2 fw x.
Proof.
  apply generic_inclusion_mag. intros _. unfold FLT_exp. pose proof P. unfold Prec_gt_0 in *. lia.
Qed.
Lemma flt_n (x : F) : FLT_format radix2 m p (B2R x). Proof. apply FLT_format_generic; [exact P|apply in_n]. Qed.

(** what any conversion does with a finite value *)
Lemma cond_sign s q k : F2R (Float radix2 (cond_Zopp s (Zpos q)) k) = 0 -> False.
Proof. apply Float_prop.F2R_neq_0. destruct s; cbn; discriminate. Qed.
Lemma cond_cmp s q k : Rlt_bool (F2R (Float radix2 (cond_Zopp s (Zpos q)) k)) 0 = s.
Proof.
  destruct s; cbn [cond_Zopp].
  - apply Rlt_bool_true. apply Float_prop.F2R_lt_0. reflexivity.
  - apply Rlt_bool_false. apply Float_prop.F2R_ge_0. cbn. lia.
Qed.
Lemma up_spec (x : F) : B2R (up x) = B2R x /\ is_finite (up x) = is_finite x /\ is_nan (up x) = is_nan x /\ Bsign (up x) = Bsign x.
Proof.
  destruct x as [s|s| |s q k H] eqn:Ex; try (cbn; auto; fail).
  pose proof (binary_normalize_correct p' e' P' E' mode_NE (cond_Zopp s (Zpos q)) k s) as A. cbv zeta in A.
  cbn [round_mode] in A. rewrite fexp_w in A.
  assert (Ev : F2R (Float radix2 (cond_Zopp s (Zpos q)) k) = B2R x) by (subst; reflexivity).
  pose proof (cond_sign s q k) as Nz. pose proof (cond_cmp s q k) as Cm.
  rewrite Ev in *. rewrite round_generic in A by (auto with typeclass_instances; apply n_in_w, in_n).
  rewrite Rlt_bool_true in A.
  2:{ eapply Rlt_le_trans; [apply abs_B2R_lt_emax|]. apply bpow_le. pose proof P; pose proof E; unfold Prec_gt_0, Prec_lt_emax in *. lia. }
  destruct A as (A1 & A2 & A3). rewrite <- Ex.
  assert (Us : up x = binary_normalize p' e' P' E' mode_NE (cond_Zopp s (Zpos q)) k s) by (rewrite Ex; reflexivity).
  rewrite Us. repeat split.
  - exact A1.
  - rewrite A2, Ex; reflexivity.
  - rewrite is_nan_binary_normalize, Ex. reflexivity.
  - rewrite A3. assert (Sx : Bsign x = s) by (rewrite Ex; reflexivity). rewrite Sx. destruct (Rcompare_spec (B2R x) 0) as [L|L|L].
    + rewrite Rlt_bool_true in Cm by auto. auto.
    + exfalso. auto.
    + rewrite Rlt_bool_false in Cm by lra. auto.
Qed.
Lemma up_strict (x : F) : is_finite_strict x = true -> is_finite_strict (up x) = true.
Proof.
  intros H. destruct (up_spec x) as (A1 & A2 & _ & _). destruct x as [| | |s q k B]; try discriminate. destruct (up _); auto; try discriminate.
  exfalso. apply (cond_sign s q k). cbn in A1. symmetry. exact A1.
Qed.
Lemma up_finite (x : F) : is_finite_strict x = true -> exists q k B, up x = B754_finite (Bsign x) q k B.
Proof.
  intros H. pose proof (up_strict x H). destruct (up_spec x) as (_ & _ & _ & A4). destruct (up x); try discriminate. cbn in A4. subst. eauto.
Qed.
Lemma down_spec (z : G) : is_finite z = true ->
  if Rlt_bool (Rabs (rn (B2R z))) (bpow radix2 e) then B2R (down z) = rn (B2R z) /\ is_finite (down z) = true /\ Bsign (down z) = Bsign z
  else B2SF (down z) = binary_overflow p e mode_NE (Bsign z).
Proof.
  destruct z as [s|s| |s q k H] eqn:Ez; try discriminate; intros _.
  - cbn [B2R]. rewrite round_0 by auto with typeclass_instances. rewrite Rabs_R0, Rlt_bool_true by apply bpow_gt_0. cbn; auto.
  - pose proof (binary_normalize_correct p e P E mode_NE (cond_Zopp s (Zpos q)) k s) as A. cbv zeta in A.
    cbn [round_mode] in A. rewrite fexp_n in A.
    assert (Ev : F2R (Float radix2 (cond_Zopp s (Zpos q)) k) = B2R z) by (subst; reflexivity).
    pose proof (cond_sign s q k) as Nz. pose proof (cond_cmp s q k) as Cm. rewrite Ev in *.
    assert (Us : down z = binary_normalize p e P E mode_NE (cond_Zopp s (Zpos q)) k s) by (rewrite Ez; reflexivity).
    rewrite <- Ez, Us. destruct (Rlt_bool (Rabs (rn (B2R z))) (bpow radix2 e)).
    + destruct A as (A1 & A2 & A3). repeat split; auto. rewrite A3. assert (Sz : Bsign z = s) by (rewrite Ez; reflexivity). rewrite Sz. destruct (Rcompare_spec (B2R z) 0) as [L|L|L].
      * rewrite Rlt_bool_true in Cm by auto. auto.
      * exfalso. auto.
      * rewrite Rlt_bool_false in Cm by lra. auto.
    + rewrite A, Cm, Ez. reflexivity.
Qed.
Lemma down_up (x : F) : down (up x) = x.
Proof.
  destruct (is_finite x) eqn:Fx.
  - destruct (up_spec x) as (A1 & A2 & _ & A4). pose proof (down_spec (up x)) as B. rewrite A2 in B. specialize (B Fx). rewrite A1 in B.
    rewrite round_generic in B by (auto with typeclass_instances; apply in_n). rewrite Rlt_bool_true in B by apply abs_B2R_lt_emax.
    destruct B as (B1 & B2 & B3). apply B2R_Bsign_inj; auto. congruence.
  - destruct x; try discriminate; reflexivity.
Qed.
(** a wide result narrowed is the narrow result *)
Lemma finish (z : G) (w : F) r s : is_finite z = true -> B2R z = rw r -> Bsign z = s -> rn (rw r) = rn r ->
  (if Rlt_bool (Rabs (rn r)) (bpow radix2 e) then B2R w = rn r /\ is_finite w = true /\ Bsign w = s else B2SF w = binary_overflow p e mode_NE s) ->
  down z = w.
Proof.
  intros Fz Vz Sz DR H. pose proof (down_spec z Fz) as A. rewrite Vz, DR in A.
  destruct (Rlt_bool (Rabs (rn r)) (bpow radix2 e)).
  - destruct A as (A1 & A2 & A3), H as (H1 & H2 & H3). apply B2R_Bsign_inj; auto; congruence.
  - apply B2SF_inj. congruence.
Qed.
(** the wide operation does not overflow *)
Lemma wide_fits r k : Rabs r <= bpow radix2 k -> (k < e')%Z -> (m' <= k)%Z -> Rlt_bool (Rabs (rw r)) (bpow radix2 e') = true.
Proof.
  intros Hr Hk Hk'. apply Rlt_bool_true. apply Rle_lt_trans with (bpow radix2 k); [|apply bpow_lt; auto].
  apply abs_round_le_generic; auto with typeclass_instances. apply generic_format_bpow. unfold FLT_exp.
  pose proof P'; unfold Prec_gt_0 in *. lia.
Qed.
Lemma n_bound (x : F) : Rabs (B2R x) <= bpow radix2 e. Proof. left. apply abs_B2R_lt_emax. Qed.
Lemma n_least (x : F) : B2R x <> 0 -> bpow radix2 m <= Rabs (B2R x).
Proof.
  intros H. apply (abs_B2R_ge_emin p e). destruct x; try (exfalso; apply H; reflexivity); reflexivity.
Qed.

Definition same_spec (r : R) (s : bool) (w : F) : Prop :=
  if Rlt_bool (Rabs (rn r)) (bpow radix2 e) then B2R w = rn r /\ is_finite w = true /\ Bsign w = s else B2SF w = binary_overflow p e mode_NE s.
Lemma sign_pos {q k} (x : binary_float q k) : is_finite x = true -> Bsign x = false -> 0 <= B2R x.
Proof. destruct x as [| | |s z v H]; intros F0 S0; try discriminate; cbn in *; [lra|]. subst. apply Float_prop.F2R_ge_0. cbn. lia. Qed.
Lemma sign_neg {q k} (x : binary_float q k) : is_finite x = true -> Bsign x = true -> B2R x <= 0.
Proof. destruct x as [| | |s z v H]; intros F0 S0; try discriminate; cbn in *; [lra|]. subst. apply Float_prop.F2R_le_0. cbn. lia. Qed.
Lemma fin_not_nan {q k} (x : binary_float q k) : is_finite x = true -> is_nan x = false. Proof. destruct x; auto; discriminate. Qed.

Lemma mul_in_wide (x y : F) : down (Bmult mode_NE (up x) (up y)) = Bmult mode_NE x y.
Proof.
  destruct (is_finite x && is_finite y) eqn:Fxy.
  2:{ destruct x as [sx|sx| |sx mx ex Hx] eqn:Ex, y as [sy|sy| |sy my ey Hy] eqn:Ey; try discriminate Fxy; try reflexivity.
      all: (rewrite <- Ey at 1; destruct (up_finite y) as (mm & kk & B & U); [rewrite Ey; reflexivity|]; rewrite U, Ey; reflexivity) ||
           (rewrite <- Ex at 1; destruct (up_finite x) as (mm & kk & B & U); [rewrite Ex; reflexivity|]; rewrite U, Ex; reflexivity). }
  apply andb_prop in Fxy. destruct Fxy as [Fx Fy].
  destruct (up_spec x) as (X1 & X2 & X3 & X4), (up_spec y) as (Y1 & Y2 & Y3 & Y4).
  pose proof (Bmult_correct p' e' P' E' mode_NE (up x) (up y)) as A. rewrite X1, X2, X4, Y1, Y2, Y4, Fx, Fy in A. cbn [round_mode andb] in A. rewrite fexp_w in A.
  rewrite (wide_fits _ (e + e)) in A.
  - destruct A as (A1 & A2 & A3). specialize (A3 (fin_not_nan _ A2)).
    apply (finish _ _ _ (xorb (Bsign x) (Bsign y)) A2 A1 A3).
    + apply round_round_mult_FLT; auto; try apply flt_n; [typeclasses eauto|lia].
    + pose proof (Bmult_correct p e P E mode_NE x y) as B. rewrite Fx, Fy in B. cbn [round_mode andb] in B. rewrite fexp_n in B.
      destruct (Rlt_bool _ _); auto. destruct B as (B1 & B2 & B3). repeat split; auto. apply B3, fin_not_nan; auto.
  - rewrite Rabs_mult, bpow_plus. apply Rmult_le_compat; try apply Rabs_pos; apply n_bound.
  - lia.
  - pose proof P; pose proof E; unfold Prec_gt_0, Prec_lt_emax in *. lia.
Qed.
Lemma add_in_wide (x y : F) : down (Bplus mode_NE (up x) (up y)) = Bplus mode_NE x y.
Proof.
  destruct (is_finite x && is_finite y) eqn:Fxy.
  2:{ destruct x as [sx|sx| |sx mx ex Hx] eqn:Ex, y as [sy|sy| |sy my ey Hy] eqn:Ey; try discriminate Fxy; try reflexivity; try (cbn; destruct (Bool.eqb sx sy); reflexivity).
      all: (rewrite <- Ey at 1; destruct (up_finite y) as (mm & kk & B & U); [rewrite Ey; reflexivity|]; rewrite U, Ey; reflexivity) ||
           (rewrite <- Ex at 1; destruct (up_finite x) as (mm & kk & B & U); [rewrite Ex; reflexivity|]; rewrite U, Ex; reflexivity). }
  apply andb_prop in Fxy. destruct Fxy as [Fx Fy].
  destruct (up_spec x) as (X1 & X2 & X3 & X4), (up_spec y) as (Y1 & Y2 & Y3 & Y4).
  pose proof (Bplus_correct p' e' P' E' mode_NE (up x) (up y)) as A. rewrite X1, X2, X4, Y1, Y2, Y4 in A. specialize (A Fx Fy). cbn [round_mode andb] in A. rewrite fexp_w in A.
  rewrite (wide_fits _ (e + 1)) in A.
  - destruct A as (A1 & A2 & A3).
    apply (finish _ _ _ _ A2 A1 A3).
    + apply round_round_plus_FLT; auto; try apply flt_n; lia.
    + pose proof (Bplus_correct p e P E mode_NE x y Fx Fy) as B. cbn [round_mode andb] in B. rewrite fexp_n in B.
      destruct (Rlt_bool _ _) eqn:L; auto. destruct B as (B1 & B2). rewrite B1. f_equal.
      destruct (Rcompare_spec (B2R x + B2R y) 0) as [C|C|C].
      * destruct (Bsign x) eqn:Sx; auto. exfalso. symmetry in B2. pose proof (sign_pos x Fx Sx). pose proof (sign_pos y Fy B2). lra.
      * exfalso. rewrite C, round_0, Rabs_R0, Rlt_bool_true in L by (auto with typeclass_instances; apply bpow_gt_0). discriminate.
      * destruct (Bsign x) eqn:Sx; auto. exfalso. symmetry in B2. pose proof (sign_neg x Fx Sx). pose proof (sign_neg y Fy B2). lra.
  - rewrite bpow_plus. change (bpow radix2 1) with 2. pose proof (Rabs_triang (B2R x) (B2R y)). pose proof (n_bound x). pose proof (n_bound y). lra.
  - pose proof P; pose proof E; unfold Prec_gt_0, Prec_lt_emax in *. lia.
  - pose proof P; pose proof E; unfold Prec_gt_0, Prec_lt_emax in *. lia.
Qed.
Lemma sub_is_add_opp {q k} {Q : Prec_gt_0 q} {K : Prec_lt_emax q k} (x y : binary_float q k) : Bminus mode_NE x y = Bplus mode_NE x (Bopp y).
Proof. destruct x, y; reflexivity. Qed.
Lemma up_opp (x : F) : up (Bopp x) = Bopp (up x).
Proof.
  destruct (is_finite x) eqn:Fx.
  - destruct (up_spec x) as (X1 & X2 & X3 & X4), (up_spec (Bopp x)) as (Y1 & Y2 & Y3 & Y4). apply B2R_Bsign_inj.
    + rewrite Y2, is_finite_Bopp. auto.
    + rewrite is_finite_Bopp, X2. auto.
    + rewrite Y1, !B2R_Bopp, X1. reflexivity.
    + rewrite Y4, !Bsign_Bopp, X4; auto; [rewrite X3|]; apply fin_not_nan; auto.
  - destruct x; try discriminate; reflexivity.
Qed.
Lemma sub_in_wide (x y : F) : down (Bminus mode_NE (up x) (up y)) = Bminus mode_NE x y.
Proof. rewrite !sub_is_add_opp, <- up_opp. apply add_in_wide. Qed.
Lemma div_in_wide (x y : F) : down (Bdiv mode_NE (up x) (up y)) = Bdiv mode_NE x y.
Proof.
  destruct (is_finite_strict y) eqn:Fy.
  2:{ destruct x as [sx|sx| |sx mx ex Hx] eqn:Ex, y as [sy|sy| |sy my ey Hy] eqn:Ey; try discriminate Fy; try reflexivity.
      all: rewrite <- Ex at 1; destruct (up_finite x) as (mm & kk & B & U); [rewrite Ex; reflexivity|]; rewrite U, Ex; reflexivity. }
  assert (Ny : B2R y <> 0). { destruct y as [| | |sy my ey Hy]; try discriminate. exact (cond_sign sy my ey). }
  assert (Ny' : B2R (up y) <> 0). { destruct (up_spec y) as (Y1 & _). rewrite Y1. auto. }
  destruct (is_finite x) eqn:Fx.
  2:{ destruct (up_finite y Fy) as (mm & kk & B & U). rewrite U. destruct x, y; try discriminate; reflexivity. }
  destruct (up_spec x) as (X1 & X2 & X3 & X4), (up_spec y) as (Y1 & Y2 & Y3 & Y4).
  pose proof (Bdiv_correct p' e' P' E' mode_NE (up x) (up y) Ny') as A. rewrite X1, X2, X4, Y1, Y4, Fx in A. cbn [round_mode andb] in A. rewrite fexp_w in A.
  rewrite (wide_fits _ (e - m)) in A.
  - destruct A as (A1 & A2 & A3). specialize (A3 (fin_not_nan _ A2)).
    apply (finish _ _ _ (xorb (Bsign x) (Bsign y)) A2 A1 A3).
    + apply round_round_div_FLT; auto; try lia; [exists 1%Z; reflexivity|apply flt_n|apply flt_n].
    + pose proof (Bdiv_correct p e P E mode_NE x y Ny) as B. rewrite Fx in B. cbn [round_mode andb] in B. rewrite fexp_n in B.
      destruct (Rlt_bool _ _); auto. destruct B as (B1 & B2 & B3). repeat split; auto. apply B3, fin_not_nan; auto.
  - unfold Rdiv. rewrite Rabs_mult, Rabs_inv. replace (e - m)%Z with (e + - m)%Z by lia. rewrite bpow_plus, bpow_opp.
    apply Rmult_le_compat; try apply Rabs_pos; [left; apply Rinv_0_lt_compat, Rabs_pos_lt; auto|apply n_bound|].
    apply Rinv_le; [apply bpow_gt_0|apply n_least; auto].
  - lia.
  - pose proof P; pose proof E; unfold Prec_gt_0, Prec_lt_emax in *. lia.
Qed.
Lemma sqrt_in_wide (x : F) : down (Bsqrt mode_NE (up x)) = Bsqrt mode_NE x.
Proof.
  destruct x as [s|s| |s q k B] eqn:Ex; try reflexivity; [destruct s; reflexivity|]. destruct s.
  - rewrite <- Ex at 1. destruct (up_finite x) as (mm & kk & B' & U); [rewrite Ex; reflexivity|]. rewrite U, Ex. reflexivity.
  - rewrite <- Ex. assert (Fx : is_finite x = true) by (rewrite Ex; reflexivity). assert (Sx : Bsign x = false) by (rewrite Ex; reflexivity). 
    destruct (up_spec x) as (X1 & X2 & X3 & X4).
    destruct (Bsqrt_correct p' e' P' E' mode_NE (up x)) as (A1 & A2 & A3). destruct (Bsqrt_correct p e P E mode_NE x) as (B1 & B2 & B3).
    destruct (up_finite x) as (mm & kk & B' & U); [rewrite Ex; reflexivity|].
    assert (A2' : is_finite (Bsqrt mode_NE (up x)) = true) by (rewrite A2, U, Sx; reflexivity).
    assert (B2' : is_finite (Bsqrt mode_NE x) = true) by (rewrite B2, Ex; reflexivity).
    apply (finish (Bsqrt mode_NE (up x)) (Bsqrt mode_NE x) (sqrt (B2R x)) false A2').
    + rewrite A1, X1. reflexivity.
    + rewrite A3, X4 by (apply fin_not_nan; auto). exact Sx.
    + apply round_round_sqrt_FLT; auto; try lia; try apply flt_n; pose proof P; pose proof E; unfold Prec_gt_0, Prec_lt_emax in *; lia.
    + rewrite Rlt_bool_true.
      * repeat split; auto. rewrite B3 by (apply fin_not_nan; auto). exact Sx.
      * cbn [round_mode] in B1. rewrite fexp_n in B1. rewrite <- B1. apply abs_B2R_lt_emax.
Qed.
End Wide.

(** float and double *)
Notation vs := (@B2R 24 128).
Notation vd := (@B2R 53 1024).
Lemma widen_spec (x : single) : vd (widen x) = vs x /\ is_finite (widen x) = is_finite x /\ is_nan (widen x) = is_nan x /\ Bsign (widen x) = Bsign x.
Proof. apply up_spec; reflexivity || (cbn; lia). Qed.
Lemma narrow_widen (x : single) : narrow (widen x) = x.
Proof. apply down_up; cbn; lia. Qed.
Lemma single_in_double o (x y : single) : narrow (fop o (widen x) (widen y)) = fop o x y.
Proof.
  unfold narrow, widen. destruct o; cbn [fop add sub mul div BOps]; [apply add_in_wide|apply sub_in_wide|apply mul_in_wide|apply div_in_wide]; cbn; lia.
Qed.
Lemma sqrt_in_double (x : single) : narrow (Bsqrt mode_NE (widen x)) = Bsqrt mode_NE x.
Proof. apply sqrt_in_wide; cbn; lia. Qed.

Section Nearest.
Context (p e : Z) {P : Prec_gt_0 p} {E : Prec_lt_emax p e}.
Notation F := (binary_float p e).
Notation m := (3 - e - p)%Z.
Notation rn := (round radix2 (FLT_exp m p) ZnearestE).
Definition nearest (y : F) (r : R) : Prop := is_finite y = true /\ forall w : F, is_finite w = true -> Rabs (B2R y - r) <= Rabs (B2R w - r).
Lemma rounded_nearest (y : F) r : is_finite y = true -> B2R y = rn r -> nearest y r.
Proof.
  intros Fy H. split; auto. intros w Fw. rewrite H. destruct (round_N_pt radix2 (FLT_exp m p) (fun x => negb (Z.even x)) r) as [_ N].
  apply (N (B2R w)). apply generic_format_B2R.
Qed.
Lemma normalize_finite z k s : is_finite (binary_normalize p e P E mode_NE z k s) = true -> B2R (binary_normalize p e P E mode_NE z k s) = rn (F2R (Float radix2 z k)).
Proof.
  intros H. pose proof (binary_normalize_correct p e P E mode_NE z k s) as A. cbv zeta in A. cbn [round_mode] in A.
  change (SpecFloat.fexp p e) with (FLT_exp m p) in A. destruct (Rlt_bool _ _).
  - tauto.
  - apply overflow_not_finite in A; auto. congruence.
Qed.
Lemma F2R_int z : F2R (Float radix2 z 0) = IZR z. Proof. unfold F2R. cbn. ring. Qed.
Lemma of_int_nearest z : is_finite (Bof_int p e z) = true -> nearest (Bof_int p e z) (IZR z).
Proof. intros H. apply rounded_nearest; auto. unfold Bof_int in *. rewrite (normalize_finite z 0 false H), F2R_int. reflexivity. Qed.
Lemma int_format z : (m <= 0)%Z -> (Z.abs z <= 2 ^ p)%Z -> generic_format radix2 (FLT_exp m p) (IZR z).
Proof.
  intros Hm Hz. assert (Hp : (0 < p)%Z) by exact P. destruct (Z.eq_dec (Z.abs z) (2 ^ p)) as [Q|Q].
  - assert (generic_format radix2 (FLT_exp m p) (IZR (Z.abs z))) as B.
    { rewrite Q. change 2%Z with (radix_val radix2). rewrite IZR_Zpower by lia. apply generic_format_bpow. unfold FLT_exp. lia. }
    rewrite abs_IZR in B. apply generic_format_abs_inv in B. auto.
  - apply generic_format_FLT. exists (Float radix2 z 0); cbn [Fnum Fexp]; [unfold F2R; cbn; ring| |lia]. change (radix_val radix2) with 2%Z. lia.
Qed.
Lemma of_int_exact z : (m <= 0)%Z -> (p < e)%Z -> (Z.abs z <= 2 ^ p)%Z -> B2R (Bof_int p e z) = IZR z /\ is_finite (Bof_int p e z) = true /\ Bsign (Bof_int p e z) = (z <? 0)%Z.
Proof.
  intros Hm Hpe Hz. assert (Hp : (0 < p)%Z) by exact P.
  pose proof (binary_normalize_correct p e P E mode_NE z 0 false) as A. cbv zeta in A. cbn [round_mode] in A.
  change (SpecFloat.fexp p e) with (FLT_exp m p) in A. rewrite F2R_int in A. rewrite round_generic in A by (auto with typeclass_instances; apply int_format; auto).
  rewrite Rlt_bool_true in A.
  - destruct A as (A1 & A2 & A3). repeat split; auto. unfold Bof_int. rewrite A3. destruct (Rcompare_spec (IZR z) 0) as [C|C|C]; symmetry.
    + apply Z.ltb_lt. apply lt_IZR in C. auto.
    + apply eq_IZR in C. subst. reflexivity.
    + apply Z.ltb_ge. apply lt_IZR in C. lia.
  - rewrite <- abs_IZR. apply Rle_lt_trans with (IZR (2 ^ p)); [apply IZR_le; auto|]. change 2%Z with (radix_val radix2). rewrite IZR_Zpower by lia. apply bpow_lt. auto.
Qed.
Lemma trunc_val (x : F) : Btrunc x = Ztrunc (B2R x).
Proof. apply eq_IZR. rewrite Btrunc_correct by auto. unfold round, F2R, scaled_mantissa, cexp, FIX_exp. cbn. rewrite !Rmult_1_r. reflexivity. Qed.
Lemma to_int_spec t (x : F) z : Bto_int p e t x = Some z <-> is_finite x = true /\ z = Ztrunc (B2R x) /\ IntModel.in_range t z = true.
Proof.
  unfold Bto_int. rewrite trunc_val. destruct x as [s|s| |s q k B]; try (split; [discriminate|intros [H _]; discriminate]);
    destruct (IntModel.in_range t _) eqn:R; split; intros H; try discriminate; try (injection H as <-; auto); try (destruct H as (_ & -> & H); congruence).
Qed.
End Nearest.
(** the product of two floats is a double *)
Lemma double_product_exact (x y : single) : is_finite x = true -> is_finite y = true ->
  is_finite (Bmult mode_NE (widen x) (widen y)) = true /\ vd (Bmult mode_NE (widen x) (widen y)) = vs x * vs y.
Proof.
  intros Fx Fy. destruct (widen_spec x) as (X1 & X2 & _ & _), (widen_spec y) as (Y1 & Y2 & _ & _).
  pose proof (Bmult_correct 53 1024 _ _ mode_NE (widen x) (widen y)) as A. rewrite X1, X2, Y1, Y2, Fx, Fy in A. cbn [round_mode andb] in A.
  change (SpecFloat.fexp 53 1024) with (FLT_exp (3 - 1024 - 53) 53) in A. rewrite round_generic in A.
  - rewrite Rlt_bool_true in A; [tauto|]. apply Rle_lt_trans with (bpow radix2 (128 + 128)); [|apply bpow_lt; lia].
    rewrite Rabs_mult, bpow_plus. apply Rmult_le_compat; try apply Rabs_pos; left; apply abs_B2R_lt_emax.
  - auto with typeclass_instances.
  - destruct (flt_n 24 128 x) as [[a k] V A1 A2], (flt_n 24 128 y) as [[b l] W B1 B2]. cbn [Fnum Fexp] in *.
    apply generic_format_FLT. exists (Float radix2 (a * b) (k + l)); cbn [Fnum Fexp].
    + rewrite V, W. unfold F2R. cbn [Fnum Fexp]. rewrite mult_IZR, bpow_plus. ring.
    + rewrite Z.abs_mul. change (radix_val radix2) with 2%Z in *. apply Z.lt_le_trans with (2 ^ 24 * 2 ^ 24)%Z; [apply Z.mul_lt_mono_nonneg; lia|]. rewrite <- Z.pow_add_r by lia. apply Z.pow_le_mono_r; lia.
    + lia.
Qed.
(** the rounded root of a small integer, cut to an integer *)
Lemma root_trunc z : (0 <= z < 2 ^ 52)%Z -> Ztrunc (round radix2 (FLT_exp (3 - 1024 - 53) 53) ZnearestE (sqrt (IZR z))) = Z.sqrt z.
Proof.
  intros Hz. pose proof (Z.sqrt_spec z (proj1 Hz)) as S0. pose proof (Z.sqrt_nonneg z) as K0. set (k := Z.sqrt z) in *. cbv zeta in S0.
  assert (K1 : (k + 1 <= 2 ^ 26)%Z).
  { destruct (Z_le_gt_dec (k + 1) (2 ^ 26)); auto. exfalso. assert (2 ^ 26 * 2 ^ 26 <= k * k)%Z by (apply Z.mul_le_mono_nonneg; lia). lia. }
  set (r := round _ _ _ _). assert (L : IZR k <= r).
  { apply round_ge_generic; auto with typeclass_instances.
    - apply int_format; [typeclasses eauto|lia|]. rewrite Z.abs_eq by lia. lia.
    - rewrite <- (sqrt_Rsqr (IZR k)) by (apply IZR_le; lia). apply sqrt_le_1_alt. unfold Rsqr. rewrite <- mult_IZR. apply IZR_le. lia. }
  assert (U : r < IZR (k + 1)).
  { set (f := F2R (Float radix2 ((k + 1) * 2 ^ 27 - 1) (-27))).
    assert (Bf : bpow radix2 (-27) = / IZR (2 ^ 27)) by reflexivity.
    assert (Ef : f = IZR (k + 1) - / IZR (2 ^ 27)).
    { unfold f, F2R. cbn [Fnum Fexp]. rewrite Bf, minus_IZR, mult_IZR. field. apply IZR_neq. lia. }
    assert (Pf : 0 < / IZR (2 ^ 27)) by (apply Rinv_0_lt_compat, IZR_lt; lia).
    apply Rle_lt_trans with f; [|lra].
    apply round_le_generic; auto with typeclass_instances.
    - apply generic_format_FLT. exists (Float radix2 ((k + 1) * 2 ^ 27 - 1) (-27)); cbn [Fnum Fexp]; auto; [|lia].
      change (radix_val radix2) with 2%Z. rewrite Z.abs_eq by lia. lia.
    - assert (Kr : 1 <= IZR (k + 1)) by (apply IZR_le; lia). assert (Kr' : IZR (k + 1) <= IZR (2 ^ 26)) by (apply IZR_le; auto).
      assert (H27 : IZR (2 ^ 27) = 2 * IZR (2 ^ 26)) by (rewrite <- mult_IZR; apply f_equal; lia).
      assert (G26 : 1 < IZR (2 ^ 26)) by (apply IZR_lt; lia).
      assert (Q : / IZR (2 ^ 27) < 1). { rewrite <- Rinv_1. apply Rinv_lt_contravar; rewrite ?Rmult_1_l; lra. }
      rewrite <- (sqrt_Rsqr f) by lra. apply sqrt_le_1_alt. unfold Rsqr. rewrite Ef.
      assert (Zr : IZR z <= IZR (k + 1) * IZR (k + 1) - 1) by (rewrite <- mult_IZR, <- minus_IZR; apply IZR_le; lia).
      assert (T : 2 * IZR (k + 1) * / IZR (2 ^ 27) <= 1).
      { apply Rmult_le_reg_r with (IZR (2 ^ 27)); [lra|]. rewrite Rmult_assoc, Rinv_l by lra. lra. }
      assert (0 < / IZR (2 ^ 27) * / IZR (2 ^ 27)) by (apply Rmult_lt_0_compat; auto). nra. }
  assert (P0 : 0 <= r) by (eapply Rle_trans; [apply IZR_le, K0|exact L]). rewrite Ztrunc_floor by auto.
  apply Zfloor_imp. split; auto.
Qed.
