(** C63: the scalar helpers of scalar/functions.h on IEEE values. *)
From Coq Require Import ZArith Bool List Arith Lia Reals Lra.
From Flocq Require Import Core Relative BinarySingleNaN.
From Verif Require Import Base RInst ScalarModel ScalarProofs FloatModel FloatFacts FloatExact FloatScalar PropFloat.
Import ListNotations.
Open Scope R_scope.

Section IEEE.
Context (prec emax : Z) {Hprec : Prec_gt_0 prec} {Hmax : Prec_lt_emax prec emax} {MO : MathOps (binary_float prec emax)}.
Notation F := (binary_float prec emax).
Notation u := (u_round prec).
Notation val := (@B2R prec emax).
Notation fin x := (is_finite x = true).
Notation rnd := (round radix2 (SpecFloat.fexp prec emax) ZnearestE).

(** ** wrap *)
Lemma period (lo hi : F) : fin (sub hi lo) -> val lo < val hi -> val (sub hi lo) = rnd (val hi - val lo) /\ 0 < val (sub hi lo) <= (val hi - val lo) * (1 + u).
Proof.
  intros H L. destruct (sub_rounded prec emax hi lo H) as (_ & _ & E). split; [exact E|].
  destruct (sub_err prec emax hi lo H) as (_ & _ & d & D & V). pose proof (u_pos prec) as U.
  assert (U2 : u <= / 2). { change (/ 2) with (bpow radix2 (-1)). apply bpow_le. red in Hprec. lia. }
  assert (- u <= d <= u) by (revert D; unfold Rabs; destruct Rcase_abs; lra). rewrite V. split.
  - apply Rmult_lt_0_compat; lra.
  - apply Rmult_le_compat_l; lra.
Qed.
Theorem wrap_float_range : ieee_fmod prec emax MO -> forall v lo hi : F,
  fin (sub v lo) -> fin (sub hi lo) -> val lo < val hi -> fin (wrap v lo hi) ->
  val lo <= val (wrap v lo hi) <= rnd (val lo + rnd (val hi - val lo)) /\
  val (wrap v lo hi) <= val hi + u * (val hi - val lo) + u * (Rabs (val hi) + u * (val hi - val lo)).
Proof.
  intros IF v lo hi Fv Fp L Fw. destruct (period lo hi Fp L) as (Ep & P0 & P1). destruct (sub_rounded prec emax v lo Fv) as (Fvv & Flo & Ev).
  unfold wrap in *. cbv zeta in *. rewrite !IF in Fw |- *. set (p := sub hi lo) in *. set (x := sub v lo) in *. set (f := Bfmod prec emax x p) in *.
  destruct (fmod_exact prec emax x p Fv Fp ltac:(lra)) as [Ff Vf]. fold f in Ff, Vf. destruct (Rfmod_range (val x) (val p) P0) as (Rg & _ & _ & _). rewrite <- Vf in Rg.
  set (g := if ltb f zero then add f p else f) in *.
  assert (G : fin g /\ 0 <= val g <= val p).
  { destruct (add_rounded prec emax lo g Fw) as (_ & Fg & _). split; auto. unfold g in *. rewrite (ltb_val prec emax) in * by auto. change (val zero) with 0 in *. destruct (Rlt_bool_spec (val f) 0).
    - destruct (add_rounded prec emax f p Fg) as (_ & _ & E). cbn [add BOps]. rewrite E. split.
      + rewrite <- (round_0 radix2 (SpecFloat.fexp prec emax) ZnearestE). apply (rnd_mono prec emax); lra.
      + rewrite <- (rnd_val prec emax p) at 2. apply (rnd_mono prec emax); lra.
    - lra. }
  destruct G as [Fg G]. destruct (add_rounded prec emax lo g Fw) as (_ & _ & E). cbn [add BOps]. rewrite E.
  assert (A : rnd (val lo + val g) <= rnd (val lo + val p)) by (apply (rnd_mono prec emax); lra). split.
  - split; [rewrite <- (rnd_val prec emax lo) at 1; apply (rnd_mono prec emax); lra|]. rewrite <- Ep. exact A.
  - destruct (rnd_sum prec emax lo g) as (d & D & R). eapply Rle_trans; [apply Req_le; exact R|]. pose proof (u_pos prec) as U.
    set (s := val lo + val g). assert (S1 : s <= val hi + u * (val hi - val lo)) by (unfold s; lra).
    assert (W : s * (1 + d) <= s + u * Rabs s).
    { rewrite Rmult_plus_distr_l, Rmult_1_r. apply Rplus_le_compat_l. eapply Rle_trans; [apply Rle_abs|]. rewrite Rabs_mult, Rmult_comm. apply Rmult_le_compat_r; auto using Rabs_pos. }
    assert (U2 : u <= / 2). { change (/ 2) with (bpow radix2 (-1)). apply bpow_le. red in Hprec. lia. }
    assert (K : s * (1 + d) <= (val hi + u * (val hi - val lo)) * (1 + d)) by (apply Rmult_le_compat_r; auto; revert D; unfold Rabs; destruct Rcase_abs; lra).
    eapply Rle_trans; [exact K|]. set (t := val hi + u * (val hi - val lo)). rewrite Rmult_plus_distr_l, Rmult_1_r. apply Rplus_le_compat_l.
    eapply Rle_trans; [apply Rle_abs|]. rewrite Rabs_mult, Rmult_comm. apply Rmult_le_compat; auto using Rabs_pos. unfold t. eapply Rle_trans; [apply Rabs_triang|].
    apply Rplus_le_compat_l. rewrite Rabs_pos_eq; [lra|]. apply Rmult_le_pos; lra.
Qed.
(** a range that starts at zero loses nothing for values above it *)
Theorem wrap_from_zero_exact : ieee_fmod prec emax MO -> forall v hi : F, fin v -> fin hi -> 0 <= val v -> 0 < val hi ->
  fin (wrap v zero hi) /\ val (wrap v zero hi) = Rfmod (val v) (val hi) /\ 0 <= val (wrap v zero hi) < val hi.
Proof.
  intros IF v hi Fv Fh V H. assert (Z : forall x : F, fin x -> val (sub x zero) = val x /\ fin (sub x zero)).
  { intros x Fx. cbn [sub zero BOps]. pose proof (Bminus_correct prec emax Hprec Hmax mode_NE x (B754_zero false) Fx eq_refl) as C. change (val (B754_zero false)) with 0 in C. rewrite Rminus_0_r in C.
    change (round_mode mode_NE) with ZnearestE in C. rewrite rnd_val, Rlt_bool_true in C by (auto; apply abs_B2R_lt_emax). tauto. }
  assert (Z' : forall x : F, fin x -> val (add zero x) = val x /\ fin (add zero x)).
  { intros x Fx. cbn [add zero BOps]. pose proof (Bplus_correct prec emax Hprec Hmax mode_NE (B754_zero false) x eq_refl Fx) as C. change (val (B754_zero false)) with 0 in C. rewrite Rplus_0_l in C.
    change (round_mode mode_NE) with ZnearestE in C. rewrite rnd_val, Rlt_bool_true in C by (auto; apply abs_B2R_lt_emax). tauto. }
  destruct (Z v Fv) as [Ev Fx], (Z hi Fh) as [Eh Fp]. unfold wrap. cbv zeta. rewrite !IF. destruct (fmod_exact prec emax _ _ Fx Fp ltac:(lra)) as [Ff Vf]. rewrite Ev, Eh in Vf.
  destruct (Rfmod_range (val v) (val hi) H) as (Rg & R1 & _ & _). specialize (R1 V). rewrite (ltb_val prec emax) by auto. change (val zero) with 0. rewrite Rlt_bool_false by lra.
  destruct (Z' _ Ff) as [A B]. rewrite A, Vf. repeat split; auto; lra.
Qed.

(** ** clamp *)
Theorem clamp_float : forall v lo hi : F, fin lo -> fin hi -> val lo <= val hi ->
  (is_nan v = false -> fin (clamp v lo hi) /\ val lo <= val (clamp v lo hi) <= val hi) /\
  (fin v -> val lo <= val v <= val hi -> clamp v lo hi = v) /\
  (fin v -> val v <= val lo -> val (clamp v lo hi) = val lo) /\ (fin v -> val hi <= val v -> val (clamp v lo hi) = val hi) /\
  (is_nan v = true -> is_nan (clamp v lo hi) = true).
Proof.
  intros v lo hi Fl Fh L. unfold clamp, std_max, std_min.
  destruct (is_finite v) eqn:Fv.
  - rewrite (ltb_val prec emax hi v) by auto. destruct (Rlt_bool_spec (val hi) (val v)); rewrite (ltb_val prec emax) by auto.
    + rewrite Rlt_bool_false by lra. repeat split; intros; auto; try lra. exfalso. destruct v; discriminate.
    + destruct (Rlt_bool_spec (val v) (val lo)); repeat split; intros; auto; try lra; exfalso; destruct v; discriminate.
  - assert (K : forall (x : F) s, fin x -> ltb x (B754_infinity s) = negb s /\ ltb (B754_infinity s) x = s) by (intros x s Hx; destruct x as [[|]|[|]| |[|]], s; cbn in *; try discriminate; split; reflexivity).
    destruct v as [s|s| |s m e h]; try discriminate.
    + destruct (K hi s Fh) as [K1 _]. rewrite K1. destruct s; cbn [negb].
      * destruct (K lo true Fl) as [_ K2]. rewrite K2. repeat split; intros; auto; try lra; discriminate.
      * rewrite (ltb_val prec emax) by auto. rewrite Rlt_bool_false by lra. repeat split; intros; auto; try lra; discriminate.
    + rewrite ltb_nan_r, ltb_nan_l. repeat split; intros; try discriminate; auto.
Qed.
(** the argument that reaches acos and asin *)
Lemma one_val : val one = 1 /\ fin (one : F). Proof. split; [apply Bone_correct|apply is_finite_Bone]. Qed.
Theorem acos_asin_safe_argument : forall x : F, is_nan x = false ->
  exists c, acos_safe x = macos c /\ asin_safe x = masin c /\ fin c /\ -1 <= val c <= 1 /\ (fin x -> -1 <= val x <= 1 -> c = x).
Proof.
  intros x N. destruct one_val as [O1 O2]. assert (M1 : val (neg one) = -1) by (cbn [neg BOps]; rewrite B2R_Bopp; change (val Bone) with (val one); rewrite O1; ring).
  assert (M2 : fin (neg one : F)) by (cbn [neg BOps]; rewrite is_finite_Bopp; exact O2).
  destruct (clamp_float x (neg one) one M2 O2 ltac:(lra)) as (A & B & _). destruct (A N) as [A1 A2]. exists (clamp x (neg one) one). rewrite M1, O1 in *. auto.
Qed.
Theorem sqrt_safe_never_nan : ieee_math prec emax MO -> forall x : F, is_nan x = false -> is_nan (sqrt_safe x) = false /\ Bsign (sqrt_safe x) = false \/ x = B754_zero true.
Proof.
  intros (Sq & _) x N. unfold sqrt_safe, std_max. rewrite Sq. destruct x as [[|]|[|]| |[|] m e h]; try discriminate; auto; left; apply sqrt_nonneg; split; reflexivity.
Qed.
(** ** in_range: what it decides for numbers, and that it accepts NaN *)
Theorem in_range_float : forall v lo hi : F, fin v -> fin lo -> fin hi -> (in_range v lo hi = true <-> val lo <= val v <= val hi).
Proof.
  intros v lo hi Fv Fl Fh. unfold in_range. rewrite !(ltb_val prec emax) by auto.
  destruct (Rlt_bool_spec (val v) (val lo)), (Rlt_bool_spec (val hi) (val v)); cbn; split; intros; try discriminate; try lra; auto.
Qed.
Theorem in_range_nan_refuted : forall lo hi : F, in_range B754_nan lo hi = true.
Proof. intros. unfold in_range. rewrite ltb_nan_l, ltb_nan_r. reflexivity. Qed.
(** ** map_range: the lower end is exact *)
Theorem map_range_lower_exact : forall a b c d : F, fin a -> fin c -> fin (sub b a) -> fin (sub d c) -> val a <> val b -> val (map_range a a b c d) = val c /\ fin (map_range a a b c d).
Proof.
  intros a b c d Fa Fc Fp Fq N. unfold map_range. replace (sub a a) with (B754_zero false : F) by (symmetry; apply sub_self; auto).
  destruct (sub_err prec emax b a Fp) as (_ & _ & e & D & V). pose proof (u_pos prec) as U.
  assert (U2 : u <= / 2). { change (/ 2) with (bpow radix2 (-1)). apply bpow_le. red in Hprec. lia. }
  assert (NP : val (sub b a) <> 0). { rewrite V. intros Z. apply Rmult_integral in Z. destruct Z; [lra|]. revert D. unfold Rabs. destruct Rcase_abs; lra. }
  assert (Q : exists s, mul (div (B754_zero false) (sub b a)) (sub d c) = B754_zero s).
  { destruct (sub d c) as [t|t| |t m' e' h']; try discriminate; (destruct (sub b a) as [s|s| |s m e0 h]; try discriminate; [cbn in NP; lra|]); eexists; reflexivity. }
  destruct Q as [s ->]. cbn [add BOps]. pose proof (Bplus_correct prec emax Hprec Hmax mode_NE c (B754_zero s) Fc eq_refl) as C. change (val (B754_zero s)) with 0 in C. rewrite Rplus_0_r in C.
  change (round_mode mode_NE) with ZnearestE in C. rewrite rnd_val, Rlt_bool_true in C by (auto; apply abs_B2R_lt_emax). tauto.
Qed.
(** ** index_of_max and index_of_min agree with the real numbers on finite arguments *)
Theorem index_of_float : forall a b c d : F, fin a -> fin b -> fin c -> fin d ->
  index_of_max2 a b = index_of_max2 (val a) (val b) /\ index_of_min2 a b = index_of_min2 (val a) (val b) /\
  index_of_max3 a b c = index_of_max3 (val a) (val b) (val c) /\ index_of_min3 a b c = index_of_min3 (val a) (val b) (val c) /\
  index_of_max4 a b c d = index_of_max4 (val a) (val b) (val c) (val d) /\ index_of_min4 a b c d = index_of_min4 (val a) (val b) (val c) (val d).
Proof.
  intros a b c d Fa Fb Fc Fd. assert (E : forall x y : F, fin x -> fin y -> ltb x y = ltb (val x) (val y)).
  { intros x y Fx Fy. rewrite (ltb_val prec emax) by auto. cbn [ltb ROps]. unfold Rltb. destruct (Rlt_bool_spec (val x) (val y)), (Rlt_dec (val x) (val y)); auto; lra. }
  unfold index_of_max2, index_of_min2, index_of_max3, index_of_min3, index_of_max4, index_of_min4. rewrite !E by auto. repeat split; reflexivity.
Qed.
Theorem index_of_float_abs : ieee_math prec emax MO -> forall a b c d : F, fin a -> fin b -> fin c -> fin d ->
  index_of_max_abs2 a b = index_of_max_abs2 (val a) (val b) /\ index_of_min_abs2 a b = index_of_min_abs2 (val a) (val b) /\
  index_of_max_abs3 a b c = index_of_max_abs3 (val a) (val b) (val c) /\ index_of_min_abs3 a b c = index_of_min_abs3 (val a) (val b) (val c) /\
  index_of_max_abs4 a b c d = index_of_max_abs4 (val a) (val b) (val c) (val d) /\ index_of_min_abs4 a b c d = index_of_min_abs4 (val a) (val b) (val c) (val d).
Proof.
  intros (_ & Ab) a b c d Fa Fb Fc Fd. unfold index_of_max_abs2, index_of_min_abs2, index_of_max_abs3, index_of_min_abs3, index_of_max_abs4, index_of_min_abs4.
  rewrite !Ab. cbn [mfabs RMath]. rewrite <- !B2R_Babs.
  apply (index_of_float (Babs a) (Babs b) (Babs c) (Babs d)); rewrite is_finite_Babs; auto.
Qed.
End IEEE.

(** ** Witnesses in double precision *)
(** documented: "Wrap input value to the range [min,max]" *)
Theorem wrap_within_refuted : forall MO : MathOps double, ieee_fmod 53 1024 MO ->
  exists v lo hi : double, forallb is_finite [v; lo; hi; sub hi lo; sub v lo; wrap v lo hi] = true /\ Bltb lo hi = true /\ Bltb hi (wrap v lo hi) = true.
Proof.
  intros MO IF. exists (dbl (-1) 0), (dbl (1 - 2 ^ 53) (-53)), (dbl 17 (-55)). unfold wrap. cbv zeta. rewrite !IF. repeat split; vm_compute; reflexivity.
Qed.
Theorem map_range_upper_refuted : exists a b c d : double, forallb is_finite [a; b; c; d; sub b a; sub d c; map_range b a b c d] = true /\ Beqb (map_range b a b c d) d = false.
Proof. exists (dbl 0 0), (dbl 1 0), (dbl (1 - 2 ^ 53) (-53)), (dbl 17 (-55)). split; vm_compute; reflexivity. Qed.
Theorem index_of_max_nan_refuted : exists a b c : double, is_nan b = true /\ index_of_max3 a b c = 2%nat /\ Bltb c a = true.
Proof. exists (dbl 1 0), B754_nan, (dbl 0 0). repeat split; vm_compute; reflexivity. Qed.
Example wrap_float_case : forall MO : MathOps double, ieee_fmod 53 1024 MO -> let v := dbl 725 (-3) in let lo := dbl (-1) 0 in let hi := dbl 3 0 in
  forallb is_finite [sub v lo; sub hi lo; wrap v lo hi] = true /\ Bltb lo hi = true /\ Beqb (wrap v lo hi) (dbl 21 (-3)) = true.
Proof. intros MO IF. unfold wrap. cbv zeta. rewrite !IF. repeat split; vm_compute; reflexivity. Qed.
Example clamp_float_case : let lo := dbl (-1) 0 in let hi := dbl 3 0 in Beqb (clamp (B754_infinity true) lo hi) lo = true /\ Beqb (clamp (dbl 5 (-1)) lo hi) (dbl 5 (-1)) = true.
Proof. split; vm_compute; reflexivity. Qed.
Print Assumptions wrap_float_range.
Print Assumptions clamp_float.
Print Assumptions index_of_float.
Print Assumptions wrap_within_refuted.
