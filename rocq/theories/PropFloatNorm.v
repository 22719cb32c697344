(** C62: length() and normalize() in IEEE arithmetic. *)
From Coq Require Import ZArith Bool List Arith Lia Reals Lra.
From Flocq Require Import Core Relative BinarySingleNaN.
From Verif Require Import Base BaseFacts RotModel VecModel ExactProducts FloatModel FloatFacts FloatDot FloatExact PropFloat FloatNorm.
Import ListNotations.
Open Scope R_scope.

Section IEEE.
Context (prec emax : Z) {Hprec : Prec_gt_0 prec} {Hmax : Prec_lt_emax prec emax} {MO : MathOps (binary_float prec emax)} (IM : ieee_math prec emax MO).
Notation F := (binary_float prec emax).
Notation u := (u_round prec).
Notation eta := (eta_min prec emax).
Notation val := (@B2R prec emax).
Notation fin x := (is_finite x = true).
(** the exact squared length *)
Definition norm2 (v : list F) : R := rsum (length v) (fun k => vals prec emax v k * vals prec emax v k).

(** the squared length, then the length: relative errors *)
Lemma norm2_rel (v : list F) l : vlength_squared v = Ok l -> fin l -> INR (length v) * u <= / 64 -> bpow radix2 (3 - emax) <= norm2 v ->
  exists s, Rabs s <= 3 * (INR (length v) * u) /\ val l = norm2 v * (1 + s).
Proof.
  intros E Fl Hn HL. set (n := length v) in *. set (L := norm2 v) in *. pose proof (bpow_gt_0 radix2 (3 - emax)) as P. pose proof (u_pos prec) as U. pose proof (eta_pos prec emax) as Et.
  pose proof (length_squared_accuracy prec emax v l E Fl) as A. cbv zeta in A. fold n in A. change (rsum n _) with L in A.
  destruct (growth u n ltac:(lra) ltac:(lra)) as [G1 G2].
  assert (In0 : 0 <= INR n) by apply pos_INR.
  assert (B : 2 * eta <= u * L).
  { apply Rle_trans with (u * bpow radix2 (3 - emax)); [|apply Rmult_le_compat_l; lra]. unfold u_round, eta_min. rewrite <- bpow_plus. change 2 with (bpow radix2 1). rewrite <- bpow_plus.
    apply bpow_le. unfold SpecFloat.emin. lia. }
  assert (C : Rabs (val l - L) <= 3 * (INR n * u) * L).
  { eapply Rle_trans; [exact A|].
    assert (((1 + u) ^ n - 1) * L <= 2 * (INR n * u) * L) by (apply Rmult_le_compat_r; lra).
    assert (INR n * (1 + u) ^ n * eta <= INR n * 2 * eta) by (apply Rmult_le_compat_r; [lra|]; apply Rmult_le_compat_l; lra).
    assert (INR n * (2 * eta) <= INR n * (u * L)) by (apply Rmult_le_compat_l; lra). lra. }
  exists ((val l - L) / L). split; [|field; lra]. unfold Rdiv. rewrite Rabs_mult, Rabs_inv, (Rabs_pos_eq L) by lra.
  apply Rmult_le_reg_r with L; [lra|]. rewrite Rmult_assoc, Rinv_l, Rmult_1_r by lra. auto.
Qed.
Lemma length_rel (v : list F) l len : vlength_squared v = Ok l -> fin l -> vlength v = Ok len -> INR (length v) * u <= / 64 -> bpow radix2 (3 - emax) <= norm2 v ->
  fin len /\ exists s d, Rabs s <= 3 * (INR (length v) * u) /\ Rabs d <= u /\ val len = sqrt (norm2 v) * ((1 + s) * (1 + d)).
Proof.
  intros E Fl El Hn HL. destruct (norm2_rel v l E Fl Hn HL) as (s & S & V). unfold vlength in El. rewrite E in El. cbn [bind] in El. injection El as <-. rewrite (proj1 IM).
  pose proof (bpow_gt_0 radix2 (3 - emax)) as P. assert (S2 : - / 2 <= s <= / 2) by (revert S; unfold Rabs; destruct Rcase_abs; lra).
  destruct (sqrt_err prec emax l Fl) as (A & d & D & B).
  { rewrite V. apply Rle_trans with (bpow radix2 (3 - emax) * / 2).
    - replace (3 - emax)%Z with ((2 - emax) + 1)%Z by lia. rewrite bpow_plus. change (bpow radix2 1) with 2. lra.
    - apply Rmult_le_compat; lra. }
  split; auto. exists (sqrt (1 + s) - 1), d. split; [|split; auto].
  - eapply Rle_trans; [apply sqrt_rel|]; auto. unfold Rabs; destruct Rcase_abs; lra.
  - rewrite B, V, sqrt_mult by lra. ring.
Qed.
Theorem length_accuracy : forall (v : list F) l len, vlength_squared v = Ok l -> fin l -> vlength v = Ok len ->
  INR (length v) * u <= / 64 -> bpow radix2 (3 - emax) <= norm2 v ->
  fin len /\ Rabs (val len - sqrt (norm2 v)) <= 4 * (INR (length v) + 1) * u * sqrt (norm2 v).
Proof.
  intros v l len E Fl El Hn HL. destruct (length_rel v l len E Fl El Hn HL) as (A & s & d & S & D & V). split; auto.
  set (r := sqrt (norm2 v)) in *. assert (R0 : 0 <= r) by apply sqrt_pos. set (n := INR (length v)) in *. assert (N : 0 <= n) by apply pos_INR. pose proof (u_pos prec) as U.
  rewrite V. replace (r * ((1 + s) * (1 + d)) - r) with ((s + d + s * d) * r) by ring. rewrite Rabs_mult, (Rabs_pos_eq r) by auto. apply Rmult_le_compat_r; auto.
  assert (NU : 0 <= n * u) by (apply Rmult_le_pos; lra).
  assert (Rabs (s * d) <= 3 * (n * u) * u) by (rewrite Rabs_mult; apply Rmult_le_compat; auto using Rabs_pos).
  assert (3 * (n * u) * u <= 3 * / 64 * u) by (apply Rmult_le_compat_r; lra).
  eapply Rle_trans; [apply Rabs_triang|]. eapply Rle_trans; [apply Rplus_le_compat_r, Rabs_triang|]. lra.
Qed.
(** normalize(): every element is close to v_i/|v|, and the result is a unit vector up to rounding *)
Theorem normalize_accuracy : forall (v w : list F) l, vlength_squared v = Ok l -> fin l -> vnormalize v = Ok w ->
  INR (length v) * u <= / 64 -> bpow radix2 (3 - emax) <= norm2 v ->
  length w = length v /\ (forall x, In x w -> fin x) /\
  forall i, (i < length v)%nat ->
    Rabs (vals prec emax w i - vals prec emax v i / sqrt (norm2 v)) <= 4 * (INR (length v) + 1) * u * Rabs (vals prec emax v i / sqrt (norm2 v)) + eta.
Proof.
  intros v w l E Fl Ew Hn HL. pose proof (bpow_gt_0 radix2 (3 - emax)) as P. pose proof (u_pos prec) as U. pose proof (eta_pos prec emax) as Et.
  pose proof (u_half prec) as U2. pose proof (eta_u prec emax) as EU.
  unfold vnormalize in Ew. destruct (vlength v) as [len| |] eqn:El; [|discriminate..]. cbn [bind] in Ew. injection Ew as <-.
  destruct (length_rel v l len E Fl El Hn HL) as (Fn & s & d & S & D & V).
  assert (L1 : (1 <= length v)%nat) by (unfold vlength_squared, check_vmin, require in E; destruct (Nat.leb_spec 1 (length v)); [auto|discriminate]).
  assert (N1 : 1 <= INR (length v)) by (apply (le_INR 1) in L1; auto).
  assert (Len : forall f, length (elems (length v) f : list F) = length v) by (intros; unfold elems; rewrite map_length, seq_length; auto).
  assert (En : forall i, (i < length v)%nat -> nth i (vdiv v len) zero = div (el v i) len).
  { intros i Hi. unfold vdiv, elems. rewrite (nth_indep _ _ (div (el v 0) len)) by (rewrite map_length, seq_length; auto). rewrite (map_nth (fun i => div (el v i) len)), seq_nth by auto. auto. }
  assert (R0 : 0 < sqrt (norm2 v)) by (apply sqrt_lt_R0; lra). set (r := sqrt (norm2 v)) in *. set (n := INR (length v)) in *.
  destruct (norm_factor n u s d 0 N1 U Hn S D ltac:(rewrite Rabs_R0; lra)) as [Q0 _].
  assert (NV : val len <> 0) by (rewrite V; assert (0 < r * ((1 + s) * (1 + d))) by (apply Rmult_lt_0_compat; auto); lra).
  assert (D0 : vdot v v = Ok l). { rewrite <- E. unfold vdot, vlength_squared, check_vmin, check_vsame, require. rewrite Nat.eqb_refl. destruct (Nat.leb 1 (length v)); reflexivity. }
  destruct (dot_accuracy prec emax v v l D0 Fl) as [FV _].
  assert (W1 : forall i, (i < length v)%nat -> Rabs (vals prec emax v i / r) <= 1).
  { intros i Hi. unfold Rdiv. rewrite Rabs_mult, Rabs_inv, (Rabs_pos_eq r) by lra. apply Rmult_le_reg_r with r; auto. rewrite Rmult_assoc, Rinv_l, Rmult_1_r, Rmult_1_l by lra.
    rewrite <- (Rabs_pos_eq r) by lra. apply Rsqr_le_abs_0. unfold Rsqr. unfold r. rewrite sqrt_sqrt by lra.
    apply (rsum_term (length v) (fun k => vals prec emax v k * vals prec emax v k)); auto. intros; apply Rle_0_sqr. }
  assert (K : forall i e, (i < length v)%nat -> Rabs e <= u -> Rabs (val (el v i) / val len * (1 + e) - vals prec emax v i / r) <= 4 * (n + 1) * u * Rabs (vals prec emax v i / r)).
  { intros i e Hi He. destruct (norm_factor n u s d e N1 U Hn S D He) as [_ Q]. rewrite V. change (val (el v i)) with (vals prec emax v i). set (x := vals prec emax v i).
    replace (x / (r * ((1 + s) * (1 + d))) * (1 + e) - x / r) with (((1 + e) / ((1 + s) * (1 + d)) - 1) * (x / r)).
    - rewrite Rabs_mult. apply Rmult_le_compat_r; auto using Rabs_pos.
    - assert (1 + s <> 0) by (intros Z; rewrite Z in Q0; lra). assert (1 + d <> 0) by (intros Z; rewrite Z in Q0; lra). field. repeat split; auto; lra. }
  assert (FW : forall i, (i < length v)%nat -> fin (div (el v i) len)).
  { intros i Hi. apply div_fits; auto.
    - apply FV. left. apply nth_In. auto.
    - specialize (K i 0 Hi ltac:(rewrite Rabs_R0; lra)). specialize (W1 i Hi). rewrite Rplus_0_r, Rmult_1_r in K. set (q := val (el v i) / val len) in *. set (x := vals prec emax v i / r) in *.
      assert (Kx : 4 * (n + 1) * u * Rabs x <= / 8).
      { apply Rle_trans with (4 * (n + 1) * u * 1); [apply Rmult_le_compat_l; auto; repeat apply Rmult_le_pos; lra|]. assert (u <= n * u) by (rewrite <- (Rmult_1_l u) at 1; apply Rmult_le_compat_r; lra). lra. }
      assert (Rabs q <= 9/8). { replace q with ((q - x) + x) by ring. eapply Rle_trans; [apply Rabs_triang|]. lra. }
      assert (Rabs q * (1 + u) <= 9/8 * (3/2)) by (apply Rmult_le_compat; auto using Rabs_pos; lra). lra. }
  split; [unfold vdiv; apply Len|]. split.
  { apply (proj2 (nth_fin prec emax (vdiv v len))). intros i Hi. assert (Hi' : (i < length v)%nat) by (revert Hi; unfold vdiv; rewrite Len; auto). rewrite En by auto. apply FW; auto. }
  intros i Hi. unfold vals at 1. rewrite En by auto. destruct (div_err prec emax _ _ (FW i Hi) NV) as (_ & e & h & He & Hh & Vq). rewrite Vq.
  replace (val (el v i) / val len * (1 + e) + h - vals prec emax v i / r) with ((val (el v i) / val len * (1 + e) - vals prec emax v i / r) + h) by ring.
  eapply Rle_trans; [apply Rabs_triang|]. apply Rplus_le_compat; auto.
Qed.
Theorem normalize_unit : forall (v w : list F) l, vlength_squared v = Ok l -> fin l -> vnormalize v = Ok w ->
  INR (length v) * u <= / 64 -> bpow radix2 (3 - emax) <= norm2 v ->
  Rabs (norm2 w - 1) <= 12 * (INR (length v) + 1) * u + 3 * INR (length v) * eta.
Proof.
  intros v w l E Fl Ew Hn HL. destruct (normalize_accuracy v w l E Fl Ew Hn HL) as (L & _ & A). pose proof (bpow_gt_0 radix2 (3 - emax)) as P. pose proof (u_pos prec) as U. pose proof (eta_pos prec emax) as Et.
  assert (R0 : 0 < sqrt (norm2 v)) by (apply sqrt_lt_R0; lra). set (r := sqrt (norm2 v)) in *. set (n := length v) in *. assert (N : 0 <= INR n) by apply pos_INR.
  assert (L1 : (1 <= n)%nat) by (unfold vlength_squared, check_vmin, require in E; fold n in E; destruct (Nat.leb_spec 1 n); [auto|discriminate]).
  assert (N1 : 1 <= INR n) by (apply (le_INR 1) in L1; auto).
  assert (UN : u <= INR n * u) by (rewrite <- (Rmult_1_l u) at 1; apply Rmult_le_compat_r; lra).
  assert (SW : rsum n (fun k => vals prec emax v k / r * (vals prec emax v k / r)) = 1).
  { rewrite (rsum_ext n _ (fun k => / (r * r) * (vals prec emax v k * vals prec emax v k))) by (intros; field; lra). rewrite rsum_scal.
    assert (Q : r * r = norm2 v) by (apply sqrt_sqrt; lra). rewrite Q. change (rsum n _) with (norm2 v). apply Rinv_l. lra. }
  unfold norm2. rewrite L. rewrite <- SW, <- rsum_minus.
  apply Rle_trans with (rsum n (fun k => 3 * (4 * (INR n + 1) * u) * (vals prec emax v k / r * (vals prec emax v k / r)) + 3 * eta)).
  - eapply Rle_trans; [apply rsum_abs|]. apply rsum_le. intros k Hk. apply square_err.
    + rewrite <- Rabs_R1. apply Rsqr_le_abs_0. unfold Rsqr. rewrite Rmult_1_r. rewrite <- SW.
      apply (rsum_term n (fun k => vals prec emax v k / r * (vals prec emax v k / r))); auto. intros; apply Rle_0_sqr.
    + apply A. auto.
    + split; [repeat apply Rmult_le_pos; lra|lra].
    + pose proof (eta_u prec emax). lra.
  - rewrite rsum_plus, rsum_scal, SW, rsum_const. lra.
Qed.
(** ** Outside that range *)
Lemma tiny_square (x : F) : fin x -> val x * val x < eta -> mul x x = zero.
Proof.
  intros Fx H. cbn [mul BOps]. pose proof (Bmult_correct prec emax Hprec Hmax mode_NE x x) as C. change (round_mode mode_NE) with ZnearestE in C.
  assert (Z0 : round radix2 (SpecFloat.fexp prec emax) ZnearestE (val x * val x) = 0).
  { set (y := val x * val x) in *. assert (Y0 : 0 <= y) by apply Rle_0_sqr. destruct (Req_dec y 0) as [->|Ny]; [apply round_0, valid_rnd_N|].
    destruct (mag radix2 y) as [e He0]. pose proof (He0 Ny) as He. rewrite (Rabs_pos_eq y) in He by auto.
    apply (round_N_small_pos radix2 (SpecFloat.fexp prec emax) _ y e He).
    assert (e - 1 < SpecFloat.emin prec emax - 1)%Z by (apply (lt_bpow radix2); eapply Rle_lt_trans; [apply He|exact H]).
    unfold SpecFloat.fexp. lia. }
  rewrite Z0, Rabs_R0, Rlt_bool_true in C by apply bpow_gt_0. destruct C as (C1 & C2 & C3). rewrite Fx in C2. cbn in C2.
  assert (Nn : is_nan (Bmult mode_NE x x) = false) by (destruct (Bmult mode_NE x x); cbn in *; auto; discriminate).
  apply B2R_Bsign_inj; auto. rewrite C3 by auto. apply xorb_nilpotent.
Qed.
Lemma val_zero (x : F) : fin x -> val x = 0 -> exists s, x = B754_zero s.
Proof.
  intros Fx V. destruct x as [s|s| |s m e h]; try discriminate; [exists s; auto|]. exfalso. cbn [B2R] in V. apply Float_prop.eq_0_F2R in V. destruct s; discriminate.
Qed.
(** elements whose squares round to zero: length() is 0; normalize() gives infinities and NaNs *)
Theorem normalize_tiny : forall v : list F, v <> [] -> (forall x, In x v -> fin x /\ val x * val x < eta) ->
  vlength v = Ok zero /\ exists w, vnormalize v = Ok w /\ length w = length v /\
  forall i, (i < length v)%nat -> is_finite (nth i w zero) = false /\
    (vals prec emax v i <> 0 -> is_nan (nth i w zero) = false) /\ (vals prec emax v i = 0 -> is_nan (nth i w zero) = true).
Proof.
  intros v N H.
  assert (A : forall n, (n < length v)%nat -> accumulate (S n) (fun i => mul (el v i) (el v i)) = zero).
  { assert (Q : forall k, (k < length v)%nat -> mul (el v k) (el v k) = zero) by (intros k Hk; apply tiny_square; apply H, nth_In; auto).
    induction n as [|n IH]; intros Hn; [apply Q; auto|]. rewrite acc_S, IH, Q by lia. reflexivity. }
  assert (B : vlength v = Ok zero).
  { unfold vlength, vlength_squared, check_vmin, require. destruct v as [|x v']; [congruence|]. set (v := x :: v') in *. cbn [length v Nat.leb bind]. f_equal.
    assert (E : accumulate (length v) (fun i => mul (el v i) (el v i)) = zero). { apply (A (length v')). cbn; lia. }
    change (S (length v')) with (length v). rewrite E, (proj1 IM). reflexivity. }
  split; auto. unfold vnormalize. rewrite B. cbn [bind]. eexists. split; [reflexivity|]. unfold vdiv, elems. rewrite map_length, seq_length. split; auto.
  intros i Hi. rewrite (nth_indep _ _ (div (el v 0) zero)) by (rewrite map_length, seq_length; auto). rewrite (map_nth (fun i => div (el v i) zero)), seq_nth by auto. cbn [Nat.add].
  destruct (H (nth i v zero) ltac:(apply nth_In; auto)) as [Fi _]. unfold vals. change (el v i) with (nth i v zero). destruct (nth i v zero) as [s|s| |s m e h]; try discriminate; cbn; repeat split; auto.
  - intros C. lra.
  - intros C. exfalso. apply Float_prop.eq_0_F2R in C. destruct s; discriminate.
Qed.
Lemma huge_square (x : F) : fin x -> bpow radix2 emax <= val x * val x -> mul x x = B754_infinity false.
Proof.
  intros Fx H. cbn [mul BOps]. pose proof (Bmult_correct prec emax Hprec Hmax mode_NE x x) as C. rewrite Rlt_bool_false in C.
  - rewrite xorb_nilpotent in C. destruct (Bmult mode_NE x x) as [t|t| |t ? ? ?]; cbn in C; try discriminate. injection C as ->. reflexivity.
  - change (round_mode mode_NE) with ZnearestE. eapply Rle_trans; [|apply Rle_abs]. apply round_ge_generic; auto; try apply valid_rnd_N.
    + apply fexp_correct; auto.
    + apply generic_format_bpow. unfold SpecFloat.fexp, SpecFloat.emin. red in Hprec, Hmax. lia.
Qed.
Lemma inf_sum (x : F) : nonneg prec emax x -> add (B754_infinity false) x = B754_infinity false /\ add x (B754_infinity false) = B754_infinity false.
Proof. intros [A B]. destruct x as [s|s| |s m e h]; try discriminate; cbn in *; subst; split; reflexivity. Qed.
(** one element whose square overflows: length() is infinite and normalize() gives zeros *)
Theorem normalize_huge : forall (v : list F) x, (forall y, In y v -> fin y) -> In x v -> bpow radix2 emax <= val x * val x ->
  vlength v = Ok (B754_infinity false) /\ exists w, vnormalize v = Ok w /\ length w = length v /\ forall i, (i < length v)%nat -> exists s, nth i w zero = B754_zero s.
Proof.
  intros v x Hf Hx Hb. apply (In_nth _ _ zero) in Hx. destruct Hx as (k & Hk & Ek).
  assert (Q : forall i, (i < length v)%nat -> nonneg prec emax (mul (el v i) (el v i))).
  { intros i Hi. apply square_nonneg. assert (Fi := Hf (el v i) ltac:(apply nth_In; auto)). destruct (el v i); auto. }
  assert (A : forall n, (n < length v)%nat -> nonneg prec emax (accumulate (S n) (fun i => mul (el v i) (el v i))) /\ ((k <= n)%nat -> accumulate (S n) (fun i => mul (el v i) (el v i)) = B754_infinity false)).
  { assert (Qk : mul (el v k) (el v k) = B754_infinity false). { apply huge_square; unfold el; rewrite Ek; auto. apply Hf. rewrite <- Ek. apply nth_In; auto. }
    induction n as [|n IH]; intros Hn.
    - split; [apply Q; auto|]. intros K. replace k with 0%nat in * by lia. exact Qk.
    - rewrite acc_S. destruct (IH ltac:(lia)) as [I1 I2]. split; [apply sum_nonneg; auto|]. intros K. destruct (Nat.eq_dec k (S n)) as [Ekn|].
      + rewrite <- Ekn, Qk, Ekn. apply inf_sum. auto.
      + rewrite I2 by lia. apply inf_sum. auto. }
  assert (B : vlength v = Ok (B754_infinity false)).
  { unfold vlength, vlength_squared, check_vmin, require. destruct v as [|x' v']; [cbn in Hk; lia|]. set (v := x' :: v') in *. cbn [length v Nat.leb bind]. f_equal.
    destruct (A (length v') ltac:(cbn; lia)) as [_ E]. change (S (length v')) with (length v) in *. rewrite E by (cbn in Hk; lia). rewrite (proj1 IM). reflexivity. }
  split; auto. unfold vnormalize. rewrite B. cbn [bind]. eexists. split; [reflexivity|]. unfold vdiv, elems. rewrite map_length, seq_length. split; auto.
  intros i Hi. rewrite (nth_indep _ _ (div (el v 0) (B754_infinity false))) by (rewrite map_length, seq_length; auto). rewrite (map_nth (fun i => div (el v i) (B754_infinity false))), seq_nth by auto. cbn [Nat.add].
  assert (Fi := Hf (el v i) ltac:(apply nth_In; auto)). destruct (el v i) as [s|s| |s m e h]; try discriminate; cbn; eexists; reflexivity.
Qed.
End IEEE.

(** ** Examples; square roots that meet the hypothesis exist *)
Definition ex_math (prec emax : Z) {Hp : Prec_gt_0 prec} {Hm : Prec_lt_emax prec emax} : MathOps (binary_float prec emax) := {|
  mfabs := Babs; mfmod := fun x _ => x; msqrt := Bsqrt mode_NE; mcos := fun x => x; msin := fun x => x; mtan := fun x => x;
  macos := fun x => x; masin := fun x => x; matan2 := fun x _ => x; mlog := fun x => x; mexp := fun x => x; mpi := zero |}.
Example ieee_math_case : forall prec emax (Hp : Prec_gt_0 prec) (Hm : Prec_lt_emax prec emax), ieee_math prec emax (ex_math prec emax).
Proof. split; reflexivity. Qed.
Lemma pow2_val e : (-1000 <= e <= 1000)%Z -> is_finite (dbl 1 e) = true /\ B2R (dbl 1 e) = bpow radix2 e.
Proof.
  intros He. pose proof (binary_normalize_correct 53 1024 _ _ mode_NE 1 e false) as C. cbv zeta in C.
  assert (G : @F2R radix2 {| Fnum := 1; Fexp := e |} = bpow radix2 e) by (unfold F2R; cbn [Fnum Fexp]; apply Rmult_1_l). rewrite G in C.
  rewrite round_generic in C by (auto using valid_rnd_round_mode; apply generic_format_bpow; unfold SpecFloat.fexp, SpecFloat.emin; lia).
  rewrite Rlt_bool_true in C; [unfold dbl; tauto|]. rewrite Rabs_pos_eq by apply bpow_ge_0. apply bpow_lt. lia.
Qed.
(** documented: "Normalize the vector"; expected: a non-zero vector gets unit length *)
Theorem normalize_unit_refuted : forall MO : MathOps double, ieee_math 53 1024 MO ->
  exists v w : list double, (forall x, In x v -> is_finite x = true /\ B2R x <> 0) /\ length v = 3%nat /\ vnormalize v = Ok w /\
    forall x, In x w -> is_finite x = false /\ is_nan x = false.
Proof.
  intros MO IM. set (x := dbl 1 (-600)). destruct (pow2_val (-600) ltac:(lia)) as [Fx Vx]. fold x in Fx, Vx. pose proof (bpow_gt_0 radix2 (-600)) as P.
  destruct (normalize_tiny 53 1024 IM [x; x; x]) as (_ & w & E & L & W).
  - discriminate.
  - intros y [<-|[<-|[<-|[]]]]; (split; [auto|]; rewrite Vx, <- bpow_plus; apply bpow_lt; unfold SpecFloat.emin; lia).
  - exists [x; x; x], w. split; [intros y [<-|[<-|[<-|[]]]]; split; auto; lra|]. split; [reflexivity|]. split; auto.
    intros y Hy. apply (In_nth _ _ zero) in Hy. destruct Hy as (i & Hi & <-). assert (Hi' : (i < length [x; x; x])%nat) by (exact (eq_ind _ (fun n => (i < n)%nat) Hi _ L)). destruct (W i Hi') as (W1 & W2 & _). split; auto. apply W2. unfold vals.
    cbn [length] in Hi'. destruct i as [|[|[|i]]]; [..|lia]; cbn [nth]; lra.
Qed.
Theorem normalize_huge_refuted : forall MO : MathOps double, ieee_math 53 1024 MO ->
  exists v w : list double, (forall x, In x v -> is_finite x = true /\ B2R x <> 0) /\ length v = 3%nat /\ vnormalize v = Ok w /\ forall x, In x w -> exists s, x = B754_zero s.
Proof.
  intros MO IM. set (x := dbl 1 600). destruct (pow2_val 600 ltac:(lia)) as [Fx Vx]. fold x in Fx, Vx. pose proof (bpow_gt_0 radix2 600) as P.
  destruct (normalize_huge 53 1024 IM [x; x; x] x) as (_ & w & E & L & W).
  - intros y [<-|[<-|[<-|[]]]]; auto.
  - left. reflexivity.
  - rewrite Vx, <- bpow_plus. apply bpow_le. lia.
  - exists [x; x; x], w. split; [intros y [<-|[<-|[<-|[]]]]; split; auto; lra|]. split; [reflexivity|]. split; auto.
    intros y Hy. apply (In_nth _ _ zero) in Hy. destruct Hy as (i & Hi & <-). exact (W i (eq_ind _ (fun n => (i < n)%nat) Hi _ L)).
Qed.
(** a vector to which normalize_accuracy and normalize_unit apply *)
Example normalize_accuracy_case : let v := [dbl 1 0; dbl 1 1] in exists l, vlength_squared v = Ok l /\ is_finite l = true /\
  INR (length v) * u_round 53 <= / 64 /\ bpow radix2 (3 - 1024) <= norm2 53 1024 v.
Proof.
  eexists. split; [reflexivity|]. split; [vm_compute; reflexivity|]. split.
  - cbn [length INR]. assert (H : u_round 53 <= bpow radix2 (-7)) by (apply bpow_le; lia). change (bpow radix2 (-7)) with (/ 128) in H. lra.
  - destruct (pow2_val 0 ltac:(lia)) as [_ V0]. destruct (pow2_val 1 ltac:(lia)) as [_ V1]. apply Rle_trans with (bpow radix2 0); [apply bpow_le; lia|].
    unfold norm2, vals. cbn [length rsum nth]. rewrite V0, V1. change (bpow radix2 0) with 1. change (bpow radix2 1) with 2. lra.
Qed.
Print Assumptions normalize_accuracy.
Print Assumptions normalize_unit.
Print Assumptions normalize_tiny.
Print Assumptions normalize_huge.
