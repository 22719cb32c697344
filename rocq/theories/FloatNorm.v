(** Lemmas for C62: lengths and normalisation in IEEE arithmetic. *)
From Coq Require Import ZArith Bool List Arith Lia Reals Lra.
From Flocq Require Import Core Relative BinarySingleNaN.
From Verif Require Import Base BaseFacts VecModel ExactProducts FloatModel FloatFacts FloatDot FloatExact PropFloat.
Import ListNotations.
Open Scope R_scope.

(** ** Real analysis *)
Lemma sqrt_rel s : Rabs s <= / 2 -> Rabs (sqrt (1 + s) - 1) <= Rabs s.
Proof.
  intros H. assert (0 <= 1 + s) by (revert H; unfold Rabs; destruct Rcase_abs; lra).
  assert (R0 : 0 <= sqrt (1 + s)) by apply sqrt_pos. assert (Q : sqrt (1 + s) * sqrt (1 + s) = 1 + s) by (apply sqrt_sqrt; auto).
  set (r := sqrt (1 + s)) in *. replace s with ((r - 1) * (r + 1)) by lra. rewrite Rabs_mult. rewrite (Rabs_pos_eq (r + 1)) by lra.
  assert (0 <= Rabs (r - 1)) by apply Rabs_pos. assert (0 <= Rabs (r - 1) * r) by (apply Rmult_le_pos; auto). lra.
Qed.
Lemma norm_factor (n u s d e : R) : 1 <= n -> 0 < u -> n * u <= / 64 -> Rabs s <= 3 * (n * u) -> Rabs d <= u -> Rabs e <= u ->
  0 < (1 + s) * (1 + d) /\ Rabs ((1 + e) / ((1 + s) * (1 + d)) - 1) <= 4 * (n + 1) * u.
Proof.
  intros Hn Hu Hnu S D E. assert (U : u <= n * u) by (apply Rle_trans with (1 * u); [lra|apply Rmult_le_compat_r; lra]).
  assert (P : 57/64 <= (1 + s) * (1 + d)).
  { apply Rle_trans with ((61/64) * (63/64)); [lra|]. apply Rmult_le_compat; try lra; revert S D; unfold Rabs; repeat destruct Rcase_abs; lra. }
  split; [lra|]. set (q := (1 + s) * (1 + d)) in *. assert (Q0 : q <> 0) by lra.
  replace ((1 + e) / q - 1) with ((1 + e - q) / q) by (field; auto). unfold Rdiv. rewrite Rabs_mult, Rabs_inv. rewrite (Rabs_pos_eq q) by lra.
  assert (N : Rabs (1 + e - q) <= 2 * u + 3 * (n * u) + (3 * (n * u)) * u).
  { unfold q. replace (1 + e - (1 + s) * (1 + d)) with (e - d - s - s * d) by ring.
    assert (Rabs (s * d) <= (3 * (n * u)) * u) by (rewrite Rabs_mult; apply Rmult_le_compat; auto using Rabs_pos).
    eapply Rle_trans; [apply Rabs_triang|]. eapply Rle_trans; [apply Rplus_le_compat_r, Rabs_triang|]. eapply Rle_trans; [apply Rplus_le_compat_r, Rplus_le_compat_r, Rabs_triang|].
    rewrite !Rabs_Ropp. lra. }
  apply Rmult_le_reg_r with q; [lra|]. rewrite Rmult_assoc, Rinv_l, Rmult_1_r by auto. eapply Rle_trans; [exact N|].
  assert (3 * (n * u) * u <= 3 / 64 * u) by (apply Rmult_le_compat_r; lra).
  apply Rle_trans with (4 * (n + 1) * u * (57/64)).
  2: { apply Rmult_le_compat_l; [|lra]. apply Rmult_le_pos; lra. }
  replace (4 * (n + 1) * u * (57 / 64)) with (228/64 * (n * u) + 228/64 * u) by field. lra.
Qed.
(** squares of near-unit values *)
Lemma square_err (w x eps h : R) : Rabs w <= 1 -> Rabs (x - w) <= eps * Rabs w + h -> 0 <= eps <= / 4 -> 0 <= h <= / 4 ->
  Rabs (x * x - w * w) <= 3 * eps * (w * w) + 3 * h.
Proof.
  intros W X E H. set (a := Rabs w) in *. assert (A : 0 <= a) by apply Rabs_pos. assert (WW : w * w = a * a) by (unfold a; rewrite <- Rabs_mult; symmetry; apply Rabs_pos_eq, Rle_0_sqr). rewrite WW at 2.
  replace (x * x - w * w) with ((x - w) * (x - w + 2 * w)) by ring. rewrite Rabs_mult.
  assert (Y : Rabs (x - w + 2 * w) <= (2 + eps) * a + h).
  { eapply Rle_trans; [apply Rabs_triang|]. rewrite Rabs_mult, (Rabs_pos_eq 2) by lra. fold a. lra. }
  eapply Rle_trans; [apply Rmult_le_compat; [apply Rabs_pos..|exact X|exact Y]|].
  assert (EA : 0 <= eps * a) by (apply Rmult_le_pos; lra). assert (E4 : eps * a <= / 4).
  { apply Rle_trans with (/ 4 * 1); [apply Rmult_le_compat; lra|lra]. }
  assert (T1 : eps * a * (eps * a) <= / 4 * (eps * (a * a))).
  { replace (eps * a * (eps * a)) with (eps * (eps * (a * a))) by ring. apply Rmult_le_compat_r; [|lra]. apply Rmult_le_pos; [lra|apply Rmult_le_pos; auto]. }
  assert (T2 : h * (eps * a) <= h * / 4) by (apply Rmult_le_compat_l; lra).
  assert (T3 : h * a <= h) by (rewrite <- (Rmult_1_r h) at 2; apply Rmult_le_compat_l; lra).
  assert (T4 : h * h <= h * / 4) by (apply Rmult_le_compat_l; lra).
  assert (T5 : 0 <= eps * (a * a)) by (apply Rmult_le_pos; [lra|apply Rmult_le_pos; auto]).
  replace ((eps * a + h) * ((2 + eps) * a + h)) with (2 * (eps * (a * a)) + eps * a * (eps * a) + 2 * (h * (eps * a)) + 2 * (h * a) + h * h) by ring. lra.
Qed.

Section IEEE.
Context (prec emax : Z) {Hprec : Prec_gt_0 prec} {Hmax : Prec_lt_emax prec emax}.
Notation F := (binary_float prec emax).
Notation u := (u_round prec).
Notation eta := (eta_min prec emax).
Notation val := (@B2R prec emax).
Notation fin x := (is_finite x = true).
Notation rnd := (round radix2 (SpecFloat.fexp prec emax) ZnearestE).

Lemma emax2 : (2 <= emax)%Z. Proof. red in Hprec, Hmax. lia. Qed.
Lemma u_half : u <= / 2.
Proof. change (/ 2) with (bpow radix2 (-1)). apply bpow_le. red in Hprec. lia. Qed.
Lemma eta_u : eta <= u.
Proof. apply bpow_le. unfold SpecFloat.emin. pose proof emax2. lia. Qed.
Lemma rnd_normal x : bpow radix2 (2 - emax) <= Rabs x -> exists d, Rabs d <= u /\ rnd x = x * (1 + d).
Proof.
  intros H. destruct (relative_error_N_FLT_ex radix2 (3 - emax - prec) prec Hprec (fun z => negb (Z.even z)) x) as (d & D & E).
  { replace (3 - emax - prec + prec - 1)%Z with (2 - emax)%Z by lia. auto. }
  exists d. split; [|exact E]. eapply Rle_trans; [exact D|]. rewrite half_bpow. apply Req_le. unfold u_round. f_equal. lia.
Qed.
Lemma sqrt_err (x : F) : fin x -> bpow radix2 (2 - emax) <= val x -> fin (Bsqrt mode_NE x) /\ exists d, Rabs d <= u /\ val (Bsqrt mode_NE x) = sqrt (val x) * (1 + d).
Proof.
  intros Fx H. pose proof (bpow_gt_0 radix2 (2 - emax)) as P. destruct (Bsqrt_correct prec emax Hprec Hmax mode_NE x) as (A & B & _). split.
  - rewrite B. destruct x as [s|s| |[|] m e h]; auto; try discriminate. exfalso. cbn [B2R] in H. cbn [cond_Zopp] in H. change (- Z.pos m)%Z with (Z.neg m) in H.
    assert (@F2R radix2 {| Fnum := Z.neg m; Fexp := e |} <= 0) by (apply Float_prop.F2R_le_0; cbn; lia). lra.
  - rewrite A. apply rnd_normal. rewrite Rabs_pos_eq by apply sqrt_pos. destruct (Rle_or_lt 1 (val x)).
    + apply Rle_trans with 1; [|rewrite <- sqrt_1; apply sqrt_le_1_alt; auto]. change 1 with (bpow radix2 0). apply bpow_le. pose proof emax2. lia.
    + eapply Rle_trans; [exact H|]. set (s := sqrt (val x)). assert (0 <= s) by apply sqrt_pos. assert (Q : s * s = val x) by (apply sqrt_sqrt; lra).
      assert (s <= 1) by (rewrite <- sqrt_1; apply sqrt_le_1_alt; lra). rewrite <- Q. rewrite <- (Rmult_1_r s) at 3. apply Rmult_le_compat_l; auto.
Qed.
Lemma div_fits (x y : F) : fin x -> val y <> 0 -> Rabs (val x / val y) * (1 + u) + eta < 4 -> fin (div x y).
Proof.
  intros Fx Ny H. pose proof (Bdiv_correct prec emax Hprec Hmax mode_NE x y Ny) as C. rewrite Rlt_bool_true in C; [destruct C as (_ & C & _); cbn [div BOps]; congruence|].
  change (round_mode mode_NE) with ZnearestE. destruct (rnd_err prec emax (val x / val y)) as (d & e & D & E & V).
  apply Rlt_le_trans with 4. 2: { change 4 with (bpow radix2 2). apply bpow_le, emax2. }
  eapply Rle_lt_trans; [|exact H]. unfold SpecFloat.fexp, SpecFloat.emin in *. unfold FLT_exp in V. rewrite V. eapply Rle_trans; [apply Rabs_triang|]. rewrite Rabs_mult.
  apply Rplus_le_compat; auto. apply Rmult_le_compat_l; [apply Rabs_pos|]. apply abs_1d; auto.
Qed.
End IEEE.
