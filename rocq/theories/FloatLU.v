(** Rounding errors of the loops of LU decomposition and substitution. *)
From Coq Require Import ZArith Bool List Arith Lia Reals Lra.
From Flocq Require Import Core Relative Plus_error BinarySingleNaN.
From Verif Require Import Base RotModel LUModel ExactLU FloatModel FloatFacts FloatDot.
Import ListNotations.
Open Scope R_scope.

Section IEEE.
Context (prec emax : Z) {Hprec : Prec_gt_0 prec} {Hmax : Prec_lt_emax prec emax}.
Notation F := (binary_float prec emax).
Notation emin := (3 - emax - prec)%Z.
Notation u := (u_round prec).
Notation eta := (eta_min prec emax).
Notation val := (@B2R prec emax).
Notation fin x := (is_finite x = true).
Notation rnd := (round radix2 (FLT_exp emin prec) ZnearestE).
(** growth of k roundings *)
Definition g (k : nat) : R := (1 + u) ^ k.
Lemma g_1 k : 1 <= g k. Proof. apply one_le_pow. pose proof (u_pos prec). lra. Qed.
Lemma g_S k : g (S k) = (1 + u) * g k. Proof. reflexivity. Qed.
Lemma g_up j k : (j <= k)%nat -> g j <= g k. Proof. apply pow_up. pose proof (u_pos prec). lra. Qed.

(** errors relative to the rounded result *)
Lemma inv_rel d : Rabs d <= u_ro radix2 prec / (1 + u_ro radix2 prec) -> exists d', Rabs d' <= u /\ (1 + d) * (1 + d') = 1.
Proof.
  rewrite u_ro_u by auto. intros H. pose proof (u_pos prec) as U. assert (B : u / (1 + u) < 1) by (apply Rmult_lt_reg_r with (1 + u); [lra|]; unfold Rdiv; rewrite Rmult_assoc, Rinv_l by lra; lra).
  assert (P : 0 < 1 + d) by (revert H; unfold Rabs; destruct Rcase_abs; lra). exists (/ (1 + d) - 1). split; [|field; lra].
  replace (/ (1 + d) - 1) with (- (d / (1 + d))) by (field; lra). rewrite Rabs_Ropp. unfold Rdiv. rewrite Rabs_mult, Rabs_inv, (Rabs_pos_eq (1 + d)) by lra.
  apply Rmult_le_reg_r with (1 + d); [lra|]. rewrite Rmult_assoc, Rinv_l, Rmult_1_r by lra.
  assert (Q : u / (1 + u) * (1 + u) = u) by (field; lra). assert (Rabs d * (1 + u) <= u) by (apply Rle_trans with (u / (1 + u) * (1 + u)); [apply Rmult_le_compat_r; lra|lra]).
  assert (D : - Rabs d <= d) by (unfold Rabs; destruct Rcase_abs; lra). assert (u * - Rabs d <= u * d) by (apply Rmult_le_compat_l; lra). lra.
Qed.
Lemma rnd_inv x : exists d e, Rabs d <= u /\ Rabs e <= eta /\ x = rnd x * (1 + d) + e.
Proof.
  destruct (relative_error_N_FLT'_ex radix2 emin prec Hprec (fun z => negb (Z.even z)) x) as (d & e & A & B & Z & C). rewrite half_bpow in B. pose proof (u_pos prec) as U. pose proof (eta_pos prec emax) as Et.
  apply Rmult_integral in Z. destruct Z as [Z|Z].
  - exists 0, (- e). rewrite Rabs_R0, Rabs_Ropp. split; [lra|]. split; [exact B|]. rewrite C, Z. ring.
  - destruct (inv_rel d A) as (d' & D & E). exists d', 0. rewrite Rabs_R0. split; [auto|]. split; [lra|]. rewrite C, Z, Rplus_0_r. rewrite Rplus_0_r, Rmult_assoc, E. ring.
Qed.
Lemma sub_inv (x y : F) : fin (sub x y) -> fin x /\ fin y /\ exists d, Rabs d <= u /\ val x - val y = val (sub x y) * (1 + d).
Proof.
  intros H. destruct (sub_rounded prec emax x y H) as (Fx & Fy & E). repeat split; auto. cbn [sub BOps]. rewrite E.
  destruct (FLT_plus_error_N_ex radix2 emin prec (fun z => negb (Z.even z)) (val x) (- val y) (format prec emax x) ltac:(apply generic_format_opp, format)) as (d & A & B).
  destruct (inv_rel d A) as (d' & D & I). exists d'. split; auto. unfold Rminus at 2. change (Znearest _) with ZnearestE in B. rewrite B, Rmult_assoc, I. unfold Rminus. ring.
Qed.
Lemma div_inv (x y : F) : fin (div x y) -> fin y -> fin x /\ val y <> 0 /\ exists d e, Rabs d <= u /\ Rabs e <= eta /\ val x = (val (div x y) * (1 + d) + e) * val y.
Proof.
  intros H Fy. assert (N : val y <> 0).
  { destruct y as [s|s| |s m e h]; try discriminate.
    - exfalso. cbn in H. destruct x as [[|]|[|]| |[|]]; discriminate.
    - cbn [B2R]. intros Z. apply Float_prop.eq_0_F2R in Z. destruct s; discriminate. }
  destruct (div_rounded prec emax x y H N) as [Fx E]. repeat split; auto. destruct (rnd_inv (val x / val y)) as (d & e & D & Ee & Q). exists d, e. repeat split; auto.
  cbn [div BOps]. rewrite E, <- Q. field. auto.
Qed.

(** sum_prod: 0 + f lo * g lo + ... *)
Lemma sum_prod_err lo n (f h : nat -> F) : fin (sum_prod lo (lo + n) f h) ->
  (forall p, (p < n)%nat -> fin (f (lo + p)%nat) /\ fin (h (lo + p)%nat)) /\
  Rabs (val (sum_prod lo (lo + n) f h) - rsum n (fun p => val (f (lo + p)%nat) * val (h (lo + p)%nat))) <=
    (g (S n) - 1) * rsum n (fun p => Rabs (val (f (lo + p)%nat) * val (h (lo + p)%nat))) + INR n * g n * eta.
Proof.
  pose proof (u_pos prec) as U. pose proof (eta_pos prec emax) as Et.
  induction n as [|n IH]; intros H.
  - split; [intros; lia|]. unfold sum_prod, for_upto. replace (lo + 0 - lo)%nat with 0%nat by lia. cbn [seq fold_left rsum INR]. change (val zero) with 0. rewrite Rminus_0_r, Rabs_R0. lra.
  - assert (E : sum_prod lo (lo + S n) f h = add (sum_prod lo (lo + n) f h) (mul (f (lo + n)%nat) (h (lo + n)%nat))).
    { unfold sum_prod. replace (lo + S n)%nat with (lo + n + 1)%nat by lia. rewrite up_S by lia. reflexivity. }
    rewrite E in *. destruct (add_err prec emax _ _ H) as (A & B & d & D & V). destruct (mul_err prec emax _ _ B) as (F1 & F2 & d2 & e & D2 & Ee & V2). destruct (IH A) as [IF IE]. split.
    { intros p Hp. destruct (Nat.eq_dec p n) as [->|]; [auto|apply IF; lia]. }
    rewrite V, V2. cbn [rsum]. set (x := val (f (lo + n)%nat) * val (h (lo + n)%nat)) in *. set (s := val (sum_prod lo (lo + n) f h)) in *.
    set (S0 := rsum n _) in *. pose proof (rsum_abs n (fun p => val (f (lo + p)%nat) * val (h (lo + p)%nat))) as T0. cbv beta in T0. fold S0 in T0. set (A0 := rsum n (fun p => Rabs _)) in *.
    assert (A0p : 0 <= A0) by (eapply Rle_trans; [apply Rabs_pos|exact T0]).
    pose proof (abs_1d prec d D) as D1. pose proof (abs_1d prec d2 D2) as D3. pose proof (Rabs_pos x) as Px. pose proof (g_1 n) as G1. rewrite (g_S (S n)), (g_S n) in *.
    replace ((s + (x * (1 + d2) + e)) * (1 + d) - (S0 + x)) with ((s - S0) * (1 + d) + S0 * d + x * (d + d2 + d * d2) + e * (1 + d)) by ring.
    assert (T1 : Rabs ((s - S0) * (1 + d)) <= (((1 + u) * g n - 1) * A0 + INR n * g n * eta) * (1 + u)) by (rewrite Rabs_mult; apply Rmult_le_compat; auto using Rabs_pos).
    assert (T2 : Rabs (S0 * d) <= A0 * u) by (rewrite Rabs_mult; apply Rmult_le_compat; auto using Rabs_pos).
    assert (T3 : Rabs (x * (d + d2 + d * d2)) <= Rabs x * (u + u + u * u)).
    { rewrite Rabs_mult. apply Rmult_le_compat_l; auto. eapply Rle_trans; [apply Rabs_triang|]. eapply Rle_trans; [apply Rplus_le_compat_r, Rabs_triang|].
      assert (Rabs (d * d2) <= u * u) by (rewrite Rabs_mult; apply Rmult_le_compat; auto using Rabs_pos). lra. }
    assert (T4 : Rabs (e * (1 + d)) <= eta * (1 + u)) by (rewrite Rabs_mult; apply Rmult_le_compat; auto using Rabs_pos).
    eapply Rle_trans; [apply Rabs_triang|]. eapply Rle_trans; [apply Rplus_le_compat_r, Rabs_triang|]. eapply Rle_trans; [apply Rplus_le_compat_r, Rplus_le_compat_r, Rabs_triang|].
    rewrite S_INR. assert (K1 : Rabs x * ((1 + u) * (1 + u)) <= Rabs x * ((1 + u) * ((1 + u) * g n))).
    { apply Rmult_le_compat_l; auto. apply Rmult_le_compat_l; [lra|]. rewrite <- (Rmult_1_r (1 + u)) at 1. apply Rmult_le_compat_l; lra. }
    assert (K2 : eta * (1 + u) <= eta * ((1 + u) * g n)). { apply Rmult_le_compat_l; [lra|]. rewrite <- (Rmult_1_r (1 + u)) at 1. apply Rmult_le_compat_l; lra. }
    lra.
Qed.
(** sub_prods: a - f 0 * g 0 - ... *)
Lemma sub_prods_err n (a : F) (f h : nat -> F) : fin (sub_prods n a f h) ->
  Rabs (val a - rsum n (fun p => val (f p) * val (h p)) - val (sub_prods n a f h)) <=
    (g n - 1) * (Rabs (val (sub_prods n a f h)) + rsum n (fun p => Rabs (val (f p) * val (h p)))) + INR n * g n * eta.
Proof.
  pose proof (u_pos prec) as U. pose proof (eta_pos prec emax) as Et.
  induction n as [|n IH]; intros H.
  - change (sub_prods 0 a f h) with a. cbn [rsum INR]. rewrite Rminus_0_r. unfold Rminus at 1. rewrite Rplus_opp_r, Rabs_R0. unfold g. cbn [pow]. lra.
  - assert (E : sub_prods (S n) a f h = sub (sub_prods n a f h) (mul (f n) (h n))) by (replace (S n) with (n + 1)%nat by lia; apply sub_prods_S). rewrite E in *.
    destruct (sub_inv _ _ H) as (A & B & d & D & V). destruct (mul_err prec emax _ _ B) as (F1 & F2 & d2 & e & D2 & Ee & V2). specialize (IH A). rewrite V2 in V. cbn [rsum].
    set (x := val (f n) * val (h n)) in *. set (s := val (sub_prods n a f h)) in *. set (t := val (sub _ _)) in *. set (S0 := rsum n _) in *. set (A0 := rsum n (fun p => Rabs _)) in *.
    assert (A0p : 0 <= A0) by (apply rsum_nonneg; intros; apply Rabs_pos).
    pose proof (abs_1d prec d D) as D1. pose proof (abs_1d prec d2 D2) as D3. pose proof (Rabs_pos x) as Px. pose proof (Rabs_pos t) as Pt. pose proof (g_1 n) as G1. rewrite (g_S n) in *.
    assert (Es : s = t * (1 + d) + (x * (1 + d2) + e)) by lra.
    replace (val a - (S0 + x) - t) with ((val a - S0 - s) + t * d + x * d2 + e) by (rewrite Es; ring).
    assert (Bs : Rabs s <= Rabs t * (1 + u) + Rabs x * (1 + u) + eta).
    { rewrite Es. eapply Rle_trans; [apply Rabs_triang|]. assert (Rabs (t * (1 + d)) <= Rabs t * (1 + u)) by (rewrite Rabs_mult; apply Rmult_le_compat_l; auto).
      assert (Rabs (x * (1 + d2) + e) <= Rabs x * (1 + u) + eta). { eapply Rle_trans; [apply Rabs_triang|]. apply Rplus_le_compat; auto. rewrite Rabs_mult; apply Rmult_le_compat_l; auto. } lra. }
    assert (T1 : (g n - 1) * (Rabs s + A0) <= (g n - 1) * (Rabs t * (1 + u) + Rabs x * (1 + u) + eta + A0)) by (apply Rmult_le_compat_l; lra).
    assert (T2 : Rabs (t * d) <= Rabs t * u) by (rewrite Rabs_mult; apply Rmult_le_compat_l; auto).
    assert (T3 : Rabs (x * d2) <= Rabs x * u) by (rewrite Rabs_mult; apply Rmult_le_compat_l; auto).
    eapply Rle_trans; [apply Rabs_triang|]. eapply Rle_trans; [apply Rplus_le_compat_r, Rabs_triang|]. eapply Rle_trans; [apply Rplus_le_compat_r, Rplus_le_compat_r, Rabs_triang|].
    rewrite S_INR. assert (K1 : (g n - 1) * A0 <= ((1 + u) * g n - 1) * A0). { apply Rmult_le_compat_r; auto. assert (0 <= u * g n) by (apply Rmult_le_pos; lra). lra. }
    assert (K2 : 0 <= INR n * g n * eta). { apply Rmult_le_pos; [apply Rmult_le_pos; [apply pos_INR|lra]|lra]. }
    assert (K3 : 0 <= u * (g n * eta)) by (apply Rmult_le_pos; [lra|apply Rmult_le_pos; lra]).
    assert (K4 : 0 <= u * (INR n * g n * eta)) by (apply Rmult_le_pos; lra).
    lra.
Qed.
(** one division at the end *)
Lemma quotient_err (t l p : F) : l = div t p -> fin l -> fin p -> fin t /\ Rabs (val t - val l * val p) <= u * Rabs (val l * val p) + eta * Rabs (val p).
Proof.
  intros -> Fl Fp. destruct (div_inv t p Fl Fp) as (Ft & _ & d & e & D & E & V). split; auto. set (l := val (div t p)) in *. rewrite V. replace ((l * (1 + d) + e) * val p - l * val p) with (d * (l * val p) + e * val p) by ring.
  eapply Rle_trans; [apply Rabs_triang|]. rewrite !Rabs_mult. apply Rplus_le_compat; apply Rmult_le_compat_r; auto; try apply Rabs_pos. rewrite <- Rabs_mult. apply Rabs_pos.
Qed.
End IEEE.
