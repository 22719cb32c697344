(** Error of accumulated products, sizes arbitrary. *)
From Coq Require Import ZArith Bool List Arith Lia Reals Lra.
From Flocq Require Import Core BinarySingleNaN.
From Verif Require Import Base FloatModel FloatFacts VecModel.
Import ListNotations.
Open Scope R_scope.

(** f 0 + f 1 + ... + f (n-1) *)
Fixpoint rsum (n : nat) (f : nat -> R) : R := match n with O => 0 | S k => rsum k f + f k end.
Lemma rsum_ext n f g : (forall k, (k < n)%nat -> f k = g k) -> rsum n f = rsum n g.
Proof. induction n; intros H; cbn; auto. rewrite IHn, H by auto. auto. Qed.
Lemma rsum_nonneg n f : (forall k, (k < n)%nat -> 0 <= f k) -> 0 <= rsum n f.
Proof. induction n; intros H; cbn; [lra|]. pose proof (IHn ltac:(auto)). pose proof (H n ltac:(lia)). lra. Qed.
Lemma rsum_le n f g : (forall k, (k < n)%nat -> f k <= g k) -> rsum n f <= rsum n g.
Proof. induction n; intros H; cbn; [lra|]. pose proof (IHn ltac:(auto)). pose proof (H n ltac:(lia)). lra. Qed.
Lemma rsum_abs n f : Rabs (rsum n f) <= rsum n (fun k => Rabs (f k)).
Proof. induction n; cbn; [rewrite Rabs_R0; lra|]. eapply Rle_trans; [apply Rabs_triang|]. lra. Qed.

Lemma rsum_scal n c f : rsum n (fun k => c * f k) = c * rsum n f.
Proof. induction n as [|n IH]; cbn [rsum]; [ring|]. rewrite IH. ring. Qed.
Lemma rsum_const n c : rsum n (fun _ => c) = INR n * c.
Proof. induction n as [|n IH]; [cbn; ring|]. cbn [rsum]. rewrite IH, S_INR. ring. Qed.
Lemma rsum_plus n f g : rsum n (fun k => f k + g k) = rsum n f + rsum n g.
Proof. induction n as [|n IH]; cbn [rsum]; [ring|]. rewrite IH. ring. Qed.
Lemma rsum_minus n f g : rsum n (fun k => f k - g k) = rsum n f - rsum n g.
Proof. induction n as [|n IH]; cbn [rsum]; [ring|]. rewrite IH. ring. Qed.
Lemma rsum_term n f k : (k < n)%nat -> (forall i, (i < n)%nat -> 0 <= f i) -> f k <= rsum n f.
Proof.
  induction n as [|n IH]; intros Hk P; [lia|]. cbn [rsum]. destruct (Nat.eq_dec k n) as [->|].
  - assert (0 <= rsum n f) by (apply rsum_nonneg; intros; apply P; lia). lra.
  - specialize (IH ltac:(lia) ltac:(intros; apply P; lia)). assert (0 <= f n) by (apply P; lia). lra.
Qed.
Lemma rsum_swap m n (f : nat -> nat -> R) : rsum m (fun i => rsum n (fun j => f i j)) = rsum n (fun j => rsum m (fun i => f i j)).
Proof.
  induction m as [|m IH]; cbn [rsum]; [induction n as [|n IHn]; cbn [rsum]; [auto|rewrite <- IHn; ring]|].
  rewrite IH, <- rsum_plus. auto.
Qed.
Lemma one_le_pow t n : 1 <= t -> 1 <= t ^ n.
Proof. intros. apply pow_R1_Rle. auto. Qed.
Lemma pow_up t m n : 1 <= t -> (m <= n)%nat -> t ^ m <= t ^ n.
Proof. intros. apply Rle_pow; auto. Qed.

Section Acc.
Context (prec emax : Z) {Hprec : Prec_gt_0 prec} {Hmax : Prec_lt_emax prec emax}.
Notation F := (binary_float prec emax).
Notation u := (u_round prec).
Notation eta := (eta_min prec emax).
Notation val := (@B2R prec emax).
Notation fin x := (is_finite x = true).

Lemma accumulate_S (x : nat -> F) n : accumulate (S (S n)) x = add (accumulate (S n) x) (x (S n)).
Proof. unfold accumulate. replace (S (S n) - 1)%nat with (S n) by lia. replace (S n - 1)%nat with n by lia. rewrite seq_S, fold_left_app. reflexivity. Qed.
Lemma accumulate_1 (x : nat -> F) : accumulate 1 x = x 0%nat.
Proof. reflexivity. Qed.

Lemma accumulate_fin n (x : nat -> F) : fin (accumulate (S n) x) -> forall k, (k < S n)%nat -> fin (x k).
Proof.
  induction n as [|n IH]; intros H k Hk.
  - rewrite accumulate_1 in H. replace k with 0%nat by lia. auto.
  - rewrite accumulate_S in H. apply add_err in H; auto. destruct H as (A & B & _).
    destruct (Nat.eq_dec k (S n)) as [->|]; auto. apply IH; auto. lia.
Qed.
(** sum of given numbers: n-1 roundings *)
Lemma accumulate_err n (x : nat -> F) : fin (accumulate (S n) x) ->
  Rabs (val (accumulate (S n) x) - rsum (S n) (fun k => val (x k))) <= ((1 + u) ^ n - 1) * rsum (S n) (fun k => Rabs (val (x k))).
Proof.
  pose proof (u_pos prec) as U.
  induction n as [|n IH]; intros H.
  - rewrite accumulate_1. cbn [rsum pow]. rewrite !Rplus_0_l. unfold Rminus. rewrite Rplus_opp_r, Rabs_R0. lra.
  - rewrite accumulate_S in *. apply add_err in H; auto. destruct H as (A & B & d & D & E). rewrite E. specialize (IH A).
    set (s := val (accumulate (S n) x)) in *. set (y := val (x (S n))).
    change (rsum (S (S n)) (fun k => val (x k))) with (rsum (S n) (fun k => val (x k)) + y).
    change (rsum (S (S n)) (fun k => Rabs (val (x k)))) with (rsum (S n) (fun k => Rabs (val (x k))) + Rabs y).
    pose proof (rsum_abs (S n) (fun k => val (x k))) as T0. cbv beta in T0.
    set (S0 := rsum (S n) (fun k => val (x k))) in *. set (A0 := rsum (S n) (fun k => Rabs (val (x k)))) in *.
    assert (P : 1 <= (1 + u) ^ n) by (apply one_le_pow; lra).
    replace ((s + y) * (1 + d) - (S0 + y)) with ((s - S0) * (1 + d) + (S0 * d + y * d)) by ring.
    assert (D1 : Rabs (1 + d) <= 1 + u) by (eapply Rle_trans; [apply Rabs_triang|]; rewrite Rabs_R1; lra).
    pose proof (Rabs_pos y) as Py.
    assert (X1 : Rabs ((s - S0) * (1 + d)) <= (((1 + u) ^ n - 1) * A0) * (1 + u)) by (rewrite Rabs_mult; apply Rmult_le_compat; auto using Rabs_pos).
    assert (X2 : Rabs (S0 * d) <= A0 * u) by (rewrite Rabs_mult; apply Rmult_le_compat; auto using Rabs_pos).
    assert (X3 : Rabs (y * d) <= Rabs y * u) by (rewrite Rabs_mult; apply Rmult_le_compat_l; auto).
    assert (X4 : Rabs y * u <= ((1 + u) ^ S n - 1) * Rabs y).
    { rewrite Rmult_comm. apply Rmult_le_compat_r; auto. cbn [pow]. nra. }
    eapply Rle_trans; [apply Rabs_triang|]. eapply Rle_trans; [apply Rplus_le_compat; [exact X1|eapply Rle_trans; [apply Rabs_triang|apply Rplus_le_compat; [exact X2|exact X3]]]|].
    cbn [pow] in *. lra.
Qed.
(** sum of products: n roundings *)
Lemma products_err n (a b : nat -> F) : let p := fun k => mul (a k) (b k) in fin (accumulate (S n) p) ->
  (forall k, (k < S n)%nat -> fin (a k) /\ fin (b k)) /\
  Rabs (val (accumulate (S n) p) - rsum (S n) (fun k => val (a k) * val (b k))) <=
    ((1 + u) ^ S n - 1) * rsum (S n) (fun k => Rabs (val (a k) * val (b k))) + INR (S n) * (1 + u) ^ S n * eta.
Proof.
  pose proof (u_pos prec) as U. pose proof (eta_pos prec emax) as Eta. intros p H. pose proof (accumulate_fin _ _ H) as Fp. split.
  { intros k Hk. specialize (Fp k Hk). apply mul_err in Fp; auto. destruct Fp as (A & B & _). auto. }
  pose proof (accumulate_err _ _ H) as Acc.
  assert (P : forall k, (k < S n)%nat -> Rabs (val (p k) - val (a k) * val (b k)) <= u * Rabs (val (a k) * val (b k)) + eta).
  { intros k Hk. specialize (Fp k Hk). apply mul_err in Fp; auto. destruct Fp as (_ & _ & d & e & D & E & V). unfold p. rewrite V.
    replace (val (a k) * val (b k) * (1 + d) + e - val (a k) * val (b k)) with (d * (val (a k) * val (b k)) + e) by ring.
    eapply Rle_trans; [apply Rabs_triang|]. apply Rplus_le_compat; auto. rewrite Rabs_mult. apply Rmult_le_compat_r; auto using Rabs_pos. }
  set (w := (1 + u) ^ n) in *. assert (W : 1 <= w) by (apply one_le_pow; lra).
  assert (S1 : forall m, (m <= S n)%nat -> Rabs (rsum m (fun k => val (p k)) - rsum m (fun k => val (a k) * val (b k))) <= u * rsum m (fun k => Rabs (val (a k) * val (b k))) + INR m * eta).
  { induction m as [|m IHm]; intros Hm; [cbn; rewrite Rminus_0_r, Rabs_R0; lra|]. rewrite S_INR. cbn [rsum]. specialize (IHm ltac:(lia)). specialize (P m ltac:(lia)).
    match goal with |- Rabs ?e <= _ => replace e with ((rsum m (fun k => val (p k)) - rsum m (fun k => val (a k) * val (b k))) + (val (p m) - val (a m) * val (b m))) by ring end.
    eapply Rle_trans; [apply Rabs_triang|]. lra. }
  assert (S2 : forall m, (m <= S n)%nat -> rsum m (fun k => Rabs (val (p k))) <= (1 + u) * rsum m (fun k => Rabs (val (a k) * val (b k))) + INR m * eta).
  { induction m as [|m IHm]; intros Hm; [cbn; lra|]. rewrite S_INR. cbn [rsum]. specialize (IHm ltac:(lia)). specialize (P m ltac:(lia)).
    assert (Rabs (val (p m)) <= Rabs (val (a m) * val (b m)) + Rabs (val (p m) - val (a m) * val (b m))).
    { replace (val (p m)) with (val (a m) * val (b m) + (val (p m) - val (a m) * val (b m))) at 1 by ring. apply Rabs_triang. }
    lra. }
  specialize (S1 _ (Nat.le_refl _)). specialize (S2 _ (Nat.le_refl _)).
  set (X := rsum (S n) (fun k => val (p k))) in *. set (Y := rsum (S n) (fun k => val (a k) * val (b k))) in *.
  set (B := rsum (S n) (fun k => Rabs (val (a k) * val (b k)))) in *. set (C := rsum (S n) (fun k => Rabs (val (p k)))) in *.
  replace (val (accumulate (S n) p) - Y) with ((val (accumulate (S n) p) - X) + (X - Y)) by ring.
  eapply Rle_trans; [apply Rabs_triang|]. change ((1 + u) ^ S n) with ((1 + u) * w).
  assert (Q : (w - 1) * C <= (w - 1) * ((1 + u) * B + INR (S n) * eta)) by (apply Rmult_le_compat_l; lra).
  assert (0 <= INR (S n) * eta) by (apply Rmult_le_pos; [apply pos_INR|lra]).
  assert (INR (S n) * eta * w <= INR (S n) * eta * ((1 + u) * w)) by (apply Rmult_le_compat_l; auto; assert (0 <= u * w) by (apply Rmult_le_pos; lra); lra).
  lra.
Qed.

(** the accumulation does not overflow when the bound of its result does not *)
Lemma products_fit n (a b : nat -> F) : let p := fun k => mul (a k) (b k) in
  (forall k, (k < S n)%nat -> fin (a k) /\ fin (b k)) ->
  (1 + u) ^ S n * rsum (S n) (fun k => Rabs (val (a k) * val (b k))) + INR (S n) * (1 + u) ^ S n * eta < bpow radix2 emax ->
  fin (accumulate (S n) p).
Proof.
  pose proof (u_pos prec) as U. pose proof (eta_pos prec emax) as Eta. intros p. induction n as [|n IH]; intros A H.
  - rewrite accumulate_1. destruct (A 0%nat ltac:(lia)). apply mul_fits; auto. cbn [rsum pow INR] in H. rewrite !Rplus_0_l, !Rmult_1_r, Rmult_1_l in H.
    assert (0 <= u * eta) by (apply Rmult_le_pos; lra). lra.
  - rewrite accumulate_S. set (w := (1 + u) ^ S n) in *. assert (W : 1 + u <= w) by (unfold w; cbn [pow]; assert (1 <= (1 + u) ^ n) by (apply one_le_pow; lra); nra).
    change (rsum (S (S n)) (fun k => Rabs (val (a k) * val (b k)))) with (rsum (S n) (fun k => Rabs (val (a k) * val (b k))) + Rabs (val (a (S n)) * val (b (S n)))) in H.
    pose proof (rsum_nonneg (S n) (fun k => Rabs (val (a k) * val (b k))) ltac:(intros; apply Rabs_pos)) as B0.
    pose proof (rsum_abs (S n) (fun k => val (a k) * val (b k))) as B1. cbv beta in B1.
    set (B := rsum (S n) (fun k => Rabs (val (a k) * val (b k)))) in *. set (t := Rabs (val (a (S n)) * val (b (S n)))) in *.
    assert (T0 : 0 <= t) by apply Rabs_pos. assert (I0 : 0 <= INR (S n)) by apply pos_INR. set (m := INR (S n)) in *.
    change ((1 + u) ^ S (S n)) with ((1 + u) * w) in H. replace (INR (S (S n))) with (m + 1) in H by (unfold m; rewrite (S_INR (S n)); ring).
    assert (Hw : 0 <= m * w * eta) by (apply Rmult_le_pos; [apply Rmult_le_pos|]; lra).
    assert (K1 : (1 + u) * (w * B + m * w * eta) + (1 + u) * ((1 + u) * t + eta) <= (1 + u) * w * (B + t) + (m + 1) * ((1 + u) * w) * eta).
    { assert ((1 + u) * t <= w * t) by (apply Rmult_le_compat_r; auto). assert (1 * eta <= w * eta) by (apply Rmult_le_compat_r; lra).
      replace ((1 + u) * w * (B + t) + (m + 1) * ((1 + u) * w) * eta) with ((1 + u) * (w * B + m * w * eta) + (1 + u) * (w * t + w * eta)) by ring.
      apply Rplus_le_compat_l. apply Rmult_le_compat_l; lra. }
    assert (P0 : 0 <= w * B) by (apply Rmult_le_pos; lra).
    assert (E1 : w * B + m * w * eta < bpow radix2 emax).
    { assert (0 <= u * (w * B + m * w * eta)) by (apply Rmult_le_pos; lra). assert (0 <= (1 + u) * ((1 + u) * t + eta)) by (apply Rmult_le_pos; [lra|]; assert (0 <= (1 + u) * t) by (apply Rmult_le_pos; lra); lra). lra. }
    assert (E2 : (1 + u) * t + eta < bpow radix2 emax).
    { assert (0 <= u * ((1 + u) * t + eta)) by (apply Rmult_le_pos; [lra|]; assert (0 <= (1 + u) * t) by (apply Rmult_le_pos; lra); lra).
      assert (0 <= (1 + u) * (w * B + m * w * eta)) by (apply Rmult_le_pos; lra). lra. }
    destruct (A (S n) ltac:(lia)) as [Fa Fb].
    assert (Fs : fin (accumulate (S n) p)) by (apply IH; [intros; apply A; lia|lra]).
    assert (Fp : fin (p (S n))) by (apply mul_fits; auto).
    destruct (products_err n a b Fs) as [_ Er]. fold p w B m in Er.
    pose proof (mul_err prec emax _ _ Fp) as (_ & _ & d & e & D & E & V). fold (p (S n)) in V.
    apply add_fits; auto. set (s := val (accumulate (S n) p)) in *.
    assert (S1 : Rabs s <= w * B + m * w * eta).
    { replace s with ((s - rsum (S n) (fun k => val (a k) * val (b k))) + rsum (S n) (fun k => val (a k) * val (b k))) by ring. eapply Rle_trans; [apply Rabs_triang|]. lra. }
    assert (S2 : Rabs (val (p (S n))) <= (1 + u) * t + eta).
    { rewrite V. eapply Rle_trans; [apply Rabs_triang|]. apply Rplus_le_compat; auto. rewrite Rabs_mult, Rmult_comm. fold t. apply Rmult_le_compat_r; auto. apply abs_1d; auto. }
    eapply Rle_lt_trans; [|exact H]. eapply Rle_trans; [|exact K1]. rewrite <- Rmult_plus_distr_l. apply Rmult_le_compat_l; [lra|].
    eapply Rle_trans; [apply Rabs_triang|]. lra.
Qed.
End Acc.
