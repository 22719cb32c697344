(** Rational enclosures of PI, exp 1 and square roots. *)
From Coq Require Import ZArith QArith Qreals Reals Lra Lia List.
From Coq Require Import Machin Ratan Rseries AltSeries Exp_prop Rtrigo_def.
Open Scope R_scope.

(** Partial sums of the series for PI/4, as fractions. *)
Fixpoint qpow (q : Q) (n : nat) : Q := match n with O => 1%Q | S k => Qred (q * qpow q k)%Q end.
Lemma qpow_pow q n : Q2R (qpow q n) = Q2R q ^ n.
Proof.
  induction n as [|n IH]; cbn [qpow pow]; [unfold Q2R; simpl; lra|].
  rewrite (Qeq_eqR _ _ (Qred_correct _)), Q2R_mult, IH. reflexivity.
Qed.
Definition qterm (n : nat) : Q :=
  Qred ((2 * qpow (1 # 3) (2 * n + 1) + qpow (1 # 7) (2 * n + 1)) * (1 # Pos.of_nat (2 * n + 1)))%Q.
Fixpoint qsum (n : nat) : Q :=
  let t := if Nat.even n then qterm n else (- qterm n)%Q in
  match n with O => t | S k => Qred (qsum k + t)%Q end.
Lemma Q2R_frac z p : Q2R (z # p) = IZR z / IZR (Zpos p).
Proof. reflexivity. Qed.
Lemma qterm_ok n : Q2R (qterm n) = PI_2_3_7_tg n.
Proof.
  unfold qterm, PI_2_3_7_tg, Ratan_seq.
  rewrite (Qeq_eqR _ _ (Qred_correct _)), Q2R_mult, Q2R_plus, Q2R_mult, !qpow_pow, !Q2R_frac.
  replace (IZR (Z.pos (Pos.of_nat (2 * n + 1)))) with (INR (2 * n + 1)).
  2:{ rewrite INR_IZR_INZ. f_equal. rewrite <- positive_nat_Z, Nat2Pos.id by lia. reflexivity. }
  assert (INR (2 * n + 1) <> 0) by (apply not_0_INR; lia).
  replace (1 / 3) with (/ 3) by field. replace (1 / 7) with (/ 7) by field.
  field. auto.
Qed.
Lemma qsum_ok n : Q2R (qsum n) = sum_f_R0 (tg_alt PI_2_3_7_tg) n.
Proof.
  assert (T : forall n, Q2R (if Nat.even n then qterm n else (- qterm n)%Q) = tg_alt PI_2_3_7_tg n).
  { intros k. unfold tg_alt. rewrite <- qterm_ok. destruct (Nat.even k) eqn:E.
    - apply Nat.even_spec in E as [j ->]. rewrite pow_1_even. lra.
    - assert (O : Nat.odd k = true) by (rewrite <- Nat.negb_even, E; reflexivity).
      apply Nat.odd_spec in O as [j ->]. rewrite Nat.add_1_r. rewrite pow_1_odd, Q2R_opp. lra. }
  induction n as [|n IH].
  - simpl sum_f_R0. rewrite <- T. reflexivity.
  - cbn [sum_f_R0]. rewrite <- IH, <- T. cbn [qsum].
    rewrite (Qeq_eqR _ _ (Qred_correct _)), Q2R_plus. reflexivity.
Qed.
Lemma PI_enclosure : 314159265358979323846264 / 100000000000000000000000 < PI < 314159265358979323846265 / 100000000000000000000000.
Proof.
  pose proof (PI_2_3_7_ineq 24) as [A B].
  rewrite <- qsum_ok in A, B.
  assert (L : Q2R (314159265358979323846264 # 400000000000000000000000) < Q2R (qsum (S (2 * 24)))).
  { apply Qlt_Rlt. vm_compute. reflexivity. }
  assert (U : Q2R (qsum (2 * 24)) < Q2R (314159265358979323846265 # 400000000000000000000000)).
  { apply Qlt_Rlt. vm_compute. reflexivity. }
  rewrite Q2R_frac in L, U. lra.
Qed.

(** exp 1 from the alternating series of exp (-1). *)
Fixpoint zfact (n : nat) : Z := match n with O => 1%Z | S k => (Z.of_nat n * zfact k)%Z end.
Lemma zfact_ok n : IZR (zfact n) = INR (fact n).
Proof.
  induction n as [|n IH]; [reflexivity|]. rewrite fact_simpl, mult_INR, <- IH.
  cbn [zfact]. rewrite mult_IZR, INR_IZR_INZ. reflexivity.
Qed.
Lemma zfact_pos n : (0 < zfact n)%Z.
Proof. induction n as [|n IH]; [reflexivity|]. cbn [zfact]. lia. Qed.
Definition einv (n : nat) : R := / INR (fact n).
Definition qeterm (n : nat) : Q := 1 # Z.to_pos (zfact n).
Fixpoint qesum (n : nat) : Q :=
  let t := if Nat.even n then qeterm n else (- qeterm n)%Q in
  match n with O => t | S k => Qred (qesum k + t)%Q end.
Lemma qesum_ok n : Q2R (qesum n) = sum_f_R0 (tg_alt einv) n.
Proof.
  assert (T : forall n, Q2R (if Nat.even n then qeterm n else (- qeterm n)%Q) = tg_alt einv n).
  { intros k. unfold tg_alt, einv. rewrite <- zfact_ok.
    assert (Q : Q2R (qeterm k) = / IZR (zfact k)).
    { unfold qeterm. rewrite Q2R_frac, Z2Pos.id by apply zfact_pos. unfold Rdiv. lra. }
    rewrite <- Q. destruct (Nat.even k) eqn:E.
    - apply Nat.even_spec in E as [j ->]. rewrite pow_1_even. lra.
    - assert (O : Nat.odd k = true) by (rewrite <- Nat.negb_even, E; reflexivity).
      apply Nat.odd_spec in O as [j ->]. rewrite Nat.add_1_r. rewrite pow_1_odd, Q2R_opp. lra. }
  induction n as [|n IH].
  - simpl sum_f_R0. rewrite <- T. reflexivity.
  - cbn [sum_f_R0]. rewrite <- IH, <- T. cbn [qesum].
    rewrite (Qeq_eqR _ _ (Qred_correct _)), Q2R_plus. reflexivity.
Qed.
Lemma exp_m1_ineq N : sum_f_R0 (tg_alt einv) (S (2 * N)) <= exp (-1) <= sum_f_R0 (tg_alt einv) (2 * N).
Proof.
  apply alternated_series_ineq.
  - intros n. unfold einv. apply Rinv_le_contravar; [apply INR_fact_lt_0|].
    apply le_INR. apply fact_le. lia.
  - intros eps He. destruct (cv_speed_pow_fact 1 eps He) as [M HM]. exists M. intros n Hn.
    specialize (HM n Hn). unfold R_dist in *. unfold einv. rewrite pow1 in HM. unfold Rdiv in HM.
    now rewrite Rmult_1_l in HM.
  - unfold exp. destruct (exist_exp (-1)) as [x Hx]. simpl. intros eps He.
    destruct (Hx eps He) as [M HM]. exists M. intros n Hn. specialize (HM n Hn).
    rewrite (sum_eq _ (fun i => / INR (fact i) * (-1) ^ i)); [exact HM|].
    intros i _. unfold tg_alt, einv. lra.
Qed.
Lemma exp_1_enclosure : 271828182845904523536 / 100000000000000000000 < exp 1 < 271828182845904523537 / 100000000000000000000.
Proof.
  pose proof (exp_m1_ineq 13) as [A B]. rewrite <- qesum_ok in A, B.
  assert (L : Q2R (100000000000000000000 # 271828182845904523537) < Q2R (qesum (S (2 * 13)))).
  { apply Qlt_Rlt. vm_compute. reflexivity. }
  assert (U : Q2R (qesum (2 * 13)) < Q2R (100000000000000000000 # 271828182845904523536)).
  { apply Qlt_Rlt. vm_compute. reflexivity. }
  rewrite Q2R_frac in L, U.
  set (s := Q2R (qesum (S (2 * 13)))) in *. set (s' := Q2R (qesum (2 * 13))) in *. clearbody s s'.
  assert (E : exp (-1) * exp 1 = 1) by (rewrite <- exp_plus; replace (-1 + 1) with 0 by lra; apply exp_0).
  pose proof (exp_pos 1) as P. pose proof (exp_pos (-1)) as P'.
  assert (LL : 100000000000000000000 / 271828182845904523537 < exp (-1)) by lra.
  assert (UU : exp (-1) < 100000000000000000000 / 271828182845904523536) by lra.
  set (x := exp 1) in *. set (y := exp (-1)) in *. clearbody x y. clear A B L U s s'.
  split.
  - apply (Rmult_lt_compat_r x) in UU; auto. lra.
  - apply (Rmult_lt_compat_r x) in LL; auto. lra.
Qed.
