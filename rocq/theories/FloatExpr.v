(** Rounding errors of closed formulas.  A formula of the library that uses only
    + - * and negation, run on formulas instead of numbers, is its own syntax tree;
    the error of every tree is bounded once. *)
From Coq Require Import ZArith Bool List Arith Lia Reals Lra.
From Flocq Require Import Core BinarySingleNaN.
From Verif Require Import Base RInst FloatModel FloatFacts FloatDot.
From Verif Require Export Formula.
Import ListNotations.
Open Scope R_scope.

(** sum of the absolute values of the monomials; underflow terms; roundings *)
Fixpoint size (rho : nat -> R) (e : formula) : R :=
  match e with
  | FVar k => Rabs (rho k) | FZero => 0 | FOne => 1
  | FAdd a b | FSub a b => size rho a + size rho b
  | FMul a b => size rho a * size rho b
  | FNeg a => size rho a
  | FOther _ _ => 0
  end.
Fixpoint steps (e : formula) : nat :=
  match e with
  | FVar _ | FZero | FOne => 0
  | FAdd a b | FSub a b => S (Nat.max (steps a) (steps b))
  | FMul a b => S (steps a + steps b)
  | FNeg a => steps a
  | FOther _ _ => 0
  end.
Fixpoint tiny (eta : R) (rho : nat -> R) (e : formula) : R :=
  match e with
  | FVar _ | FZero | FOne => 0
  | FAdd a b | FSub a b => tiny eta rho a + tiny eta rho b
  | FMul a b => size rho a * tiny eta rho b + tiny eta rho a * size rho b + eta * (tiny eta rho a * tiny eta rho b) + 1
  | FNeg a => tiny eta rho a
  | FOther _ _ => 0
  end.

Section IEEE.
Context (prec emax : Z) {Hprec : Prec_gt_0 prec} {Hmax : Prec_lt_emax prec emax}.
Notation F := (binary_float prec emax).
Notation u := (u_round prec).
Notation eta := (eta_min prec emax).
Notation val := (@B2R prec emax).
Notation fin x := (is_finite x = true).
(** running bound of the computed value *)
Fixpoint high (rho : nat -> R) (e : formula) : R :=
  match e with
  | FVar k => Rabs (rho k) | FZero => 0 | FOne => 1
  | FAdd a b | FSub a b => (1 + u) * (high rho a + high rho b)
  | FMul a b => (1 + u) * (high rho a * high rho b) + eta
  | FNeg a => high rho a
  | FOther _ _ => 0
  end.
Lemma size_pos rho e : 0 <= size rho e.
Proof. induction e; cbn [size]; try apply Rabs_pos; try lra. apply Rmult_le_pos; auto. Qed.
Lemma tiny_pos rho e : 0 <= tiny eta rho e.
Proof.
  pose proof (eta_pos prec emax). induction e; cbn [tiny]; try lra. pose proof (size_pos rho e1). pose proof (size_pos rho e2).
  assert (0 <= size rho e1 * tiny eta rho e2) by (apply Rmult_le_pos; auto). assert (0 <= tiny eta rho e1 * size rho e2) by (apply Rmult_le_pos; auto).
  assert (0 <= eta * (tiny eta rho e1 * tiny eta rho e2)) by (apply Rmult_le_pos; [lra|apply Rmult_le_pos; auto]). lra.
Qed.
Lemma high_size rho e : size rho e <= high rho e.
Proof.
  pose proof (u_pos prec) as U. pose proof (eta_pos prec emax) as Et.
  assert (P : forall x y, 0 <= x -> x <= y -> x <= (1 + u) * y) by (intros x y Hx Hy; assert (0 <= u * y) by (apply Rmult_le_pos; lra); lra).
  induction e as [k| | |a IHa b IHb|a IHa b IHb|a IHa b IHb|a IHa|a IHa b IHb]; cbn [size high]; try lra; pose proof (size_pos rho a); try pose proof (size_pos rho b).
  1,2: apply P; lra.
  - apply Rle_trans with ((1 + u) * (high rho a * high rho b)); [|lra]. apply P; [apply Rmult_le_pos; auto|]. apply Rmult_le_compat; auto.
Qed.
Lemma real_size rho e : plain e -> Rabs (feval (T:=R) rho e) <= size rho e.
Proof.
  induction e as [k| | |a IHa b IHb|a IHa b IHb|a IHa b IHb|a IHa|a IHa b IHb]; cbn [plain feval size]; intros P; cbn [zero one add sub mul neg ROps].
  - lra.
  - rewrite Rabs_R0. lra.
  - rewrite Rabs_R1. lra.
  - destruct P. eapply Rle_trans; [apply Rabs_triang|]. specialize (IHa ltac:(auto)). specialize (IHb ltac:(auto)). lra.
  - destruct P. eapply Rle_trans; [apply Rabs_triang|]. rewrite Rabs_Ropp. specialize (IHa ltac:(auto)). specialize (IHb ltac:(auto)). lra.
  - destruct P. rewrite Rabs_mult. apply Rmult_le_compat; auto using Rabs_pos.
  - rewrite Rabs_Ropp. auto.
  - destruct P.
Qed.
(** the three ways to combine two approximations *)
Lemma pos_facts' : 0 < u /\ 0 < eta. Proof. split; [apply u_pos|apply eta_pos]. Qed.
Lemma near_le x r s h : Rabs (x - r) <= h - s -> Rabs r <= s -> Rabs x <= h.
Proof. intros A B. replace x with ((x - r) + r) by ring. eapply Rle_trans; [apply Rabs_triang|]. lra. Qed.
Lemma near_add xa ra sa ha xb rb sb hb d : Rabs (xa - ra) <= ha - sa -> Rabs ra <= sa -> Rabs (xb - rb) <= hb - sb -> Rabs rb <= sb -> Rabs d <= u ->
  Rabs ((xa + xb) * (1 + d) - (ra + rb)) <= (1 + u) * (ha + hb) - (sa + sb).
Proof.
  intros A1 A2 B1 B2 D. destruct pos_facts' as [U _]. pose proof (near_le _ _ _ _ A1 A2) as Xa. pose proof (near_le _ _ _ _ B1 B2) as Xb.
  replace ((xa + xb) * (1 + d) - (ra + rb)) with ((xa - ra) + (xb - rb) + (xa + xb) * d) by ring.
  eapply Rle_trans; [apply Rabs_triang|]. assert (Rabs ((xa + xb) * d) <= (ha + hb) * u).
  { rewrite Rabs_mult. apply Rmult_le_compat; auto using Rabs_pos. eapply Rle_trans; [apply Rabs_triang|]. lra. }
  assert (Rabs (xa - ra + (xb - rb)) <= (ha - sa) + (hb - sb)) by (eapply Rle_trans; [apply Rabs_triang|]; lra). lra.
Qed.
Lemma near_mul xa ra sa ha xb rb sb hb d e : Rabs (xa - ra) <= ha - sa -> Rabs ra <= sa -> Rabs (xb - rb) <= hb - sb -> Rabs rb <= sb -> Rabs d <= u -> Rabs e <= eta ->
  Rabs (xa * xb * (1 + d) + e - ra * rb) <= (1 + u) * (ha * hb) + eta - sa * sb.
Proof.
  intros A1 A2 B1 B2 D E. destruct pos_facts' as [U _]. pose proof (near_le _ _ _ _ A1 A2) as Xa. pose proof (near_le _ _ _ _ B1 B2) as Xb.
  replace (xa * xb * (1 + d) + e - ra * rb) with ((xa - ra) * (xb - rb) + ra * (xb - rb) + (xa - ra) * rb + xa * xb * d + e) by ring.
  assert (T1 : Rabs ((xa - ra) * (xb - rb)) <= (ha - sa) * (hb - sb)) by (rewrite Rabs_mult; apply Rmult_le_compat; auto using Rabs_pos).
  assert (T2 : Rabs (ra * (xb - rb)) <= sa * (hb - sb)) by (rewrite Rabs_mult; apply Rmult_le_compat; auto using Rabs_pos).
  assert (T3 : Rabs ((xa - ra) * rb) <= (ha - sa) * sb) by (rewrite Rabs_mult; apply Rmult_le_compat; auto using Rabs_pos).
  assert (T4 : Rabs (xa * xb * d) <= ha * hb * u).
  { rewrite !Rabs_mult. apply Rmult_le_compat; auto using Rabs_pos; [apply Rmult_le_pos; apply Rabs_pos|]. apply Rmult_le_compat; auto using Rabs_pos. }
  eapply Rle_trans; [apply Rabs_triang|].
  pose proof (Rabs_triang ((xa - ra) * (xb - rb) + ra * (xb - rb) + (xa - ra) * rb) (xa * xb * d)).
  pose proof (Rabs_triang ((xa - ra) * (xb - rb) + ra * (xb - rb)) ((xa - ra) * rb)). pose proof (Rabs_triang ((xa - ra) * (xb - rb)) (ra * (xb - rb))). lra.
Qed.
Lemma val_neg (x : F) : val (neg x) = - val x. Proof. apply B2R_Bopp. Qed.
Lemma fin_neg (x : F) : is_finite (neg x) = is_finite x. Proof. apply is_finite_Bopp. Qed.
Lemma val_1 : val one = 1 /\ fin (one : F).
Proof. split; [apply Bone_correct|]. apply is_finite_Bone. Qed.

Lemma near_high (rho : nat -> F) e : plain e -> fin (feval rho e) ->
  Rabs (val (feval rho e) - feval (T:=R) (fun k => val (rho k)) e) <= high (fun k => val (rho k)) e - size (fun k => val (rho k)) e.
Proof.
  set (r := fun k => val (rho k)). induction e as [k| | |a IHa b IHb|a IHa b IHb|a IHa b IHb|a IHa|a IHa b IHb]; cbn [plain]; intros P H.
  - cbn. unfold r. unfold Rminus. rewrite !Rplus_opp_r, Rabs_R0. lra.
  - cbn. rewrite Rminus_0_r, Rabs_R0. lra.
  - cbn [feval high size]. destruct val_1 as [-> _]. cbn [one ROps]. unfold Rminus. rewrite !Rplus_opp_r, Rabs_R0. lra.
  - destruct P as [Pa Pb]. cbn [feval] in *. destruct (add_err prec emax _ _ H) as (Fa & Fb & d & D & ->). cbn [high size]. apply near_add; auto using real_size.
  - destruct P as [Pa Pb]. cbn [feval] in *. destruct (sub_err prec emax _ _ H) as (Fa & Fb & d & D & ->). cbn [high size]. cbn [sub ROps].
    replace (feval r a - feval r b) with (feval (T:=R) r a + - feval (T:=R) r b) by ring. unfold Rminus at 2. apply near_add; auto using real_size.
    + replace (- val (feval rho b) - - feval r b) with (- (val (feval rho b) - feval (T:=R) r b)) by ring. rewrite Rabs_Ropp. auto.
    + rewrite Rabs_Ropp. auto using real_size.
  - destruct P as [Pa Pb]. cbn [feval] in *. destruct (mul_err prec emax _ _ H) as (Fa & Fb & d & e & D & E & ->). cbn [high size]. apply near_mul; auto using real_size.
  - cbn [feval high size] in *. rewrite fin_neg in H. rewrite val_neg. cbn [neg ROps]. replace (- val (feval rho a) - - feval r a) with (- (val (feval rho a) - feval (T:=R) r a)) by ring. rewrite Rabs_Ropp. auto.
  - destruct P.
Qed.
Lemma high_bound rho e : plain e -> high rho e <= (1 + u) ^ steps e * (size rho e + eta * tiny eta rho e).
Proof.
  destruct pos_facts' as [U Et]. pose proof (size_pos rho) as S0. pose proof (tiny_pos rho) as T0.
  assert (Q0 : forall e, 0 <= size rho e + eta * tiny eta rho e) by (intros e'; specialize (S0 e'); specialize (T0 e'); assert (0 <= eta * tiny eta rho e') by (apply Rmult_le_pos; lra); lra).
  assert (P1 : forall n, 1 <= (1 + u) ^ n) by (intros; apply one_le_pow; lra).
  assert (UP : forall m n x, (m <= n)%nat -> 0 <= x -> (1 + u) ^ m * x <= (1 + u) ^ n * x) by (intros; apply Rmult_le_compat_r; auto; apply pow_up; auto; lra).
  assert (ADD : forall a b, high rho a <= (1 + u) ^ steps a * (size rho a + eta * tiny eta rho a) -> high rho b <= (1 + u) ^ steps b * (size rho b + eta * tiny eta rho b) ->
    (1 + u) * (high rho a + high rho b) <= (1 + u) ^ S (Nat.max (steps a) (steps b)) * (size rho a + size rho b + eta * (tiny eta rho a + tiny eta rho b))).
  { intros a b A B. cbn [pow]. rewrite Rmult_assoc. apply Rmult_le_compat_l; [lra|].
    pose proof (UP (steps a) (Nat.max (steps a) (steps b)) _ ltac:(lia) (Q0 a)). pose proof (UP (steps b) (Nat.max (steps a) (steps b)) _ ltac:(lia) (Q0 b)). lra. }
  induction e as [k| | |a IHa b IHb|a IHa b IHb|a IHa b IHb|a IHa|a IHa b IHb]; cbn [plain]; intros P; cbn [high steps size tiny].
  1-3: cbn [pow]; lra.
  1,2: destruct P; auto.
  - destruct P as [Pa Pb]. specialize (IHa Pa). specialize (IHb Pb). cbn [pow]. rewrite pow_add. set (pa := (1 + u) ^ steps a) in *. set (pb := (1 + u) ^ steps b) in *. pose proof (P1 (steps a)) as Ga. pose proof (P1 (steps b)) as Gb. fold pa in Ga. fold pb in Gb.
    assert (M : high rho a * high rho b <= (pa * (size rho a + eta * tiny eta rho a)) * (pb * (size rho b + eta * tiny eta rho b))).
    { apply Rmult_le_compat; auto; (eapply Rle_trans; [apply S0|apply high_size]). }
    assert (N : eta * 1 <= eta * ((1 + u) * (pa * pb))).
    { apply Rmult_le_compat_l; [lra|]. assert (1 * 1 <= pa * pb) by (apply Rmult_le_compat; lra). assert (0 <= u * (pa * pb)) by (apply Rmult_le_pos; lra). lra. }
    apply Rmult_le_compat_l with (r := 1 + u) in M; [|lra]. eapply Rle_trans; [apply Rplus_le_compat; [exact M|rewrite Rmult_1_r in N; exact N]|]. right. ring.
  - auto.
  - destruct P.
Qed.
(** ** The error of a formula *)
Definition near (c : nat) (s t d e : R) : Prop := Rabs (d - e) <= ((1 + u) ^ c - 1) * s + (1 + u) ^ c * t * eta.
Theorem formula_near (rho : nat -> F) e : plain e -> fin (feval rho e) -> let r := fun k => val (rho k) in
  near (steps e) (size r e) (tiny eta r e) (val (feval rho e)) (feval (T:=R) r e).
Proof. intros P H r. unfold near. pose proof (near_high rho e P H) as N. pose proof (high_bound r e P) as B. fold r in N. lra. Qed.
(** a formula whose parts all stay below the overflow threshold is finite *)
Fixpoint small (rho : nat -> R) (e : formula) : Prop :=
  match e with
  | FVar _ | FZero | FOne => True
  | FAdd a b | FSub a b | FMul a b => small rho a /\ small rho b /\ high rho e < bpow radix2 emax
  | FNeg a => small rho a
  | FOther _ _ => True
  end.
Theorem formula_fits (rho : nat -> F) e : plain e -> (forall k, fin (rho k)) -> small (fun k => val (rho k)) e -> fin (feval rho e).
Proof.
  intros P R. set (r := fun k => val (rho k)).
  assert (X : forall a, plain a -> fin (feval rho a) -> Rabs (val (feval rho a)) <= high r a) by (intros a Pa Fa; exact (near_le _ _ _ _ (near_high rho a Pa Fa) (real_size r a Pa))).
  destruct pos_facts' as [U Et].
  induction e as [k| | |a IHa b IHb|a IHa b IHb|a IHa b IHb|a IHa|a IHa b IHb]; cbn [plain small high] in *; intros H; cbn [feval].
  - apply R.
  - reflexivity.
  - apply val_1.
  - destruct P as [Pa Pb]. destruct H as (Ha & Hb & H). specialize (IHa Pa Ha). specialize (IHb Pb Hb). apply add_fits; auto. eapply Rle_lt_trans; [|exact H]. apply Rmult_le_compat_l; [lra|].
    eapply Rle_trans; [apply Rabs_triang|]. pose proof (X a Pa IHa). pose proof (X b Pb IHb). lra.
  - destruct P as [Pa Pb]. destruct H as (Ha & Hb & H). specialize (IHa Pa Ha). specialize (IHb Pb Hb). change (sub (feval rho a) (feval rho b)) with (Bminus mode_NE (feval rho a) (feval rho b)).
    pose proof (Bminus_correct prec emax _ _ mode_NE (feval rho a) (feval rho b) IHa IHb) as C. rewrite Rlt_bool_true in C; [apply C|].
    destruct (rnd_sum prec emax (feval rho a) (neg (feval rho b))) as (d & D & E). rewrite val_neg in E. change (round_mode mode_NE) with ZnearestE. change (SpecFloat.fexp prec emax) with (FLT_exp (3 - emax - prec) prec).
    unfold Rminus. rewrite E. rewrite Rabs_mult. eapply Rle_lt_trans; [|exact H]. rewrite Rmult_comm. apply Rmult_le_compat; auto using Rabs_pos, abs_1d.
    eapply Rle_trans; [apply Rabs_triang|]. rewrite Rabs_Ropp. pose proof (X a Pa IHa). pose proof (X b Pb IHb). lra.
  - destruct P as [Pa Pb]. destruct H as (Ha & Hb & H). specialize (IHa Pa Ha). specialize (IHb Pb Hb). apply mul_fits; auto. eapply Rle_lt_trans; [|exact H]. apply Rplus_le_compat_r. apply Rmult_le_compat_l; [lra|].
    rewrite Rabs_mult. apply Rmult_le_compat; auto using Rabs_pos.
  - rewrite fin_neg. auto.
  - destruct P.
Qed.
Lemma atom_small rho e : atom e -> plain e /\ small rho e.
Proof. induction e; cbn; tauto. Qed.
Lemma high_pos rho e : 0 <= high rho e.
Proof. eapply Rle_trans; [apply size_pos|apply high_size]. Qed.
Lemma flat_plain e : flat e -> plain e.
Proof. induction e; cbn; try tauto. intros [A B]. split; apply (atom_small (fun _ => 0)); auto. Qed.
Lemma flat_small rho e : flat e -> high rho e < bpow radix2 emax -> small rho e.
Proof.
  destruct pos_facts' as [U Et].
  assert (ADD : forall x y B, 0 <= x -> 0 <= y -> (1 + u) * (x + y) < B -> x < B /\ y < B) by (intros x y B Hx Hy H; assert (0 <= u * (x + y)) by (apply Rmult_le_pos; lra); lra).
  induction e as [k| | |a IHa b IHb|a IHa b IHb|a IHa b IHb|a IHa|a IHa b IHb]; cbn [flat high small]; auto.
  1,2: intros [Fa Fb] H; destruct (ADD _ _ _ (high_pos rho a) (high_pos rho b) H); auto.
  intros [Fa Fb] H. split; [apply atom_small; auto|]. split; [apply atom_small; auto|auto].
Qed.
Theorem flat_fits (rho : nat -> F) e : flat e -> (forall k, fin (rho k)) -> let r := fun k => val (rho k) in
  (1 + u) ^ steps e * (size r e + eta * tiny eta r e) < bpow radix2 emax -> fin (feval rho e).
Proof.
  intros Fe R r H. apply formula_fits; auto using flat_plain. apply flat_small; auto. eapply Rle_lt_trans; [apply high_bound; apply flat_plain; auto|exact H].
Qed.
End IEEE.
