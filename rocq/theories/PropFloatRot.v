(** C77: rotations in IEEE arithmetic stay close to rotations. *)
From Coq Require Import ZArith Bool List Arith Lia Reals Lra.
From Flocq Require Import Core BinarySingleNaN.
From Verif Require Import Base RInst MatModel MatSpec MatOps RotModel QuatModel VecModel LUModel XfModel ExactProducts FloatModel FloatFacts FloatDot PropFloat PropFloatLU FloatExpr PropFloatForm PropFloatNorm FloatRot.
Import ListNotations.
Open Scope R_scope.

(** ** Specification.  [norm], [frob], [mmul], [gram], [near_orthogonal], [stretches]: FloatRot.v;
    [rotation], the rotation of a quaternion (w, x, y, z): PropFloatForm.v *)
(** the squared length is within [d] of 1 *)
Definition unit_within (n : nat) (d : R) (a : nat -> R) : Prop := Rabs (rsum n (fun k => a k * a k) - 1) <= d.
(** the rotation about [n] whose angle has cosine [c] and sine [s]: row i is the image of basis vector i *)
Definition turn (c s : R) (n : nat -> R) (i j : nat) : R :=
  (if Nat.eqb i j then c else 0) + (1 - c) * (n i * n j) +
  s * (match i, j with
       | 0%nat, 1%nat => n 2%nat | 1%nat, 2%nat => n 0%nat | 2%nat, 0%nat => n 1%nat
       | 1%nat, 0%nat => - n 2%nat | 2%nat, 1%nat => - n 0%nat | 0%nat, 2%nat => - n 1%nat
       | _, _ => 0 end).

Lemma cases3 (P : nat -> Prop) : P 0%nat -> P 1%nat -> P 2%nat -> forall i, (i < 3)%nat -> P i.
Proof. intros A B C [|[|[|i]]] H; auto; lia. Qed.
Lemma abs_prod x y : Rabs (x * y) <= (x * x + y * y) / 2.
Proof. rewrite Rabs_mult. pose proof (sq_pos (Rabs x - Rabs y)). assert (S : forall z, Rabs z * Rabs z = z * z) by (intros z; rewrite <- Rabs_mult; apply Rabs_pos_eq, sq_pos). pose proof (S x). pose proof (S y). lra. Qed.
(** ** Exact matrices *)
Lemma rotation_near_orthogonal a d : unit_within 4 d a -> near_orthogonal 3 (4 * d * (1 + d)) (rotation a).
Proof.
  unfold unit_within. cbn [rsum]. rewrite Rplus_0_l. set (Nn := a 0%nat * a 0%nat + a 1%nat * a 1%nat + a 2%nat * a 2%nat + a 3%nat * a 3%nat). intros H.
  assert (D0 : 0 <= d) by (eapply Rle_trans; [apply Rabs_pos|exact H]).
  assert (K : forall k, Rabs k <= 1 + d -> Rabs (4 * (1 - Nn) * k) <= 4 * d * (1 + d)).
  { intros k Hk. rewrite Rabs_mult. apply Rmult_le_compat; auto using Rabs_pos. rewrite Rabs_mult, (Rabs_pos_eq 4) by lra. rewrite (Rabs_minus_sym 1 Nn). lra. }
  pose proof (sq_pos (a 0%nat)). pose proof (sq_pos (a 1%nat)). pose proof (sq_pos (a 2%nat)). pose proof (sq_pos (a 3%nat)). pose proof (fun i j => abs_prod (a i) (a j)) as AP.
  assert (NN : Nn <= 1 + d) by (apply Rabs_le_inv in H; lra).
  assert (Kd : forall i j, (i <> j)%nat -> (1 <= i <= 3)%nat -> (1 <= j <= 3)%nat -> Rabs (- (a i * a i + a j * a j)) <= 1 + d).
  { intros i j Nij Hi Hj. rewrite Rabs_Ropp, Rabs_pos_eq by (pose proof (sq_pos (a i)); pose proof (sq_pos (a j)); lra). unfold Nn in NN.
    destruct i as [|[|[|[|i]]]]; try lia; destruct j as [|[|[|[|j]]]]; try lia; lra. }
  assert (Ko : forall i j, (i <> j)%nat -> (1 <= i <= 3)%nat -> (1 <= j <= 3)%nat -> Rabs (a i * a j) <= 1 + d).
  { intros i j Nij Hi Hj. eapply Rle_trans; [apply AP|]. unfold Nn in NN. destruct i as [|[|[|[|i]]]]; try lia; destruct j as [|[|[|[|j]]]]; try lia; lra. }
  intros i j Hi Hj. revert i Hi. apply cases3; revert j Hj; apply cases3; unfold gram; cbn [rsum rotation Nat.eqb].
  all: match goal with |- Rabs ?e <= _ => first
    [ replace e with (4 * (1 - Nn) * - (a 2%nat * a 2%nat + a 3%nat * a 3%nat)) by (unfold Nn; ring); apply K, Kd; lia
    | replace e with (4 * (1 - Nn) * - (a 1%nat * a 1%nat + a 3%nat * a 3%nat)) by (unfold Nn; ring); apply K, Kd; lia
    | replace e with (4 * (1 - Nn) * - (a 1%nat * a 1%nat + a 2%nat * a 2%nat)) by (unfold Nn; ring); apply K, Kd; lia
    | replace e with (4 * (1 - Nn) * (a 1%nat * a 2%nat)) by (unfold Nn; ring); apply K, Ko; lia
    | replace e with (4 * (1 - Nn) * (a 1%nat * a 3%nat)) by (unfold Nn; ring); apply K, Ko; lia
    | replace e with (4 * (1 - Nn) * (a 2%nat * a 3%nat)) by (unfold Nn; ring); apply K, Ko; lia ] end.
Qed.
Lemma turn_near_orthogonal c s n e d : Rabs (c * c + s * s - 1) <= e -> unit_within 3 d n -> e <= / 16 -> d <= / 16 -> near_orthogonal 3 (3 * e + 6 * d) (turn c s n).
Proof.
  unfold unit_within. cbn [rsum]. rewrite Rplus_0_l. intros He Hd E16 D16.
  set (p := c * c + s * s - 1) in *. set (q := n 0%nat * n 0%nat + n 1%nat * n 1%nat + n 2%nat * n 2%nat - 1) in *.
  assert (E0 : 0 <= e) by (eapply Rle_trans; [apply Rabs_pos|exact He]). assert (D0 : 0 <= d) by (eapply Rle_trans; [apply Rabs_pos|exact Hd]).
  pose proof (sq_pos c) as C2. pose proof (sq_pos s) as S2. pose proof (fun i => sq_pos (n i)) as N2. pose proof (N2 0%nat). pose proof (N2 1%nat). pose proof (N2 2%nat).
  apply Rabs_le_inv in He. apply Rabs_le_inv in Hd.
  assert (SS : s * s <= 17 / 16) by (unfold p in He; lra). assert (CC : c * c <= 17 / 16) by (unfold p in He; lra).
  assert (C1 : - (17 / 16) <= c <= 17 / 16) by (split; [assert (- c <= 17 / 16) by (apply sq_le; lra); lra|apply sq_le; lra]).
  assert (OC : 0 <= (1 - c) * (1 - c) <= 17 / 4) by (split; [apply sq_pos|]; lra).
  assert (A1 : Rabs (p + s * s * q) <= e + 17 / 16 * d).
  { eapply Rle_trans; [apply Rabs_triang|]. rewrite Rabs_mult, (Rabs_pos_eq (s * s)) by auto. apply Rplus_le_compat; [apply Rabs_le; lra|]. apply Rmult_le_compat; auto using Rabs_pos. apply Rabs_le; lra. }
  assert (A2 : Rabs ((1 - c) * (1 - c) * q - p) <= e + 17 / 4 * d).
  { unfold Rminus at 1. eapply Rle_trans; [apply Rabs_triang|]. rewrite Rabs_Ropp, Rabs_mult, (Rabs_pos_eq ((1 - c) * (1 - c))) by lra.
    assert ((1 - c) * (1 - c) * Rabs q <= 17 / 4 * d) by (apply Rmult_le_compat; try lra; auto using Rabs_pos; apply Rabs_le; lra). assert (Rabs p <= e) by (apply Rabs_le; lra). lra. }
  assert (NN : forall i j, (i < 3)%nat -> (j < 3)%nat -> Rabs (n i * n j) <= 17 / 16).
  { intros i j Hi Hj. eapply Rle_trans; [apply abs_prod|]. assert (Z : forall i, (i < 3)%nat -> n i * n i <= 17 / 16) by (apply cases3; unfold q in Hd; lra). pose proof (Z i Hi). pose proof (Z j Hj). lra. }
  assert (K : forall t i j, (i < 3)%nat -> (j < 3)%nat -> t = 0 \/ t = 1 -> Rabs (t * (p + s * s * q) + ((1 - c) * (1 - c) * q - p) * (n i * n j)) <= 3 * e + 6 * d).
  { intros t i j Hi Hj Ht. eapply Rle_trans; [apply Rabs_triang|]. rewrite !Rabs_mult with (x := (1 - c) * (1 - c) * q - p).
    assert (Rabs ((1 - c) * (1 - c) * q - p) * Rabs (n i * n j) <= (e + 17 / 4 * d) * (17 / 16)) by (apply Rmult_le_compat; auto using Rabs_pos).
    assert (Rabs (t * (p + s * s * q)) <= e + 17 / 16 * d).
    { destruct Ht as [->| ->]; [rewrite Rmult_0_l, Rabs_R0; lra|rewrite Rmult_1_l; auto]. }
    lra. }
  intros i j Hi Hj. replace (gram 3 (turn c s n) i j - (if Nat.eqb i j then 1 else 0)) with ((if Nat.eqb i j then 1 else 0) * (p + s * s * q) + ((1 - c) * (1 - c) * q - p) * (n i * n j)).
  - apply K; auto. destruct (Nat.eqb i j); auto.
  - revert i Hi. apply cases3; revert j Hj; apply cases3; unfold gram, turn, p, q; cbn [rsum Nat.eqb]; ring.
Qed.

Section IEEE.
Context (prec emax : Z) {Hprec : Prec_gt_0 prec} {Hmax : Prec_lt_emax prec emax}.
Notation F := (binary_float prec emax).
Notation u := (u_round prec).
Notation eta := (eta_min prec emax).
Notation val := (@B2R prec emax).
Notation fin x := (is_finite x = true).
Notation near := (near prec emax).
Notation vals := (vals prec emax).
Notation B m := (fun i j => val (be m i j)).
Notation wxyz := (wxyz prec emax).

(** ** At least eight bits of precision *)
Lemma eight_bits : u <= / 256 -> 0 < u /\ 0 < eta <= u / 128 /\ 512 <= bpow radix2 emax /\ 1 <= (1 + u) ^ 3 <= 1 + 151 / 50 * u /\ 1 <= (1 + u) ^ 4 <= 1 + 81 / 20 * u.
Proof.
  intros H. pose proof (u_pos prec) as U. pose proof (eta_pos prec emax) as Et. split; [auto|].
  assert (P8 : (8 <= prec)%Z). { change (/ 256) with (bpow radix2 (-8)) in H. unfold u_round in H. apply le_bpow in H. lia. }
  pose proof Hmax as X. unfold Prec_lt_emax in X.
  split; [split; auto|].
  - unfold eta_min, u_round. replace (bpow radix2 (- prec) / 128) with (bpow radix2 (- prec + -7)) by (rewrite bpow_plus; cbn; lra). apply bpow_le. lia.
  - split; [change 512 with (bpow radix2 9); apply bpow_le; lia|].
    assert (U2 : u * u <= / 256 * u) by (apply Rmult_le_compat_r; lra). assert (U3 : u * (u * u) <= / 256 * (u * u)) by (apply Rmult_le_compat_r; auto using sq_pos).
    assert (U4 : u * (u * (u * u)) <= / 256 * (u * (u * u))) by (apply Rmult_le_compat_r; auto; apply Rmult_le_pos; [lra|apply sq_pos]).
    assert (0 <= u * u) by apply sq_pos. assert (0 <= u * (u * u)) by (apply Rmult_le_pos; lra).
    split; (split; [apply one_le_pow; lra|]); cbn [pow]; lra.
Qed.
(** formulas of at most a few operations on numbers below two in absolute value *)
Fixpoint cap (e : formula) : nat :=
  match e with
  | FVar _ => 2 | FZero => 0 | FOne => 1
  | FAdd a b | FSub a b => 2 * (cap a + cap b)
  | FMul a b => 2 * (cap a * cap b) + 1
  | FNeg a => cap a
  | FOther _ _ => 0
  end.
Fixpoint low (e : formula) : Prop :=
  match e with
  | FVar _ | FZero | FOne => True
  | FAdd a b | FSub a b | FMul a b => low a /\ low b /\ (cap e < 512)%nat
  | FNeg a => low a
  | FOther _ _ => True
  end.
Lemma cap_high rho e : u <= / 256 -> (forall k, Rabs (rho k) <= 2) -> high prec emax rho e <= INR (cap e).
Proof.
  intros U256 R. destruct (eight_bits U256) as (U & [Et Eu] & _). pose proof (high_pos prec emax rho) as P.
  assert (Q : forall x y, 0 <= x -> x <= y -> (1 + u) * x <= 2 * y) by (intros x y Hx Hy; apply Rmult_le_compat; lra).
  induction e as [k| | |a IHa b IHb|a IHa b IHb|a IHa b IHb|a IHa|a IHa b IHb]; cbn [high cap].
  - eapply Rle_trans; [apply R|]. cbn. lra.
  - cbn. lra.
  - cbn. lra.
  - rewrite mult_INR, plus_INR. change (INR 2) with 2. pose proof (P a). pose proof (P b). apply Q; lra.
  - rewrite mult_INR, plus_INR. change (INR 2) with 2. pose proof (P a). pose proof (P b). apply Q; lra.
  - rewrite plus_INR, !mult_INR. change (INR 2) with 2. change (INR 1) with 1. pose proof (P a). pose proof (P b).
    assert ((1 + u) * (high prec emax rho a * high prec emax rho b) <= 2 * (INR (cap a) * INR (cap b))) by (apply Q; [apply Rmult_le_pos; auto|apply Rmult_le_compat; auto]). lra.
  - auto.
  - cbn. lra.
Qed.
Lemma low_small rho e : u <= / 256 -> (forall k, Rabs (rho k) <= 2) -> low e -> small prec emax rho e.
Proof.
  intros U256 R. destruct (eight_bits U256) as (_ & _ & B9 & _).
  assert (C : forall e, (cap e < 512)%nat -> high prec emax rho e < bpow radix2 emax).
  { intros e' H. eapply Rle_lt_trans; [apply cap_high; auto|]. apply lt_INR in H. replace (INR 512) with 512 in H by (rewrite INR_IZR_INZ; reflexivity). lra. }
  induction e; cbn [low small]; try tauto; intros (H1 & H2 & H3); repeat split; auto.
Qed.
Lemma low_fits (rho : nat -> F) e : u <= / 256 -> plain e -> low e -> (forall k, fin (rho k)) -> (forall k, Rabs (val (rho k)) <= 2) -> fin (feval rho e).
Proof. intros. apply formula_fits; auto. apply low_small; auto. Qed.
Lemma near_13 c s t d e : u <= / 256 -> (c <= 4)%nat -> 0 <= t <= 4 -> 0 <= s <= 25 / 8 -> near c s t d e -> Rabs (d - e) <= 13 * u.
Proof.
  intros U256 Hc Ht Hs N. destruct (eight_bits U256) as (U & [Et Eu] & _ & _ & [P1 P4]).
  assert (N4 : near 4 s t d e) by (revert N; apply near_up; auto; lra). eapply Rle_trans; [exact N4|].
  assert (((1 + u) ^ 4 - 1) * s <= 81 / 20 * u * (25 / 8)) by (apply Rmult_le_compat; lra).
  assert ((1 + u) ^ 4 * t <= 2 * 4) by (apply Rmult_le_compat; lra).
  assert (0 <= (1 + u) ^ 4 * t) by (apply Rmult_le_pos; lra).
  assert ((1 + u) ^ 4 * t * eta <= 2 * 4 * (u / 128)) by (apply Rmult_le_compat; lra). lra.
Qed.
Lemma sqrt3 : 0 <= sqrt 3 <= 17321 / 10000.
Proof. split; [apply sqrt_pos|]. apply sq_le; [lra|]. rewrite sqrt_sqrt; lra. Qed.
Lemma close_13 d0 d (A : nat -> nat -> R) A' : u <= / 256 -> near_orthogonal 3 d0 A -> d0 <= 17 / 64 -> d0 <= d -> (forall i j, (i < 3)%nat -> (j < 3)%nat -> Rabs (A' i j - A i j) <= 13 * u) -> near_orthogonal 3 (d + 53 * u) A'.
Proof.
  intros U256 NO D0 D H. destruct (eight_bits U256) as (U & _). destruct sqrt3 as [S0 S3].
  assert (R : forall i, (i < 3)%nat -> norm 3 (A i) <= 9 / 8). { intros i Hi. apply sq_le; [lra|]. pose proof (near_orthogonal_rows 3 d0 A i NO Hi). lra. }
  pose proof (near_orthogonal_close 3 d0 (13 * u) (9 / 8) A A' NO ltac:(lra) R H) as C. intros i j Hi Hj. eapply Rle_trans; [apply C; auto|].
  replace (INR 3) with 3 by (cbn; lra). assert (sqrt 3 * (13 * u) <= 17321 / 10000 * (13 * u)) by (apply Rmult_le_compat_r; lra).
  assert (13 * u * (13 * u) <= 169 / 256 * u) by (assert (u * u <= / 256 * u) by (apply Rmult_le_compat_r; lra); lra). lra.
Qed.

(** ** The matrix of a quaternion whose squared length is within [d] of 1 *)
Theorem quaternion_matrix_near_rotation : forall o (m m' : mx F) q d, u <= / 256 -> matrix_rotation_quaternion m o q = Ok m' -> all_fin prec emax q -> unit_within 4 d (wxyz o q) -> d <= / 16 ->
  (forall i j, (i < 3)%nat -> (j < 3)%nat -> fin (be m' i j) /\ Rabs (B m' i j - rotation (wxyz o q) i j) <= 13 * u) /\ near_orthogonal 3 (5 * d + 53 * u) (B m').
Proof.
  intros o m m' q d U256 E Fq Hu D16. assert (D0 : 0 <= d) by (eapply Rle_trans; [apply Rabs_pos|exact Hu]). set (a := wxyz o q) in *.
  assert (Hu' := Hu). unfold unit_within in Hu'. cbn [rsum] in Hu'. rewrite Rplus_0_l in Hu'. apply Rabs_le_inv in Hu'.
  pose proof (fun i => sq_pos (a i)) as SP. pose proof (SP 0%nat). pose proof (SP 1%nat). pose proof (SP 2%nat). pose proof (SP 3%nat).
  assert (Fin : forall i j, (i < 3)%nat -> (j < 3)%nat -> fin (be m' i j)).
  { pose (Dg := fun k l => FSub (FSub FOne (FMul (FVar k) (FAdd (FVar k) (FVar k)))) (FMul (FVar l) (FAdd (FVar l) (FVar l)))).
    pose (X := fun (op : formula -> formula -> formula) k l p r => op (FMul (FVar k) (FAdd (FVar l) (FVar l))) (FMul (FVar p) (FAdd (FVar r) (FVar r)))).
    pose (Ef := fun i j => match i, j with
      | 0%nat, 0%nat => Dg 2%nat 3%nat | 0%nat, 1%nat => X FAdd 1 2 0 3 | 0%nat, _ => X FSub 3 1 0 2
      | 1%nat, 0%nat => X FSub 1 2 0 3 | 1%nat, 1%nat => Dg 3%nat 1%nat | 1%nat, _ => X FAdd 2 3 0 1
      | _, 0%nat => X FAdd 3 1 0 2 | _, 1%nat => X FSub 2 3 0 1 | _, _ => Dg 1%nat 2%nat end%nat).
    intros i j Hi Hj. replace (be m' i j) with (feval (env_q prec emax o q q) (Ef i j)).
    - apply low_fits; auto.
      + revert i Hi. apply cases3; revert j Hj; apply cases3; cbn; tauto.
      + revert i Hi. apply cases3; revert j Hj; apply cases3; cbn; repeat split; lia.
      + intros k. unfold env_q. destruct (k <? 4)%nat; apply Fq.
      + assert (A2 : forall i, Rabs (a i) <= 2).
        { intros k. apply sq_le; [lra|]. rewrite <- Rabs_mult, Rabs_pos_eq by auto. assert (Z : forall k, a k * a k <= 17 / 16) by (intros [|[|[|z]]]; [lra..|change (a (S (S (S z)))) with (a 3%nat); lra]). pose proof (Z k). lra. }
        intros k. unfold env_q. destruct (k <? 4)%nat; apply A2.
    - unfold matrix_rotation_quaternion in E. apply check_ok, ok_inj in E. subst m'. revert i Hi. apply cases3; revert j Hj; apply cases3; destruct m as [rr cc [|] f]; reflexivity. }
  assert (Near : forall i j, (i < 3)%nat -> (j < 3)%nat -> Rabs (B m' i j - rotation a i j) <= 13 * u).
  { intros i j Hi Hj. destruct (rotation_quaternion_accuracy prec emax o m m' q E i j Hi Hj (Fin i j Hi Hj)) as (s & N & Hs). apply (near_13 4 s 2); auto; try lra. fold a in Hs. lra. }
  split; [auto|]. apply (close_13 (4 * d * (1 + d)) (5 * d) (rotation a)); auto.
  - apply rotation_near_orthogonal. exact Hu.
  - assert (d * (1 + d) <= / 16 * (17 / 16)) by (apply Rmult_le_compat; lra). lra.
  - assert (d * (1 + d) <= d * (17 / 16)) by (apply Rmult_le_compat_l; lra). lra.
Qed.
(** ** The matrix of an axis and an angle, for the cosine and sine the math library returns *)
Definition env_aa (c s : F) (n : list F) (k : nat) : F := match k with 0%nat => c | 1%nat => s | S (S k) => if (k <? 3)%nat then el n k else zero end.
Theorem axis_angle_matrix_near_rotation : forall (MO : MathOps F) (m m' : mx F) axis angle e d, u <= / 256 -> matrix_rotation_axis_angle m axis angle = Ok m' ->
  let c := mcos angle : F in let s := msin angle : F in fin c -> fin s -> (forall k, (k < 3)%nat -> fin (el axis k)) ->
  Rabs (val c * val c + val s * val s - 1) <= e -> e <= / 64 -> unit_within 3 d (vals axis) -> d <= / 64 ->
  (forall i j, (i < 3)%nat -> (j < 3)%nat -> fin (be m' i j) /\ Rabs (B m' i j - turn (val c) (val s) (vals axis) i j) <= 13 * u) /\ near_orthogonal 3 (3 * e + 6 * d + 53 * u) (B m').
Proof.
  intros MO m m' axis angle e d U256 E c s Fc Fs Fn He E64 Hu D64. assert (D0 : 0 <= d) by (eapply Rle_trans; [apply Rabs_pos|exact Hu]). assert (E0 : 0 <= e) by (eapply Rle_trans; [apply Rabs_pos|exact He]).
  set (a := vals axis) in *. assert (Hu' := Hu). unfold unit_within in Hu'. cbn [rsum] in Hu'. rewrite Rplus_0_l in Hu'. apply Rabs_le_inv in Hu'. assert (He' := He). apply Rabs_le_inv in He'.
  pose proof (fun i => sq_pos (a i)) as SP. pose proof (SP 0%nat). pose proof (SP 1%nat). pose proof (SP 2%nat). pose proof (sq_pos (val c)). pose proof (sq_pos (val s)).
  assert (AB : forall x y, 0 <= y -> x * x <= y * y -> Rabs x <= y) by (intros x y Hy H'; apply sq_le; auto; rewrite <- Rabs_mult, Rabs_pos_eq by apply sq_pos; auto).
  assert (C1 : Rabs (val c) <= 101 / 100) by (apply AB; lra). assert (S1 : Rabs (val s) <= 101 / 100) by (apply AB; lra).
  assert (A1 : forall k, (k < 3)%nat -> Rabs (a k) <= 101 / 100) by (apply cases3; apply AB; lra).
  pose (om := FSub FOne (FVar 0)). pose (oc := fun k l => FMul (FVar (2 + k)) (FMul (FVar (2 + l)) om)). pose (sn := fun k => FMul (FVar (2 + k)) (FVar 1)).
  pose (Ef := fun i j => match i, j with
      | 0%nat, 0%nat => FAdd (oc 0 0) (FVar 0) | 0%nat, 1%nat => FAdd (oc 0 1) (sn 2) | 0%nat, _ => FSub (oc 2 0) (sn 1)
      | 1%nat, 0%nat => FSub (oc 0 1) (sn 2) | 1%nat, 1%nat => FAdd (oc 1 1) (FVar 0) | 1%nat, _ => FAdd (oc 1 2) (sn 0)
      | _, 0%nat => FAdd (oc 2 0) (sn 1) | _, 1%nat => FSub (oc 1 2) (sn 0) | _, _ => FAdd (oc 2 2) (FVar 0) end%nat).
  set (rho := env_aa c s axis).
  assert (Ev : forall i j, (i < 3)%nat -> (j < 3)%nat -> be m' i j = feval rho (Ef i j)).
  { unfold matrix_rotation_axis_angle in E. apply check_ok, check_ok, ok_inj in E. subst m'. intros i j Hi Hj. revert i Hi. apply cases3; revert j Hj; apply cases3; destruct m as [rr cc [|] f]; reflexivity. }
  assert (Pl : forall i j, (i < 3)%nat -> (j < 3)%nat -> plain (Ef i j)) by (intros i j Hi Hj; revert i Hi; apply cases3; revert j Hj; apply cases3; cbn; tauto).
  assert (Fin : forall i j, (i < 3)%nat -> (j < 3)%nat -> fin (be m' i j)).
  { intros i j Hi Hj. rewrite Ev by auto. apply low_fits; auto.
    - revert i Hi. apply cases3; revert j Hj; apply cases3; cbn; repeat split; lia.
    - intros [|[|k]]; unfold rho, env_aa; auto. destruct (Nat.ltb_spec k 3); [auto|reflexivity].
    - intros [|[|k]]; unfold rho, env_aa; try lra. destruct (Nat.ltb_spec k 3); [|cbn; rewrite Rabs_R0; lra]. pose proof (A1 k ltac:(auto)). unfold a, PropFloat.vals in *. unfold el. lra. }
  assert (Near : forall i j, (i < 3)%nat -> (j < 3)%nat -> Rabs (B m' i j - turn (val c) (val s) a i j) <= 13 * u).
  { intros i j Hi Hj. pose proof (Fin i j Hi Hj) as Fij. rewrite Ev in Fij by auto. pose proof (formula_near prec emax rho (Ef i j) (Pl i j Hi Hj) Fij) as N. cbv zeta in N. rewrite <- Ev in N by auto.
    set (r := fun k => val (rho k)) in N. assert (Rv : r 0%nat = val c /\ r 1%nat = val s /\ r 2%nat = a 0%nat /\ r 3%nat = a 1%nat /\ r 4%nat = a 2%nat) by (repeat split).
    destruct Rv as (R0 & R1 & R2 & R3 & R4).
    assert (Ex : feval (T:=R) r (Ef i j) = turn (val c) (val s) a i j).
    { clear N Fij. revert i Hi. apply cases3; revert j Hj; apply cases3; cbn [Ef oc sn om feval plus add sub mul one ROps turn Nat.eqb]; rewrite ?R0, ?R1, ?R2, ?R3, ?R4; unfold turn; cbn [Nat.eqb]; ring. }
    rewrite Ex in N. assert (AP : forall k l, (k < 3)%nat -> (l < 3)%nat -> (k <> l)%nat -> 0 <= Rabs (a k) * Rabs (a l) <= 65 / 128).
    { intros k l Hk Hl Nkl. rewrite <- Rabs_mult. split; [apply Rabs_pos|]. eapply Rle_trans; [apply abs_prod|]. destruct k as [|[|[|k]]]; [..|lia]; (destruct l as [|[|[|l]]]; [..|lia]); try lra; congruence. }
    assert (AD : forall k, (k < 3)%nat -> 0 <= Rabs (a k) * Rabs (a k) <= 65 / 64) by (intros k Hk; rewrite <- Rabs_mult; split; [apply Rabs_pos|]; rewrite Rabs_pos_eq by auto; revert k Hk; apply cases3; lra).
    pose proof (Rabs_pos (val c)) as C0. pose proof (Rabs_pos (val s)) as S0.
    assert (OD : forall k l n, (k < 3)%nat -> (l < 3)%nat -> (n < 3)%nat -> (k <> l)%nat -> Rabs (a k) * (Rabs (a l) * (1 + Rabs (val c))) + Rabs (a n) * Rabs (val s) <= 25 / 8).
    { intros k l n Hk Hl Hn Nkl. assert (Rabs (a k) * Rabs (a l) * (1 + Rabs (val c)) <= 65 / 128 * (201 / 100)) by (apply Rmult_le_compat; try lra; apply AP; auto).
      assert (Rabs (a n) * Rabs (val s) <= 101 / 100 * (101 / 100)) by (apply Rmult_le_compat; auto using Rabs_pos). lra. }
    assert (OO : forall k, (k < 3)%nat -> Rabs (a k) * (Rabs (a k) * (1 + Rabs (val c))) + Rabs (val c) <= 25 / 8).
    { intros k Hk. assert (Rabs (a k) * Rabs (a k) * (1 + Rabs (val c)) <= 65 / 64 * (201 / 100)) by (apply Rmult_le_compat; try lra; apply AD; auto). lra. }
    apply (near_13 (steps (Ef i j)) (size r (Ef i j)) (tiny eta r (Ef i j))); auto.
    - clear. revert i. destruct i as [|[|i]]; destruct j as [|[|j]]; cbn; lia.
    - split; [apply tiny_pos|]. clear N Fij Ex. pose proof (A1 0 ltac:(lia))%nat. pose proof (A1 1 ltac:(lia))%nat. pose proof (A1 2 ltac:(lia))%nat.
      revert i Hi. apply cases3; revert j Hj; apply cases3; cbn [Ef oc sn om tiny size plus]; rewrite ?R0, ?R1, ?R2, ?R3, ?R4; lra.
    - split; [apply size_pos|]. clear N Fij Ex. revert i Hi. apply cases3; revert j Hj; apply cases3; cbn [Ef oc sn om size plus]; rewrite ?R0, ?R1, ?R2, ?R3, ?R4; first [apply OO; lia|apply OD; lia]. }
  split; [auto|]. apply (close_13 (3 * e + 6 * d) (3 * e + 6 * d) (turn (val c) (val s) a)); auto; try lra. apply turn_near_orthogonal; auto; lra.
Qed.

(** ** Lengths and distances *)
Lemma columns_frob d (A : nat -> nat -> R) : near_orthogonal 3 d A -> d <= / 16 -> frob 3 A <= 179 / 100.
Proof. intros NO D. apply sq_le; [lra|]. pose proof (near_orthogonal_frob 3 d A NO) as X. replace (INR 3) with 3 in X by (cbn; lra). lra. Qed.
Lemma absolute_sums A v : norm 3 (fun i => rsum 3 (fun k => Rabs (A k i * v k))) <= frob 3 A * norm 3 v.
Proof.
  rewrite <- (frob_transpose 3 A). unfold frob. rewrite Rmult_comm, <- (Rabs_pos_eq (norm 3 v)) at 1 by apply norm_pos. rewrite <- norm_scal. apply norm_le. intros i Hi. rewrite Rabs_pos_eq by (apply rsum_nonneg; intros; apply Rabs_pos).
  rewrite (rsum_ext 3 _ (fun k => Rabs (A k i) * Rabs (v k))) by (intros; apply Rabs_mult). eapply Rle_trans; [apply Rle_abs|]. eapply Rle_trans; [apply cauchy|]. rewrite (norm_abs 3 (fun k => A k i)), (norm_abs 3 v). lra.
Qed.
Theorem rotated_vector_length : forall (m : mx F) v r d, u <= / 256 -> transform_vector m v = Ok r -> near_orthogonal 3 d (B m) -> 0 <= d <= / 16 ->
  (forall i j, (i < 3)%nat -> (j < 3)%nat -> fin (be m i j)) -> (forall k, (k < 3)%nat -> fin (el v k)) -> 2 * norm 3 (vals v) + 4 * eta < bpow radix2 emax ->
  (forall i, (i < 3)%nat -> fin (el r i)) /\ Rabs (norm 3 (vals r) - norm 3 (vals v)) <= (3 * d + 6 * u) * norm 3 (vals v) + 6 * eta.
Proof.
  intros m v r d U256 E NO [D0 D] Fm Fv Fit. destruct (eight_bits U256) as (U & [Et Eu] & B9 & [P1 P3] & _). set (A := B m) in *. set (L := norm 3 (vals v)) in *. pose proof (norm_pos 3 (vals v)) as L0. fold L in L0.
  assert (FA : frob 3 A <= 179 / 100) by (apply (columns_frob d); auto). pose proof (absolute_sums A (vals v)) as AS. fold L in AS.
  assert (AL : norm 3 (fun i => rsum 3 (fun k => Rabs (A k i * vals v k))) <= 179 / 100 * L) by (eapply Rle_trans; [exact AS|]; apply Rmult_le_compat_r; auto).
  assert (Fin : forall i, (i < 3)%nat -> fin (el r i)).
  { intros i Hi. pose (e := FAdd (FAdd (FMul (FVar (0 + i)) (FVar 16)) (FMul (FVar (4 + i)) (FVar 17))) (FMul (FVar (8 + i)) (FVar 18))).
    pose (rho := fun k => if (k <? 16)%nat then if (k / 4 <? 3)%nat then if (k mod 4 <? 3)%nat then be m (k / 4) (k mod 4) else zero else zero else if (k - 16 <? 3)%nat then el v (k - 16) else (zero : F)).
    assert (Rv : rho (0 + i)%nat = be m 0 i /\ rho (4 + i)%nat = be m 1 i /\ rho (8 + i)%nat = be m 2 i /\ rho 16%nat = el v 0 /\ rho 17%nat = el v 1 /\ rho 18%nat = el v 2) by (clear -Hi; revert i Hi; apply cases3; repeat split).
    destruct Rv as (R0 & R1 & R2 & R3 & R4 & R5).
    replace (el r i) with (feval rho e).
    - apply flat_fits; auto; [cbn; tauto| |].
      + intros k. unfold rho. destruct (k <? 16)%nat; [destruct (Nat.ltb_spec (k / 4) 3); [destruct (Nat.ltb_spec (k mod 4) 3); auto|]|destruct (Nat.ltb_spec (k - 16) 3); auto]; reflexivity.
      + cbv zeta. cbn [e steps size tiny]. rewrite R0, R1, R2, R3, R4, R5. cbn [Nat.max]. eapply Rle_lt_trans; [|exact Fit].
        pose proof (norm_term 3 (fun i => rsum 3 (fun k => Rabs (A k i * vals v k))) i Hi) as T. cbn beta in T. rewrite Rabs_pos_eq in T by (apply rsum_nonneg; intros; apply Rabs_pos). cbn [rsum] in T. rewrite !Rabs_mult in T. unfold A, PropFloat.vals in T. unfold el. set (S3 := _ + _ + _ : R) in *.
        match goal with |- _ * (?s + _) <= _ => assert (SS : s <= 179 / 100 * L) by (eapply Rle_trans; [|exact AL]; eapply Rle_trans; [|exact T]; unfold S3; lra) end.
        match goal with |- _ * (?s + _) <= _ => assert (S0 : 0 <= s) by (repeat apply Rplus_le_le_0_compat; apply Rmult_le_pos; apply Rabs_pos); assert ((1 + u) ^ 3 * (s + 3 * eta) <= (1 + 151 / 50 * / 256) * (179 / 100 * L + 3 * eta)) by (apply Rmult_le_compat; lra) end.
        match goal with |- (1 + u) ^ ?n * (_ + ?t) <= _ => change n with 3%nat; replace t with (3 * eta) by ring end. lra.
    - unfold transform_vector in E. apply check_ok, check_ok, ok_inj in E. subst r. unfold e. cbn [feval]. rewrite R0, R1, R2, R3, R4, R5. clear -Hi. revert i Hi. apply cases3; reflexivity. }
  split; [auto|]. destruct (transform_vector_accuracy prec emax m v r E) as [Lr Acc].
  set (X := fun j => rsum 3 (fun k => vals v k * A k j)).
  pose proof (almost_isometry 3 d A (vals v) NO D0) as Iso. fold X L in Iso. replace (INR 3) with 3 in Iso by (cbn; lra).
  assert (Dist : norm 3 (fun i => vals r i - X i) <= 6 * u * L + 6 * eta).
  { apply Rle_trans with (norm 3 (fun i => (151 / 50 * u) * rsum 3 (fun k => Rabs (A k i * vals v k)) + 304 / 100 * eta)).
    - apply norm_le. intros i Hi. pose proof (Acc i Hi (Fin i Hi)) as N. unfold FloatExpr.near in N. unfold X. rewrite (rsum_ext 3 (fun k => vals v k * A k i) (fun k => A k i * vals v k)) by (intros; ring).
      eapply Rle_trans; [exact N|]. change (rsum 3 (fun k => Rabs (val (be m k i) * vals v k))) with (rsum 3 (fun k => Rabs (A k i * vals v k))). assert (0 <= rsum 3 (fun k => Rabs (A k i * vals v k))) by (apply rsum_nonneg; intros; apply Rabs_pos).
      assert (((1 + u) ^ 3 - 1) * rsum 3 (fun k => Rabs (A k i * vals v k)) <= 151 / 50 * u * rsum 3 (fun k => Rabs (A k i * vals v k))) by (apply Rmult_le_compat_r; lra).
      assert ((1 + u) ^ 3 * 3 * eta <= 304 / 100 * eta). { apply Rmult_le_compat_r; [lra|]. lra. } lra.
    - eapply Rle_trans; [apply norm_triangle|]. rewrite norm_scal, norm_const by lra. rewrite Rabs_pos_eq by lra. replace (INR 3) with 3 by (cbn; lra). destruct sqrt3 as [S0 S3].
      assert (151 / 50 * u * norm 3 (fun i => rsum 3 (fun k => Rabs (A k i * vals v k))) <= 151 / 50 * u * (179 / 100 * L)) by (apply Rmult_le_compat_l; lra).
      assert (sqrt 3 * (304 / 100 * eta) <= 17321 / 10000 * (304 / 100 * eta)) by (apply Rmult_le_compat_r; lra). assert (0 <= u * L) by (apply Rmult_le_pos; lra). lra. }
  pose proof (norm_dist 3 (vals r) X) as ND. replace (norm 3 (vals r) - L) with ((norm 3 (vals r) - norm 3 X) + (norm 3 X - L)) by ring. eapply Rle_trans; [apply Rabs_triang|]. lra.
Qed.

Theorem moved_points_distance : forall (m : mx F) p q rp rq d, u <= / 256 -> transform_point m p = Ok rp -> transform_point m q = Ok rq -> near_orthogonal 3 d (B m) -> 0 <= d <= / 16 ->
  (forall i, (i < 3)%nat -> fin (el rp i) /\ fin (el rq i)) ->
  let dist v w := norm 3 (fun i => vals v i - vals w i) in
  Rabs (dist rp rq - dist p q) <= 3 * d * dist p q + 8 * u * (norm 3 (vals p) + norm 3 (vals q)) + 9 * u * norm 3 (fun i => val (be m 3 i)) + 12 * eta.
Proof.
  intros m p q rp rq d U256 Ep Eq NO [D0 D] Fin dist. destruct (eight_bits U256) as (U & [Et Eu] & B9 & _ & [P1 P4]). set (A := B m) in *. set (t := fun i => val (be m 3 i)).
  assert (FA : frob 3 A <= 179 / 100) by (apply (columns_frob d); auto).
  assert (One : forall v r, transform_point m v = Ok r -> (forall i, (i < 3)%nat -> fin (el r i)) -> norm 3 (fun i => vals r i - (rsum 3 (fun k => vals v k * A k i) + t i)) <= 8 * u * norm 3 (vals v) + 9 / 2 * u * norm 3 t + 6 * eta).
  { intros v r E Fr. destruct (transform_point_accuracy prec emax m v r E) as [Lr Acc]. pose proof (norm_pos 3 (vals v)) as L0.
    apply Rle_trans with (norm 3 (fun i => ((81 / 20 * u) * rsum 3 (fun k => Rabs (A k i * vals v k)) + (81 / 20 * u) * Rabs (t i)) + 305 / 100 * eta)).
    - apply norm_le. intros i Hi. pose proof (Acc i Hi (Fr i Hi)) as N. unfold FloatExpr.near in N. rewrite (rsum_ext 3 (fun k => vals v k * A k i) (fun k => A k i * vals v k)) by (intros; ring).
      eapply Rle_trans; [exact N|]. change (rsum 3 (fun k => Rabs (val (be m k i) * vals v k))) with (rsum 3 (fun k => Rabs (A k i * vals v k))). change (val (be m 3 i)) with (t i). set (s := rsum 3 (fun k => Rabs (A k i * vals v k))).
      assert (0 <= s) by (apply rsum_nonneg; intros; apply Rabs_pos). pose proof (Rabs_pos (t i)).
      assert (((1 + u) ^ 4 - 1) * (s + Rabs (t i)) <= 81 / 20 * u * (s + Rabs (t i))) by (apply Rmult_le_compat_r; lra).
      assert ((1 + u) ^ 4 * 3 * eta <= 305 / 100 * eta). { apply Rmult_le_compat_r; lra. } lra.
    - eapply Rle_trans; [apply norm_triangle|]. eapply Rle_trans; [apply Rplus_le_compat_r, norm_triangle|]. rewrite !norm_scal, norm_const by lra. rewrite (norm_abs 3 t), (Rabs_pos_eq (81 / 20 * u)), (Rabs_pos_eq (305 / 100)) by lra. replace (INR 3) with 3 by (cbn; lra). destruct sqrt3 as [S0 S3].
      assert (AL : norm 3 (fun i => rsum 3 (fun k => Rabs (A k i * vals v k))) <= 179 / 100 * norm 3 (vals v)) by (eapply Rle_trans; [apply absolute_sums|]; apply Rmult_le_compat_r; auto).
      assert (81 / 20 * u * norm 3 (fun i => rsum 3 (fun k => Rabs (A k i * vals v k))) <= 81 / 20 * u * (179 / 100 * norm 3 (vals v))) by (apply Rmult_le_compat_l; lra).
      assert (sqrt 3 * (305 / 100 * eta) <= 17321 / 10000 * (305 / 100 * eta)) by (apply Rmult_le_compat_r; lra). assert (0 <= u * norm 3 (vals v)) by (apply Rmult_le_pos; lra).
      pose proof (norm_pos 3 t). assert (0 <= u * norm 3 t) by (apply Rmult_le_pos; lra). lra. }
  pose proof (One p rp Ep (fun i Hi => proj1 (Fin i Hi))) as Op. pose proof (One q rq Eq (fun i Hi => proj2 (Fin i Hi))) as Oq.
  set (X := fun j => rsum 3 (fun k => (vals p k - vals q k) * A k j)).
  pose proof (almost_isometry 3 d A (fun k => vals p k - vals q k) NO D0) as Iso. cbv beta in Iso. fold X in Iso. replace (INR 3) with 3 in Iso by (cbn; lra).
  assert (ND : norm 3 (fun i => (vals rp i - vals rq i) - X i) <= 8 * u * (norm 3 (vals p) + norm 3 (vals q)) + 9 * u * norm 3 t + 12 * eta).
  { rewrite (norm_ext 3 _ (fun i => (vals rp i - (rsum 3 (fun k => vals p k * A k i) + t i)) + (-1) * (vals rq i - (rsum 3 (fun k => vals q k * A k i) + t i)))) by (intros; unfold X; cbn [rsum]; ring).
    eapply Rle_trans; [apply norm_triangle|]. rewrite norm_scal. replace (Rabs (-1)) with 1 by (rewrite Rabs_left; lra). lra. }
  pose proof (norm_dist 3 (fun i => vals rp i - vals rq i) X) as N2. cbv beta in N2. unfold dist. fold t.
  match goal with |- Rabs (?a - ?b) <= _ => replace (a - b) with ((a - norm 3 X) + (norm 3 X - b)) by ring end. eapply Rle_trans; [apply Rabs_triang|]. lra.
Qed.

(** ** A history of products m = m * b *)
Fixpoint product_chain (bs : basis) (ly : layout) (k : mkind) (m : fmat F) (l : list (rmat F)) : out (fmat F) :=
  match l with
  | [] => Ok m
  | b :: l => p <- product (of_fmat m) b bs ly k ;; m' <- m_assign m (XMat p) ;; product_chain bs ly k m' l
  end.
Definition exact_chain (n : nat) (A : nat -> nat -> R) (l : list (nat -> nat -> R)) : nat -> nat -> R := fold_left (mmul n) l A.
(** relative error of one product, and its underflow part, in the Frobenius norm *)
Definition drift (n : nat) : R := ((1 + u) ^ n - 1) * sqrt (INR n).
Definition floor_ (n : nat) : R := INR n * (INR n * (1 + u) ^ n * eta).
Notation V M := (fun i j => val (M i j)).
Definition is_factor (n : nat) (beta : R) (b : rmat F) (Bm : nat -> nat -> F) : Prop :=
  reads b n n Bm /\ (forall i j, (i < n)%nat -> (j < n)%nat -> fin (Bm i j)) /\ stretches n beta (V Bm).
Lemma frob_entry n M i j : (i < n)%nat -> (j < n)%nat -> Rabs (M i j) <= frob n M.
Proof. intros Hi Hj. eapply Rle_trans; [apply (norm_term n (M i) j Hj)|]. eapply Rle_trans; [apply Rle_abs|]. apply (norm_term n (fun i => norm n (M i)) i Hi). Qed.
Lemma products_drift n bs ly k beta : (0 < n)%nat -> 1 <= beta -> forall l Bs (m : fmat F) M A H S, Forall2 (is_factor n beta) l Bs -> is_mat m n n M -> can_take m n n -> (forall i j, (i < n)%nat -> (j < n)%nat -> fin (M i j)) ->
  frob n A <= S -> frob n (fun i j => val (M i j) - A i j) <= H - S -> 0 <= H ->
  let N := length l in let b := beta * (1 + drift n) in
  (1 + u) ^ n * (sqrt (INR n) * (b ^ N * (H + INR N * floor_ n))) + INR n * (1 + u) ^ n * eta < bpow radix2 emax ->
  exists m' M', product_chain bs ly k m l = Ok m' /\ same_type m m' /\ is_mat m' n n M' /\ (forall i j, (i < n)%nat -> (j < n)%nat -> fin (M' i j)) /\
    frob n (fun i j => val (M' i j) - exact_chain n A (map (fun Bm => V Bm) Bs) i j) <= b ^ N * (H + INR N * floor_ n) - beta ^ N * S.
Proof.
  intros Hn B1. pose proof (u_pos prec) as U. pose proof (eta_pos prec emax) as Et. pose proof (one_le_pow (1 + u) n ltac:(lra)) as Pn. pose proof (sqrt_pos (INR n)) as Sn. pose proof (pos_INR n) as In.
  assert (K0 : 0 <= drift n) by (apply Rmult_le_pos; lra). assert (T0 : 0 <= floor_ n) by (apply Rmult_le_pos; [auto|]; apply Rmult_le_pos; [apply Rmult_le_pos; lra|lra]).
  set (b := beta * (1 + drift n)). assert (Bb : beta <= b) by (unfold b; assert (0 <= beta * drift n) by (apply Rmult_le_pos; lra); lra).
  induction l as [|f l IH]; intros Bs m M A H S Hl Hm Ct Fm HA Hd H0; inversion Hl as [|f' Bm l' Bs' Hf Hl' E1 E2]; subst; cbn [length map].
  - cbv zeta. intros _. exists m, M. split; [reflexivity|]. split; [repeat split|]. split; [auto|]. split; [auto|]. cbn. lra.
  - cbv zeta in IH |- *. intros Fit. set (N := length l) in *. destruct Hf as (Rf & Ff & Sf).
    assert (Lm : frob n (V M) <= H).
    { apply Rle_trans with (frob n (fun i j => val (M i j) - A i j) + frob n A); [|lra]. rewrite (frob_ext n (V M) (fun i j => (val (M i j) - A i j) + A i j)) by (intros; ring). apply (frob_triangle n (fun i j => val (M i j) - A i j) A). }
    assert (LB : frob n (V Bm) <= sqrt (INR n) * beta) by (apply stretches_size; auto; lra).
    pose proof (pos_INR N) as PN. assert (BN : 1 <= b ^ N) by (apply one_le_pow; lra). assert (NT : 0 <= INR N * floor_ n) by (apply Rmult_le_pos; auto).
    assert (ST : b ^ N * (b * H + floor_ n + INR N * floor_ n) <= b ^ Datatypes.S N * (H + INR (Datatypes.S N) * floor_ n)).
    { cbn [pow]. rewrite S_INR. replace (b * b ^ N * (H + (INR N + 1) * floor_ n)) with (b ^ N * (b * (H + (INR N + 1) * floor_ n))) by ring. apply Rmult_le_compat_l; [lra|].
      assert (0 <= (b - 1) * ((INR N + 1) * floor_ n)) by (apply Rmult_le_pos; [lra|apply Rmult_le_pos; lra]). lra. }
    assert (BIG : beta * H <= b ^ N * (b * H + floor_ n + INR N * floor_ n)).
    { assert (beta * H <= b * H) by (apply Rmult_le_compat_r; auto). assert (0 <= b * H) by (apply Rmult_le_pos; lra).
      apply Rle_trans with (1 * (b * H + floor_ n + INR N * floor_ n)); [lra|apply Rmult_le_compat_r; lra]. }
    pose (P := fun i j => rsum n (fun k => Rabs (val (M i k) * val (Bm k j)))).
    assert (PF : frob n P <= sqrt (INR n) * (beta * H)).
    { eapply Rle_trans; [apply (frob_product n (V M) (V Bm))|]. replace (sqrt (INR n) * (beta * H)) with (H * (sqrt (INR n) * beta)) by ring. apply Rmult_le_compat; auto; apply norm_pos. }
    assert (P0 : forall i j, 0 <= P i j) by (intros; apply rsum_nonneg; intros; apply Rabs_pos).
    destruct (product_accuracy prec emax (of_fmat m) f n n n M Bm bs ly k (reads_of_fmat _ _ _ _ Hm) Rf Hn) as (p & Mp & Ep & Ip & Acc).
    assert (Fp : forall i j, (i < n)%nat -> (j < n)%nat -> fin (Mp i j)).
    { intros i j Hi Hj. apply Acc; auto. unfold fits. eapply Rle_lt_trans; [|exact Fit]. apply Rplus_le_compat_r. apply Rmult_le_compat_l; [lra|].
      fold (P i j). pose proof (frob_entry n P i j Hi Hj) as X. rewrite Rabs_pos_eq in X by auto. eapply Rle_trans; [exact X|]. eapply Rle_trans; [exact PF|]. apply Rmult_le_compat_l; auto. eapply Rle_trans; [exact BIG|exact ST]. }
    destruct (m_assign_l m (XMat p) n n Mp) as (m1 & Em & Sm & Im); auto.
    { destruct Ip as (X1 & X2 & _). cbn. rewrite X1, X2. reflexivity. }
    { intros i j Hi Hj. cbn. apply Ip; auto. }
    { cbn. auto. } { left. cbn. auto. }
    destruct (IH Bs' m1 Mp (mmul n A (V Bm)) (b * H + floor_ n) (beta * S)) as (m' & M' & Ec & Sc & Ic & Fc & Dc); auto.
    + unfold can_take in *. destruct Sm as (X1 & X2 & X3). rewrite X3. destruct Im as (Y1 & Y2 & _). destruct (fk m); rewrite ?Y1, ?Y2; auto.
    + eapply Rle_trans; [apply (stretches_frob n beta (V Bm) A); auto; lra|]. apply Rmult_le_compat_l; lra.
    + eapply Rle_trans; [apply (frob_dist_triangle n (V Mp) (mmul n (V M) (V Bm)) (mmul n A (V Bm)))|].
      assert (A1 : frob n (fun i j => val (Mp i j) - mmul n (V M) (V Bm) i j) <= drift n * (beta * H) + floor_ n).
      { apply Rle_trans with (frob n (fun i j => ((1 + u) ^ n - 1) * P i j + INR n * (1 + u) ^ n * eta)).
        - apply frob_le. intros i j Hi Hj. apply Acc; auto.
        - eapply Rle_trans; [apply (frob_triangle n (fun i j => ((1 + u) ^ n - 1) * P i j) (fun i j => INR n * (1 + u) ^ n * eta))|]. rewrite frob_scal, Rabs_pos_eq, frob_const by (lra || (apply Rmult_le_pos; [apply Rmult_le_pos; lra|lra])).
          unfold drift, floor_. apply Rplus_le_compat_r. rewrite Rmult_assoc. apply Rmult_le_compat_l; lra. }
      assert (A2 : frob n (fun i j => mmul n (V M) (V Bm) i j - mmul n A (V Bm) i j) <= beta * (H - S)).
      { rewrite (frob_ext n _ (mmul n (fun i k => val (M i k) - A i k) (V Bm))) by (intros; symmetry; apply mmul_minus). eapply Rle_trans; [apply (stretches_frob n beta); auto; lra|]. apply Rmult_le_compat_l; lra. }
      unfold b. lra.
    + assert (0 <= b * H) by (apply Rmult_le_pos; lra). lra.
    + eapply Rle_lt_trans; [|exact Fit]. apply Rplus_le_compat_r. apply Rmult_le_compat_l; [lra|]. apply Rmult_le_compat_l; auto.
    + exists m', M'. cbn [product_chain]. rewrite Ep. cbn [bind]. rewrite Em. cbn [bind]. split; [exact Ec|]. split; [eapply same_type_trans; eauto|]. split; [auto|]. split; [auto|].
      eapply Rle_trans; [exact Dc|]. cbn [pow] in *. lra.
Qed.
(** factors within [d] of orthogonal: the error after N factors, in the Frobenius norm *)
Theorem orthogonal_products_drift : forall n bs ly k d l Bs (m : fmat F) M, (0 < n)%nat -> 0 <= d ->
  Forall2 (fun b Bm => reads b n n Bm /\ (forall i j, (i < n)%nat -> (j < n)%nat -> fin (Bm i j)) /\ near_orthogonal n d (V Bm)) l Bs ->
  is_mat m n n M -> can_take m n n -> (forall i j, (i < n)%nat -> (j < n)%nat -> fin (M i j)) ->
  let N := length l in let L := frob n (V M) in let beta := 1 + INR n * d in let bound := (beta * (1 + drift n)) ^ N * (L + INR N * floor_ n) in
  (1 + u) ^ n * (sqrt (INR n) * bound) + INR n * (1 + u) ^ n * eta < bpow radix2 emax ->
  exists m' M', product_chain bs ly k m l = Ok m' /\ same_type m m' /\ is_mat m' n n M' /\ (forall i j, (i < n)%nat -> (j < n)%nat -> fin (M' i j)) /\
    frob n (fun i j => val (M' i j) - exact_chain n (V M) (map (fun Bm => V Bm) Bs) i j) <= bound - beta ^ N * L.
Proof.
  intros n bs ly k d l Bs m M Hn D0 Hl Hm Ct Fm N L beta bound Fit. assert (B1 : 1 <= beta) by (unfold beta; assert (0 <= INR n * d) by (apply Rmult_le_pos; auto using pos_INR); lra). apply (products_drift n bs ly k beta Hn B1 l Bs m M (V M) L L); auto.
  - clear -Hl D0. induction Hl as [|b Bm l Bs (X1 & X2 & X3) Hl IH]; constructor; auto. split; [auto|]. split; [auto|]. apply almost_stretches; auto.
  - apply Rle_refl.
  - rewrite (frob_ext n _ (fun _ _ => 0)) by (intros; ring). rewrite frob_const by lra. fold L. lra.
  - apply norm_pos.
Qed.

(** ** From a quaternion, or from any axis, to the rotated vector *)
Theorem quaternion_rotation_keeps_length : forall o (m m' : mx F) q d v r, u <= / 4096 -> matrix_rotation_quaternion m o q = Ok m' -> all_fin prec emax q -> unit_within 4 d (wxyz o q) -> d <= / 128 ->
  transform_vector m' v = Ok r -> (forall k, (k < 3)%nat -> fin (el v k)) -> 2 * norm 3 (vals v) + 4 * eta < bpow radix2 emax ->
  (forall i, (i < 3)%nat -> fin (el r i)) /\ Rabs (norm 3 (vals r) - norm 3 (vals v)) <= (15 * d + 165 * u) * norm 3 (vals v) + 6 * eta.
Proof.
  intros o m m' q d v r U Em Fq Hu D Ev Fv Fit. pose proof (u_pos prec) as U0. assert (D0 : 0 <= d) by (eapply Rle_trans; [apply Rabs_pos|exact Hu]).
  destruct (quaternion_matrix_near_rotation o m m' q d ltac:(lra) Em Fq Hu ltac:(lra)) as [En NO].
  destruct (rotated_vector_length m' v r (5 * d + 53 * u) ltac:(lra) Ev NO ltac:(lra) (fun i j Hi Hj => proj1 (En i j Hi Hj)) Fv Fit) as [A C]. split; [auto|]. eapply Rle_trans; [exact C|]. right. ring.
Qed.
Theorem normalized_axis_rotation : forall (MO : MathOps F), ieee_math prec emax MO -> forall (m m' : mx F) axis n l angle e, u <= / 4096 ->
  vlength_squared axis = Ok l -> fin l -> length axis = 3%nat -> bpow radix2 (3 - emax) <= rsum 3 (fun k => vals axis k * vals axis k) ->
  vnormalize axis = Ok n -> matrix_rotation_axis_angle m n angle = Ok m' ->
  let c := mcos angle : F in let s := msin angle : F in fin c -> fin s -> Rabs (val c * val c + val s * val s - 1) <= e -> e <= / 64 ->
  (forall i j, (i < 3)%nat -> (j < 3)%nat -> fin (be m' i j) /\ Rabs (B m' i j - turn (val c) (val s) (vals n) i j) <= 13 * u) /\ near_orthogonal 3 (3 * e + 350 * u) (B m').
Proof.
  intros MO IM m m' axis n l angle e U El Fl L3 Big En Em c s Fc Fs He E64. pose proof (u_pos prec) as U0. destruct (eight_bits ltac:(lra)) as (_ & [Et Eu] & _).
  assert (I3 : INR 3 = 3) by (cbn; lra).
  assert (HL : bpow radix2 (3 - emax) <= norm2 prec emax axis) by (unfold norm2; rewrite L3; exact Big).
  assert (Hn : INR (length axis) * u <= / 64) by (rewrite L3, I3; lra).
  pose proof (normalize_unit prec emax IM axis n l El Fl En Hn HL) as Un. destruct (normalize_accuracy prec emax IM axis n l El Fl En Hn HL) as (Ln & Fn & _). rewrite L3 in *. rewrite I3 in *.
  assert (Uw : unit_within 3 (49 * u) (vals n)). { unfold unit_within. unfold norm2 in Un. rewrite Ln in Un. eapply Rle_trans; [exact Un|]. lra. }
  destruct (axis_angle_matrix_near_rotation MO m m' n angle e (49 * u) ltac:(lra) Em Fc Fs) as [A C]; auto; try lra.
  - intros k Hk. apply Fn. apply nth_In. rewrite Ln. auto.
  - split; [exact A|]. intros i j Hi Hj. eapply Rle_trans; [apply C; auto|]. lra.
Qed.
End IEEE.

(** ** Examples in double precision *)
(** a turn by about 74 degrees about x, written with ten bits *)
Definition ex_q : quat double := Quat (dbl 819 (-10)) (dbl 614 (-10)) (dbl 0 0) (dbl 0 0).
Definition ex_m : mx double := Mx 3 3 row_basis (fun _ _ => dbl 0 0).
Lemma u53 : u_round 53 <= / 4096. Proof. change (/ 4096) with (bpow radix2 (-12)). apply bpow_le. lia. Qed.
Lemma ex_q_unit : all_fin 53 1024 ex_q /\ unit_within 4 (/ 1024) (wxyz 53 1024 real_first ex_q).
Proof.
  assert (D : forall m e, (Z.abs m < 2 ^ 53)%Z -> (-1000 <= e <= 900)%Z -> is_finite (dbl m e) = true /\ B2R (dbl m e) = IZR m * bpow radix2 e) by apply dbl_val.
  split; [intros [|[|[|k]]]; apply D; lia|]. unfold unit_within. cbn [rsum]. unfold wxyz. cbn [qget part oW oX oY oZ ex_q q0 q1 q2 q3]. rewrite !(fun m e A B => proj2 (D m e A B)) by lia. cbn. apply Rabs_le. lra.
Qed.
Example quaternion_rotation_case : exists m', matrix_rotation_quaternion ex_m real_first ex_q = Ok m' /\ near_orthogonal 3 (/ 128) (fun i j => B2R (be m' i j)) /\
  let v := [dbl 3 0; dbl (-7) 2; dbl 1 (-20)] in exists r, transform_vector m' v = Ok r /\ Rabs (norm 3 (vals 53 1024 r) - norm 3 (vals 53 1024 v)) <= / 2.
Proof.
  destruct ex_q_unit as [Fq Uq]. assert (E : exists m', matrix_rotation_quaternion ex_m real_first ex_q = Ok m') by (eexists; reflexivity). destruct E as [m' E]. exists m'. split; [exact E|].
  pose proof u53 as U. pose proof (u_pos 53) as U0. assert (U9 : u_round 53 <= / 1000000) by (apply Rle_trans with (bpow radix2 (-20)); [apply bpow_le; lia|cbn; lra]).
  split.
  - destruct (quaternion_matrix_near_rotation 53 1024 real_first ex_m m' ex_q (/ 1024) ltac:(lra) E Fq Uq ltac:(lra)) as [_ NO]. intros i j Hi Hj. eapply Rle_trans; [apply NO; auto|]. lra.
  - cbv zeta. set (v := [dbl 3 0; dbl (-7) 2; dbl 1 (-20)]).
    assert (Er : exists r, transform_vector m' v = Ok r). { clear -E. unfold matrix_rotation_quaternion in E. apply check_ok, ok_inj in E. subst m'. eexists. reflexivity. }
    destruct Er as [r Er]. exists r. split; [exact Er|].
    assert (D : forall m e, (Z.abs m < 2 ^ 53)%Z -> (-1000 <= e <= 900)%Z -> is_finite (dbl m e) = true /\ B2R (dbl m e) = IZR m * bpow radix2 e) by apply dbl_val.
    assert (Nv : norm 3 (vals 53 1024 v) <= 29).
    { apply sq_le; [lra|]. rewrite norm_sq. cbn [rsum]. unfold vals. cbn [nth v]. rewrite !(fun m e A B => proj2 (D m e A B)) by lia. cbn. lra. }
    assert (Et : eta_min 53 1024 <= / 1000) by (apply Rle_trans with (bpow radix2 (-10)); [apply bpow_le; lia|cbn; lra]). pose proof (norm_pos 3 (vals 53 1024 v)) as N0.
    destruct (quaternion_rotation_keeps_length 53 1024 real_first ex_m m' ex_q (/ 1024) v r U E Fq Uq ltac:(lra) Er) as [_ R].
    + intros k Hk. revert k Hk. apply cases3; apply D; lia.
    + apply Rle_lt_trans with 512; [lra|]. change 512 with (bpow radix2 9). apply bpow_lt. lia.
    + eapply Rle_trans; [exact R|]. assert ((15 * / 1024 + 165 * u_round 53) * norm 3 (vals 53 1024 v) <= (15 * / 1024 + 165 * / 1000000) * 29) by (apply Rmult_le_compat; lra). lra.
Qed.
(** a math library whose sine and cosine of the angle are 614/1024 and 819/1024 *)
Definition turn_math : MathOps double := {|
  mfabs := Babs; mfmod := fun x _ => x; msqrt := Bsqrt mode_NE; mcos := fun _ => dbl 819 (-10); msin := fun _ => dbl 614 (-10); mtan := fun x => x;
  macos := fun x => x; masin := fun x => x; matan2 := fun x _ => x; mlog := fun x => x; mexp := fun x => x; mpi := zero |}.
Example normalized_axis_case : let MO := turn_math in let axis := [dbl 3 0; dbl (-7) 2; dbl 5 (-1)] in
  exists l n m', vlength_squared axis = Ok l /\ is_finite l = true /\ vnormalize axis = Ok n /\ matrix_rotation_axis_angle ex_m n (dbl 1 0) = Ok m' /\ near_orthogonal 3 (/ 256) (fun i j => B2R (be m' i j)).
Proof.
  intros MO axis. assert (D : forall m e, (Z.abs m < 2 ^ 53)%Z -> (-1000 <= e <= 900)%Z -> is_finite (dbl m e) = true /\ B2R (dbl m e) = IZR m * bpow radix2 e) by apply dbl_val.
  assert (E : exists l, vlength_squared axis = Ok l /\ is_finite l = true) by (eexists; split; [reflexivity|]; vm_compute; reflexivity). destruct E as (l & El & Fl).
  assert (E : exists n, vnormalize axis = Ok n /\ length n = 3%nat) by (eexists; split; reflexivity). destruct E as (n & En & Ln).
  assert (E : exists m', matrix_rotation_axis_angle ex_m n (dbl 1 0) = Ok m').
  { clear -Ln. destruct n as [|n0 [|n1 [|n2 [|]]]]; try discriminate Ln. eexists. reflexivity. }
  destruct E as [m' Em]. exists l, n, m'. split; [exact El|]. split; [exact Fl|]. split; [exact En|]. split; [exact Em|].
  assert (U9 : u_round 53 <= / 1000000) by (apply Rle_trans with (bpow radix2 (-20)); [apply bpow_le; lia|cbn; lra]).
  assert (IM : ieee_math 53 1024 MO) by (split; reflexivity).
  assert (Big : bpow radix2 (3 - 1024) <= rsum 3 (fun k => vals 53 1024 axis k * vals 53 1024 axis k)).
  { cbn [rsum]. unfold vals. cbn [nth axis]. rewrite !(fun m e A B => proj2 (D m e A B)) by lia. apply Rle_trans with (bpow radix2 0); [apply bpow_le; lia|cbn; lra]. }
  assert (Cs : Rabs (B2R (dbl 819 (-10)) * B2R (dbl 819 (-10)) + B2R (dbl 614 (-10)) * B2R (dbl 614 (-10)) - 1) <= / 1024) by (rewrite !(fun m e A B => proj2 (D m e A B)) by lia; cbn; apply Rabs_le; lra).
  destruct (normalized_axis_rotation 53 1024 MO IM ex_m m' axis n l (dbl 1 0) (/ 1024) u53 El Fl eq_refl Big En Em (proj1 (D 819 (-10) ltac:(lia) ltac:(lia))%Z) (proj1 (D 614 (-10) ltac:(lia) ltac:(lia))%Z) Cs ltac:(lra)) as [_ NO].
  intros i j Hi Hj. eapply Rle_trans; [apply NO; auto|]. lra.
Qed.
(** ten products *)
Example orthogonal_products_case : exists m', matrix_rotation_quaternion ex_m real_first ex_q = Ok m' /\
  let M := be m' in let b := RM 3 3 (fun i j => Ok (M i j)) in let m := FM 3 3 row_basis col_major MFixed (fun i j => Some (M i j)) in
  exists m2 M2, product_chain 53 1024 row_basis row_major MFixed m (repeat b 10) = Ok m2 /\ is_mat m2 3 3 M2 /\ (forall i j, (i < 3)%nat -> (j < 3)%nat -> is_finite (M2 i j) = true).
Proof.
  destruct ex_q_unit as [Fq Uq]. assert (E : exists m', matrix_rotation_quaternion ex_m real_first ex_q = Ok m') by (eexists; reflexivity). destruct E as [m' E]. exists m'. split; [exact E|].
  pose proof u53 as U. pose proof (u_pos 53) as U0. assert (U9 : u_round 53 <= / 1000000) by (apply Rle_trans with (bpow radix2 (-20)); [apply bpow_le; lia|cbn; lra]).
  destruct (quaternion_matrix_near_rotation 53 1024 real_first ex_m m' ex_q (/ 1024) ltac:(lra) E Fq Uq ltac:(lra)) as [En NO'].
  assert (NO : near_orthogonal 3 (/ 128) (fun i j => B2R (be m' i j))) by (intros i j Hi Hj; eapply Rle_trans; [apply NO'; auto|]; lra). clear NO' E.
  cbv zeta. set (M := be m') in *. set (b := RM 3 3 (fun i j => Ok (M i j))). set (m := FM 3 3 row_basis col_major MFixed (fun i j => Some (M i j))).
  destruct (orthogonal_products_drift 53 1024 3 row_basis row_major MFixed (/ 128) (repeat b 10) (repeat M 10) m M) as (m2 & M2 & A1 & _ & A2 & A3 & _); try lia; try lra.
  - assert (X : forall n, Forall2 (fun b Bm => reads b 3 3 Bm /\ (forall i j, (i < 3)%nat -> (j < 3)%nat -> is_finite (Bm i j) = true) /\ near_orthogonal 3 (/ 128) (fun i j => B2R (Bm i j))) (repeat b n) (repeat M n)).
    { induction n as [|n IH]; cbn [repeat]; constructor; auto. split; [repeat split|]. split; [intros; apply En; auto|exact NO]. }
    apply X.
  - repeat split.
  - cbn. auto.
  - intros. apply En; auto.
  - rewrite repeat_length. destruct (eight_bits 53 1024 ltac:(lra)) as (_ & [Et Eu] & _ & [P1 P3] & _). destruct sqrt3 as [S0 S3].
    assert (I3 : INR 3 = 3) by (cbn; lra). assert (Dr : 0 <= drift 53 3 <= / 1000).
    { unfold drift. rewrite I3. split; [apply Rmult_le_pos; lra|]. apply Rle_trans with (151 / 50 * / 1000000 * 2); [apply Rmult_le_compat; lra|lra]. }
    assert (Fl : 0 <= floor_ 53 1024 3 <= / 1000).
    { unfold floor_. rewrite I3. assert ((1 + u_round 53) ^ 3 * eta_min 53 1024 <= 2 * / 1000000) by (apply Rmult_le_compat; lra). assert (0 <= (1 + u_round 53) ^ 3 * eta_min 53 1024) by (apply Rmult_le_pos; lra). split; lra. }
    assert (Be : 0 <= (1 + INR 3 * / 128) * (1 + drift 53 3) <= 11 / 10) by (rewrite I3; split; [apply Rmult_le_pos; lra|]; apply Rle_trans with ((1 + 3 * / 128) * (1 + / 1000)); [apply Rmult_le_compat; lra|lra]).
    set (be := (1 + INR 3 * / 128) * (1 + drift 53 3)) in *. assert (P10 : be ^ 10 <= (11 / 10) ^ 10) by (apply pow_incr; auto). assert (P0 : 0 <= be ^ 10) by (apply pow_le; lra).
    assert (L2 : frob 3 (fun i j => B2R (M i j)) <= 179 / 100) by (apply (columns_frob (/ 128)); auto; lra). pose proof (norm_pos 3 (fun i => norm 3 (fun j => B2R (M i j)))) as L0. fold (frob 3 (fun i j => B2R (M i j))) in L0.
    replace (INR 10) with 10 by (cbn; lra). rewrite I3. set (L := frob 3 (fun i j => B2R (M i j))) in *.
    assert (X1 : be ^ 10 * (L + 10 * floor_ 53 1024 3) <= 3 * 2) by (apply Rmult_le_compat; lra).
    assert (X2 : sqrt 3 * (be ^ 10 * (L + 10 * floor_ 53 1024 3)) <= 2 * 6) by (apply Rmult_le_compat; try lra; apply Rmult_le_pos; lra).
    assert (X3 : (1 + u_round 53) ^ 3 * (sqrt 3 * (be ^ 10 * (L + 10 * floor_ 53 1024 3))) <= 2 * 12) by (apply Rmult_le_compat; try lra; apply Rmult_le_pos; [lra|]; apply Rmult_le_pos; lra).
    assert (X4 : (1 + u_round 53) ^ 3 * eta_min 53 1024 <= 2 * 1) by (apply Rmult_le_compat; lra).
    apply Rle_lt_trans with 512; [lra|]. change 512 with (bpow radix2 9). apply bpow_lt. lia.
  - exists m2, M2. auto.
Qed.
Print Assumptions quaternion_matrix_near_rotation.
Print Assumptions axis_angle_matrix_near_rotation.
Print Assumptions rotated_vector_length.
Print Assumptions moved_points_distance.
Print Assumptions orthogonal_products_drift.
Print Assumptions quaternion_rotation_keeps_length.
Print Assumptions normalized_axis_rotation.
