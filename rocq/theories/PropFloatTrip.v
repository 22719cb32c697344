(** C87: from a quaternion to its matrix and back, in IEEE arithmetic. *)
From Coq Require Import ZArith Bool List Arith Lia Reals Lra.
From Flocq Require Import Core BinarySingleNaN.
From Verif Require Import Base RInst MiscModel ScalarModel MatModel MatSpec MatOps RotModel QuatModel VecModel LUModel XfModel MiscSpec FloatModel FloatFacts FloatDot FloatNorm FloatRel FloatScalar PropFloat PropFloatLU FloatExpr PropFloatForm PropFloatNorm PropFloatScalar FloatRot PropFloatRot PropFloatEuler PropFloatQuat.
Import ListNotations.
Open Scope R_scope.

(** ** The code's branches: component [p] comes from the diagonal, the others from sums and differences of two entries *)
Definition radicand (p : nat) : formula :=
  let d i := FVar (4 * i) in
  match p with
  | 0%nat => FAdd (FAdd (FAdd (d 0%nat) (d 1%nat)) (d 2%nat)) FOne
  | 1%nat => FAdd (FSub (FSub (d 0%nat) (d 1%nat)) (d 2%nat)) FOne
  | 2%nat => FAdd (FSub (FSub (d 1%nat) (d 2%nat)) (d 0%nat)) FOne
  | _ => FAdd (FSub (FSub (d 2%nat) (d 0%nat)) (d 1%nat)) FOne end.
Definition numerator (p i : nat) : formula :=
  let e i j := FVar (3 * i + j) in
  match p, i with
  | 0%nat, 0%nat | 1%nat, 1%nat | 2%nat, 2%nat | 3%nat, 3%nat => FZero
  | 0%nat, 1%nat | 1%nat, 0%nat => FSub (e 1%nat 2%nat) (e 2%nat 1%nat)
  | 0%nat, 2%nat | 2%nat, 0%nat => FSub (e 2%nat 0%nat) (e 0%nat 2%nat)
  | 0%nat, _ | _, 0%nat => FSub (e 0%nat 1%nat) (e 1%nat 0%nat)
  | 1%nat, 2%nat => FAdd (e 0%nat 1%nat) (e 1%nat 0%nat) | 1%nat, _ => FAdd (e 0%nat 2%nat) (e 2%nat 0%nat)
  | 2%nat, 1%nat => FAdd (e 1%nat 0%nat) (e 0%nat 1%nat) | 2%nat, _ => FAdd (e 1%nat 2%nat) (e 2%nat 1%nat)
  | _, 1%nat => FAdd (e 2%nat 0%nat) (e 0%nat 2%nat) | _, _ => FAdd (e 2%nat 1%nat) (e 1%nat 2%nat) end.
Section Eval.
Context {T : Type} {Op : Ops T} {MO : MathOps T}.
Definition entries (m : mx T) (k : nat) : T := if (k <? 9)%nat then be m (k / 3) (k mod 3) else zero.
Definition taken (m : mx T) (p : nat) (o : order) (q' : quat T) : Prop :=
  let w := div (msqrt (feval (entries m) (radicand p))) two in let s := div quarter w in
  forall i, (i < 4)%nat -> qget q' (part o i) = if Nat.eqb i p then w else mul (feval (entries m) (numerator p i)) s.
Lemma branches o (q q' : quat T) (m : mx T) : quaternion_rotation_matrix o q m = Ok q' ->
  let tr := feval (entries m) (FAdd (FAdd (FVar 0) (FVar 4)) (FVar 8)) in
  if ltb zero tr || eqb tr zero then taken m 0 o q' else taken m (S (index_of_max3 (be m 0 0) (be m 1 1) (be m 2 2))) o q'.
Proof.
  intros E tr. unfold quaternion_rotation_matrix in E. apply check_ok in E. assert (Tr : trace_3x3 m = tr) by (destruct m as [rr cc [|] f]; reflexivity). rewrite Tr in E.
  destruct (ltb zero tr || eqb tr zero).
  - apply ok_inj in E. rewrite <- Tr in E. subst q'. intros i Hi. revert i Hi. destruct m as [rr cc [|] f], o, q; apply cases4; reflexivity.
  - assert (L : (index_of_max3 (be m 0 0) (be m 1 1) (be m 2 2) < 3)%nat) by (unfold index_of_max3; repeat destruct (ltb _ _); lia).
    revert E L. generalize (index_of_max3 (be m 0 0) (be m 1 1) (be m 2 2)). intros l E L. destruct l as [|[|[|l]]]; [..|lia];
    apply ok_inj in E; subst q'; intros i Hi; revert i Hi; destruct m as [rr cc [|] f], o, q; apply cases4; reflexivity.
Qed.
End Eval.
(** ** Exact values *)
Lemma radicand_exact (a : nat -> R) (r : nat -> R) p : (p < 4)%nat -> (forall k, (k < 9)%nat -> r k = rotation a (k / 3) (k mod 3)) ->
  feval (T:=R) r (radicand p) = 4 * (a p * a p) + (if Nat.eqb p 0 then 4 * (1 - (a 0%nat * a 0%nat + a 1%nat * a 1%nat + a 2%nat * a 2%nat + a 3%nat * a 3%nat)) else 0).
Proof. intros Hp H. revert p Hp. apply cases4; cbn [radicand feval add sub one ROps Nat.mul Nat.add Nat.eqb]; rewrite !H by lia; cbn; ring. Qed.
Lemma numerator_exact (a : nat -> R) (r : nat -> R) p i : (p < 4)%nat -> (i < 4)%nat -> p <> i -> (forall k, (k < 9)%nat -> r k = rotation a (k / 3) (k mod 3)) ->
  feval (T:=R) r (numerator p i) = 4 * (a p * a i).
Proof. intros Hp Hi N H. destruct p as [|[|[|[|p]]]]; [..|lia]; (destruct i as [|[|[|[|i]]]]; [..|lia]); try congruence; cbn [numerator feval add sub ROps Nat.mul Nat.add]; rewrite !H by lia; cbn; ring. Qed.

Section IEEE.
Context (prec emax : Z) {Hprec : Prec_gt_0 prec} {Hmax : Prec_lt_emax prec emax}.
Notation F := (binary_float prec emax).
Notation u := (u_round prec).
Notation eta := (eta_min prec emax).
Notation val := (@B2R prec emax).
Notation fin x := (is_finite x = true).
Notation B m := (fun i j => val (be m i j)).
Notation wxyz := (wxyz prec emax).

Lemma many_bits : u <= / 256 -> (8 <= prec)%Z.
Proof. intros H. change (/ 256) with (bpow radix2 (-8)) in H. unfold u_round in H. apply le_bpow in H. lia. Qed.
Lemma val_2 : u <= / 256 -> fin (two : F) /\ val (two : F) = 2.
Proof. intros U. pose proof (many_bits U). destruct (FloatRel.two_val prec emax ltac:(lia)). auto. Qed.
Lemma val_quarter : u <= / 256 -> fin (quarter : F) /\ val (quarter : F) = / 4.
Proof.
  intros U. pose proof (many_bits U) as P8. destruct (val_2 U) as [F2 V2]. destruct (val_1 prec emax) as [V1 F1]. pose proof Hmax as X. unfold Prec_lt_emax in X. destruct (eight_bits prec emax U) as (U0 & [Et Eu] & B9 & _).
  assert (R : forall k, (-2 <= k <= 2)%Z -> round radix2 (FLT_exp (3 - emax - prec) prec) ZnearestE (bpow radix2 k) = bpow radix2 k).
  { intros k Hk. apply round_generic; [apply valid_rnd_N|]. apply generic_format_bpow. unfold FLT_exp. lia. }
  assert (F4 : fin (add (two : F) two)) by (apply add_fits; auto; rewrite V2, Rabs_pos_eq by lra; lra).
  assert (V4 : val (add (two : F) two) = 4).
  { destruct (add_rounded prec emax two two F4) as (_ & _ & E). cbn [add BOps] in *. rewrite E, V2. replace (2 + 2) with (bpow radix2 2) by (cbn; lra). rewrite (R 2%Z) by lia. cbn. lra. }
  assert (Fq : fin (quarter : F)). { unfold quarter. apply div_fits; [exact F1|lra|]. rewrite V1, V4, Rabs_pos_eq by lra. lra. }
  split; [exact Fq|]. unfold quarter in *. destruct (div_rounded prec emax one (add two two) Fq ltac:(lra)) as (_ & E). cbn [div BOps]. rewrite E, V4, V1. replace (1 / 4) with (bpow radix2 (-2)) by (cbn; lra). rewrite (R (-2)%Z) by lia. cbn. lra.
Qed.

(** the pivot *)
Lemma pivot_near (MO : MathOps F) (x : F) P rho : ieee_math prec emax MO -> u <= / 256 -> fin x -> Rabs (val x - 4 * (P * P)) <= rho -> rho <= / 2 -> 3 / 4 <= val x <= 5 ->
  let w := div (msqrt x) two : F in fin w /\ 2 / 5 <= val w <= 5 / 4 /\ Rabs (val w - Rabs P) <= 2 / 5 * rho + 5 / 2 * u.
Proof.
  intros (Sq & _) U256 Fx Hx Hr Bx w. destruct (eight_bits prec emax U256) as (U & [Et Eu] & B9 & _).
  assert (Be : bpow radix2 (2 - emax) <= val x). { apply Rle_trans with (bpow radix2 (-1)); [apply bpow_le; assert (bpow radix2 9 <= bpow radix2 emax) by (cbn; lra); apply le_bpow in H; lia|cbn; lra]. }
  destruct (sqrt_err prec emax x Fx Be) as (Fs & d & D & Vs). destruct (val_2 U256) as [F2 V2]. unfold w. rewrite Sq. set (s := Bsqrt mode_NE x) in *.
  assert (S0 : 0 <= sqrt (val x)) by apply sqrt_pos. assert (SS : sqrt (val x) * sqrt (val x) = val x) by (apply sqrt_sqrt; lra).
  assert (Lo : 866 / 1000 <= sqrt (val x)) by (apply sq_le; lra). assert (Hi : sqrt (val x) <= 2237 / 1000) by (apply sq_le; lra).
  set (t := sqrt (val x)) in *. pose proof (Rabs_pos P) as P0. assert (PP : Rabs P * Rabs P = P * P) by (rewrite <- Rabs_mult; apply Rabs_pos_eq, sq_pos).
  assert (P1 : / 4 <= Rabs P). { apply Rabs_le_inv in Hx. apply sq_le; lra. }
  assert (Tp : Rabs (t - 2 * Rabs P) <= 4 / 5 * rho).
  { assert (E : (t - 2 * Rabs P) * (t + 2 * Rabs P) = val x - 4 * (P * P)) by (rewrite <- SS, <- PP; ring).
    assert (A : Rabs (t - 2 * Rabs P) * (t + 2 * Rabs P) <= rho) by (rewrite <- (Rabs_pos_eq (t + 2 * Rabs P)) at 1 by lra; rewrite <- Rabs_mult, E; exact Hx).
    pose proof (Rabs_pos (t - 2 * Rabs P)) as A0. assert (Rabs (t - 2 * Rabs P) * (5 / 4) <= Rabs (t - 2 * Rabs P) * (t + 2 * Rabs P)) by (apply Rmult_le_compat_l; lra). lra. }
  apply Rabs_le_inv in D. assert (Vb : 4 / 5 <= val s <= 9 / 4).
  { rewrite Vs. assert (t * d <= 2237 / 1000 * u) by (apply Rle_trans with (t * u); [apply Rmult_le_compat_l|apply Rmult_le_compat_r]; lra).
    assert (- (2237 / 1000 * u) <= t * d) by (apply Rle_trans with (- (t * u)); [apply Ropp_le_contravar, Rmult_le_compat_r; lra|replace (- (t * u)) with (t * - u) by ring; apply Rmult_le_compat_l; lra]). lra. }
  assert (Fw : fin (div s two)). { apply div_fits; [exact Fs|lra|]. rewrite V2, Rabs_pos_eq by lra. assert (val s / 2 * (1 + u) <= 9 / 8 * (1 + / 256)) by (apply Rmult_le_compat; lra). lra. }
  destruct (div_err prec emax s two Fw ltac:(lra)) as (_ & d' & e & D' & E' & Vw). rewrite V2 in Vw. apply Rabs_le_inv in D'. apply Rabs_le_inv in E'.
  assert (Ws : Rabs (val (div s two) - t / 2) <= 5 / 2 * u).
  { rewrite Vw, Vs. replace (t * (1 + d) / 2 * (1 + d') + e - t / 2) with (t / 2 * (d + d' * (1 + d)) + e) by field.
    assert (A : Rabs (d + d' * (1 + d)) <= 21 / 10 * u).
    { eapply Rle_trans; [apply Rabs_triang|]. rewrite Rabs_mult. assert (Rabs d <= u) by (apply Rabs_le; lra). assert (Rabs d' <= u) by (apply Rabs_le; lra). assert (Rabs (1 + d) <= 1 + / 256) by (apply Rabs_le; lra).
      assert (Rabs d' * Rabs (1 + d) <= u * (1 + / 256)) by (apply Rmult_le_compat; auto using Rabs_pos). lra. }
    eapply Rle_trans; [apply Rabs_triang|]. rewrite Rabs_mult, (Rabs_pos_eq (t / 2)) by lra.
    assert (t / 2 * Rabs (d + d' * (1 + d)) <= 1119 / 1000 * (21 / 10 * u)) by (apply Rmult_le_compat; auto using Rabs_pos; lra). assert (Rabs e <= eta) by (apply Rabs_le; lra). lra. }
  split; [exact Fw|]. apply Rabs_le_inv in Ws. apply Rabs_le_inv in Tp. split; [lra|]. apply Rabs_le. lra.
Qed.

(** the other components *)
Lemma other_near (x w : F) P y tau sigma : u <= / 256 -> fin x -> fin w -> 2 / 5 <= val w <= 5 / 4 -> Rabs (val w - Rabs P) <= sigma -> / 4 <= Rabs P -> Rabs y <= 33 / 32 ->
  Rabs (val x - 4 * (P * y)) <= tau -> Rabs (val x) <= 5 / 2 ->
  let v := mul x (div quarter w) : F in fin v /\ Rabs (val v - (if Rle_dec 0 P then y else - y)) <= 5 / 8 * tau + 13 / 5 * sigma + 4 * u.
Proof.
  intros U256 Fx Fw Bw Hw P1 Hy Hx Bx v. destruct (eight_bits prec emax U256) as (U & [Et Eu] & B9 & _). destruct (val_quarter U256) as [Fq Vq].
  set (W := val w) in *. assert (I : 0 < / W <= 5 / 2). { split; [apply Rinv_0_lt_compat; lra|]. apply Rle_trans with (/ (2 / 5)); [apply Rinv_le; lra|lra]. }
  assert (Qv : val (quarter : F) / val w = / 4 * / W) by (rewrite Vq; reflexivity).
  assert (Fs : fin (div quarter w)). { apply div_fits; [exact Fq|fold W; lra|]. rewrite Qv, Rabs_pos_eq by lra. assert (/ 4 * / W * (1 + u) <= 5 / 8 * (1 + / 256)) by (apply Rmult_le_compat; lra). lra. }
  destruct (div_err prec emax quarter w Fs ltac:(fold W; lra)) as (_ & d & e & D & E & Vs). rewrite Qv in Vs. set (s := div quarter w) in *.
  assert (Ds : Rabs (val s - / 4 * / W) <= 13 / 20 * u).
  { rewrite Vs. replace (/ 4 * / W * (1 + d) + e - / 4 * / W) with (/ 4 * / W * d + e) by ring. eapply Rle_trans; [apply Rabs_triang|]. rewrite Rabs_mult, (Rabs_pos_eq (/ 4 * / W)) by lra.
    assert (/ 4 * / W * Rabs d <= 5 / 8 * u) by (apply Rmult_le_compat; auto using Rabs_pos; lra). lra. }
  assert (Bs : Rabs (val s) <= 2 / 3). { replace (val s) with (val s - / 4 * / W + / 4 * / W) by ring. eapply Rle_trans; [apply Rabs_triang|]. rewrite (Rabs_pos_eq (/ 4 * / W)) by lra. lra. }
  assert (Bxs : Rabs (val x * val s) <= 5 / 3). { rewrite Rabs_mult. apply Rle_trans with (5 / 2 * (2 / 3)); [apply Rmult_le_compat; auto using Rabs_pos|lra]. }
  assert (Fv : fin v). { apply mul_fits; auto. assert ((1 + u) * Rabs (val x * val s) <= (1 + / 256) * (5 / 3)) by (apply Rmult_le_compat; auto using Rabs_pos; lra). lra. }
  split; [exact Fv|]. destruct (mul_err prec emax x s Fv) as (_ & _ & d' & e' & D' & E' & Vv). fold v in Vv.
  assert (T1 : Rabs (val v - val x * val s) <= 42 / 25 * u).
  { rewrite Vv. replace (val x * val s * (1 + d') + e' - val x * val s) with (val x * val s * d' + e') by ring. eapply Rle_trans; [apply Rabs_triang|]. rewrite Rabs_mult.
    assert (Rabs (val x * val s) * Rabs d' <= 5 / 3 * u) by (apply Rmult_le_compat; auto using Rabs_pos). lra. }
  assert (T2 : Rabs (val x * val s - val x * (/ 4 * / W)) <= 13 / 8 * u).
  { replace (val x * val s - val x * (/ 4 * / W)) with (val x * (val s - / 4 * / W)) by ring. rewrite Rabs_mult. apply Rle_trans with (5 / 2 * (13 / 20 * u)); [apply Rmult_le_compat; auto using Rabs_pos|lra]. }
  assert (T3 : Rabs (val x * (/ 4 * / W) - 4 * (P * y) * (/ 4 * / W)) <= 5 / 8 * tau).
  { rewrite <- Rmult_minus_distr_r, Rabs_mult, (Rabs_pos_eq (/ 4 * / W)) by lra. rewrite (Rmult_comm _ (/ 4 * / W)). apply Rmult_le_compat; auto using Rabs_pos; lra. }
  set (z := if Rle_dec 0 P then y else - y). assert (Pz : P * y = Rabs P * z) by (unfold z; destruct (Rle_dec 0 P); [rewrite Rabs_pos_eq by auto; ring|rewrite Rabs_left by lra; ring]).
  assert (Bz : Rabs z <= 33 / 32) by (unfold z; destruct (Rle_dec 0 P); rewrite ?Rabs_Ropp; auto).
  assert (T4 : Rabs (4 * (P * y) * (/ 4 * / W) - z) <= 13 / 5 * sigma).
  { rewrite Pz. replace (4 * (Rabs P * z) * (/ 4 * / W) - z) with (z * (/ W) * - (W - Rabs P)) by (field; lra). rewrite Rabs_mult, Rabs_Ropp. apply Rmult_le_compat; auto using Rabs_pos.
    rewrite Rabs_mult, (Rabs_pos_eq (/ W)) by lra. apply Rle_trans with (33 / 32 * (5 / 2)); [apply Rmult_le_compat; auto using Rabs_pos; lra|lra]. }
  replace (val v - z) with ((val v - val x * val s) + (val x * val s - val x * (/ 4 * / W)) + (val x * (/ 4 * / W) - 4 * (P * y) * (/ 4 * / W)) + (4 * (P * y) * (/ 4 * / W) - z)) by ring.
  repeat (match goal with H : Rabs _ <= _ |- _ => revert H end). intros. 
  eapply Rle_trans; [apply Rabs_triang|]. eapply Rle_trans; [apply Rplus_le_compat_r, Rabs_triang|]. eapply Rle_trans; [apply Rplus_le_compat_r, Rplus_le_compat_r, Rabs_triang|]. lra.
Qed.

Theorem quaternion_of_matrix_accuracy : forall (MO : MathOps F), ieee_math prec emax MO -> forall o (q q' : quat F) (m : mx F) (a : nat -> R) h d, u <= / 256 ->
  quaternion_rotation_matrix o q m = Ok q' ->
  (forall i j, (i < 3)%nat -> (j < 3)%nat -> fin (be m i j) /\ Rabs (B m i j - rotation a i j) <= h) -> h <= / 16 -> unit_within 4 d a -> d <= / 64 ->
  all_fin prec emax q' /\ exists sign, (sign = 1 \/ sign = -1) /\ forall i, (i < 4)%nat -> Rabs (wxyz o q' i - sign * a i) <= 5 * h + 5 * d + 27 * u.
Proof.
  intros MO IM o q q' m a h d U256 E Hm H16 Hu D64. destruct (eight_bits prec emax U256) as (U & [Et Eu] & B9 & [Q1 Q3] & _).
  assert (D0 : 0 <= d) by (eapply Rle_trans; [apply Rabs_pos|exact Hu]). assert (H0 : 0 <= h) by (eapply Rle_trans; [apply Rabs_pos|exact (proj2 (Hm 0 0 ltac:(lia) ltac:(lia))%nat)]).
  set (rho := entries m). pose (r := fun k => val (rho k)). pose (ra := fun k : nat => rotation a (k / 3) (k mod 3)).
  assert (Fr : forall k, fin (rho k)). { intros k. unfold rho, entries. destruct (Nat.ltb_spec k 9); [|reflexivity]. apply Hm; [apply Nat.div_lt_upper_bound; lia|apply Nat.mod_upper_bound; lia]. }
  assert (Cl : forall k, (k < 9)%nat -> Rabs (r k - ra k) <= h). { intros k Hk. unfold r, rho, entries, ra. destruct (Nat.ltb_spec k 9); [|lia]. apply Hm; [apply Nat.div_lt_upper_bound; lia|apply Nat.mod_upper_bound; lia]. }
  (* sizes *)
  assert (NO := rotation_near_orthogonal a d Hu). assert (DD : d * (1 + d) <= d * (65 / 64)) by (apply Rmult_le_compat_l; lra).
  assert (Ra : forall i j, (i < 3)%nat -> (j < 3)%nat -> Rabs (rotation a i j) <= 26 / 25).
  { intros i j Hi Hj. apply Rle_trans with (norm 3 (rotation a i)); [apply (norm_term 3 (rotation a i) j Hj)|]. apply sq_le; [lra|]. pose proof (near_orthogonal_rows 3 _ _ i NO Hi). lra. }
  assert (Rb : forall k, (k < 9)%nat -> Rabs (r k) <= 111 / 100).
  { intros k Hk. replace (r k) with (r k - ra k + ra k) by ring. eapply Rle_trans; [apply Rabs_triang|]. pose proof (Cl k Hk). assert (Rabs (ra k) <= 26 / 25) by (apply Ra; [apply Nat.div_lt_upper_bound; lia|apply Nat.mod_upper_bound; lia]). lra. }
  assert (R2 : forall k, Rabs (r k) <= 2). { intros k. destruct (Nat.lt_ge_cases k 9) as [L|L]; [pose proof (Rb k L); lra|]. unfold r, rho, entries. destruct (Nat.ltb_spec k 9); [lia|]. cbn. rewrite Rabs_R0. lra. }
  assert (Hu' := Hu). unfold unit_within in Hu'. cbn [rsum] in Hu'. rewrite Rplus_0_l in Hu'. set (N := a 0%nat * a 0%nat + a 1%nat * a 1%nat + a 2%nat * a 2%nat + a 3%nat * a 3%nat) in *. apply Rabs_le_inv in Hu'.
  assert (Aa : forall i, (i < 4)%nat -> Rabs (a i) <= 33 / 32 /\ a i * a i <= 65 / 64).
  { pose proof (sq_pos (a 0%nat)). pose proof (sq_pos (a 1%nat)). pose proof (sq_pos (a 2%nat)). pose proof (sq_pos (a 3%nat)). unfold N in Hu'.
    assert (Z : forall x, x * x <= 65 / 64 -> Rabs x <= 33 / 32 /\ x * x <= 65 / 64) by (intros x Hx; split; auto; apply sq_le; [lra|]; rewrite <- Rabs_mult, Rabs_pos_eq by apply sq_pos; lra).
    apply cases4; apply Z; lra. }
  (* a formula of additions *)
  pose proof (Rb 0%nat ltac:(lia)) as b0. pose proof (Rb 1%nat ltac:(lia)) as b1. pose proof (Rb 2%nat ltac:(lia)) as b2. pose proof (Rb 3%nat ltac:(lia)) as b3. pose proof (Rb 4%nat ltac:(lia)) as b4.
  pose proof (Rb 5%nat ltac:(lia)) as b5. pose proof (Rb 6%nat ltac:(lia)) as b6. pose proof (Rb 7%nat ltac:(lia)) as b7. pose proof (Rb 8%nat ltac:(lia)) as b8.
  assert (Rad : forall p, (p < 4)%nat -> fin (feval rho (radicand p)) /\ Rabs (val (feval rho (radicand p)) - feval (T:=R) r (radicand p)) <= 27 / 2 * u).
  { intros p Hp. assert (Pl : plain (radicand p)) by (revert p Hp; apply cases4; cbn; tauto). assert (Fi : fin (feval rho (radicand p))) by (apply low_fits; auto; revert p Hp Pl; clear; intros p Hp _; revert p Hp; apply cases4; cbn; repeat split; lia).
    split; [exact Fi|]. pose proof (formula_near prec emax rho (radicand p) Pl Fi) as Nn. unfold FloatExpr.near in Nn. change (fun k => val (rho k)) with r in Nn. eapply Rle_trans; [exact Nn|].
    assert (St : steps (radicand p) = 3%nat /\ tiny eta r (radicand p) = 0 /\ 0 <= size r (radicand p) <= 433 / 100) by (split; [|split; [|split; [apply size_pos|]]]; clear Nn Fi Pl; revert p Hp; apply cases4; cbn [radicand steps size tiny Nat.max Nat.mul Nat.add]; try reflexivity; try ring; lra).
    destruct St as (-> & -> & Sz). assert (((1 + u) ^ 3 - 1) * size r (radicand p) <= 151 / 50 * u * (433 / 100)) by (apply Rmult_le_compat; lra). lra. }
  assert (Num : forall p i, (p < 4)%nat -> (i < 4)%nat -> p <> i -> fin (feval rho (numerator p i)) /\ Rabs (val (feval rho (numerator p i)) - 4 * (a p * a i)) <= 2 * h + 9 / 4 * u /\ Rabs (val (feval rho (numerator p i))) <= 5 / 2).
  { intros p i Hp Hi Npi. assert (Pl : plain (numerator p i)) by (destruct p as [|[|[|[|p]]]]; [..|lia]; (destruct i as [|[|[|[|i]]]]; [..|lia]); cbn; tauto).
    assert (Fi : fin (feval rho (numerator p i))) by (apply low_fits; auto; clear - Hp Hi; destruct p as [|[|[|[|p]]]]; [..|lia]; (destruct i as [|[|[|[|i]]]]; [..|lia]); cbn; repeat split; lia).
    split; [exact Fi|]. pose proof (formula_near prec emax rho (numerator p i) Pl Fi) as Nn. unfold FloatExpr.near in Nn. change (fun k => val (rho k)) with r in Nn.
    assert (St : steps (numerator p i) = 1%nat /\ tiny eta r (numerator p i) = 0 /\ 0 <= size r (numerator p i) <= 222 / 100 /\ Rabs (feval (T:=R) r (numerator p i)) <= 222 / 100 /\ Rabs (feval (T:=R) r (numerator p i) - feval (T:=R) ra (numerator p i)) <= 2 * h).
    { pose proof (Cl 1%nat ltac:(lia)) as c1. pose proof (Cl 2%nat ltac:(lia)) as c2. pose proof (Cl 3%nat ltac:(lia)) as c3. pose proof (Cl 5%nat ltac:(lia)) as c5. pose proof (Cl 6%nat ltac:(lia)) as c6. pose proof (Cl 7%nat ltac:(lia)) as c7.
      clear - Npi Hp Hi b1 b2 b3 b5 b6 b7 c1 c2 c3 c5 c6 c7. split; [|split; [|split; [split; [apply size_pos|]|split]]].
      all: destruct p as [|[|[|[|p]]]]; [..|lia]; (destruct i as [|[|[|[|i]]]]; [..|lia]); try congruence; cbn [numerator steps size tiny feval add sub ROps Nat.max Nat.mul Nat.add]; try reflexivity; try ring; try lra.
      all: repeat (match goal with H : Rabs _ <= _ |- _ => apply Rabs_le_inv in H end); apply Rabs_le; lra. }
    destruct St as (E1 & E2 & Sz & Bf & Cf). rewrite E1, E2 in Nn. cbn [pow] in Nn.
    assert (A : Rabs (val (feval rho (numerator p i)) - feval (T:=R) r (numerator p i)) <= 9 / 4 * u). { eapply Rle_trans; [exact Nn|]. assert (u * size r (numerator p i) <= u * (222 / 100)) by (apply Rmult_le_compat_l; lra). lra. }
    rewrite (numerator_exact a ra p i Hp Hi Npi) in Cf by reflexivity. clear Nn. apply Rabs_le_inv in A. apply Rabs_le_inv in Cf. apply Rabs_le_inv in Bf. split; apply Rabs_le; lra. }
  (* the chosen component is not small *)
  assert (Main : forall p, (p < 4)%nat -> taken m p o q' -> 3 / 4 <= val (feval rho (radicand p)) ->
    all_fin prec emax q' /\ exists sign, (sign = 1 \/ sign = -1) /\ forall i, (i < 4)%nat -> Rabs (wxyz o q' i - sign * a i) <= 5 * h + 5 * d + 27 * u).
  { intros p Hp Tk Lo. unfold taken in Tk. fold rho in Tk. destruct (Rad p Hp) as [Fx Nx]. set (x := feval rho (radicand p)) in *.
    assert (Cx : Rabs (val x - 4 * (a p * a p)) <= 3 * h + 4 * d + 27 / 2 * u).
    { assert (A : Rabs (feval (T:=R) r (radicand p) - feval (T:=R) ra (radicand p)) <= 3 * h).
      { pose proof (Cl 0%nat ltac:(lia)) as c0. pose proof (Cl 4%nat ltac:(lia)) as c4. pose proof (Cl 8%nat ltac:(lia)) as c8. clear - Hp c0 c4 c8. apply Rabs_le_inv in c0. apply Rabs_le_inv in c4. apply Rabs_le_inv in c8.
        revert p Hp. apply cases4; cbn [radicand feval add sub one ROps Nat.mul Nat.add]; apply Rabs_le; lra. }
      rewrite (radicand_exact a ra p Hp) in A by reflexivity. fold N in A. apply Rabs_le_inv in A. apply Rabs_le_inv in Nx. destruct (Nat.eqb p 0); apply Rabs_le; lra. }
    destruct (Aa p Hp) as [Ap1 Ap2]. pose proof (sq_pos (a p)) as Ap0.
    assert (Up : val x <= 5) by (apply Rabs_le_inv in Cx; lra).
    destruct (pivot_near MO x (a p) _ IM U256 Fx Cx ltac:(lra) (conj Lo Up)) as (Fw & Bw & Nw). set (w := div (msqrt x) two) in *.
    assert (Pp : / 4 <= Rabs (a p)). { apply sq_le; [apply Rabs_pos|]. rewrite <- Rabs_mult, Rabs_pos_eq by apply sq_pos. apply Rabs_le_inv in Cx. lra. }
    assert (Oth : forall i, (i < 4)%nat -> p <> i -> fin (mul (feval rho (numerator p i)) (div quarter w)) /\ Rabs (val (mul (feval rho (numerator p i)) (div quarter w)) - (if Rle_dec 0 (a p) then a i else - a i)) <= 5 * h + 5 * d + 27 * u).
    { intros i Hi Npi. destruct (Num p i Hp Hi Npi) as (Fn & Nn & Bn). destruct (Aa i Hi) as [Ai _].
      destruct (other_near _ w (a p) (a i) _ _ U256 Fn Fw Bw Nw Pp Ai Nn Bn) as [A C]. split; [exact A|]. eapply Rle_trans; [exact C|]. lra. }
    split.
    - apply (all_fin_parts prec emax o). intros i Hi. rewrite (Tk i Hi). destruct (Nat.eqb_spec i p); [exact Fw|]. apply Oth; auto.
    - exists (if Rle_dec 0 (a p) then 1 else -1). split; [destruct (Rle_dec 0 (a p)); auto|]. intros i Hi. unfold PropFloatForm.wxyz. rewrite (Tk i Hi). destruct (Nat.eqb_spec i p) as [->|Nip].
      + replace ((if Rle_dec 0 (a p) then 1 else -1) * a p) with (Rabs (a p)) by (destruct (Rle_dec 0 (a p)); [rewrite Rabs_pos_eq by auto; ring|rewrite Rabs_left by lra; ring]). eapply Rle_trans; [exact Nw|]. lra.
      + replace ((if Rle_dec 0 (a p) then 1 else -1) * a i) with (if Rle_dec 0 (a p) then a i else - a i) by (destruct (Rle_dec 0 (a p)); ring). apply Oth; auto. }
  pose proof (branches o q q' m E) as Br. cbv zeta in Br. fold rho in Br. set (ft := FAdd (FAdd (FVar 0) (FVar 4)) (FVar 8)) in Br.
  assert (Ftr : fin (feval rho ft)) by (apply low_fits; auto; cbn; repeat split; lia). set (tr := feval rho ft) in *.
  assert (F0 : fin (zero : F)) by reflexivity. destruct (ltb zero tr || eqb tr zero) eqn:Br0.
  - apply (Main 0%nat ltac:(lia) Br). assert (T0 : 0 <= val tr).
    { apply orb_true_iff in Br0. destruct Br0 as [L|L]; [rewrite (ltb_val prec emax) in L by auto; destruct (Rlt_bool_spec (val zero) (val tr)); [change (val zero) with 0 in *; lra|discriminate]|].
      cbn [eqb BOps] in L. rewrite (Beqb_correct prec emax tr zero Ftr F0) in L. destruct (Req_bool_spec (val tr) (val (zero : F))); [change (val (zero : F)) with 0 in *; lra|discriminate]. }
    destruct (Rad 0%nat ltac:(lia)) as [Fx _]. change (feval rho (radicand 0)) with (add tr one) in *. destruct (add_err prec emax tr one Fx) as (_ & _ & dd & Dd & ->). destruct (val_1 prec emax) as [V1 _]. rewrite V1.
    apply Rabs_le_inv in Dd. assert (1 * (1 - u) <= (val tr + 1) * (1 + dd)) by (apply Rmult_le_compat; lra). lra.
  - assert (T0 : val tr < 0).
    { apply orb_false_iff in Br0. destruct Br0 as [L1 L2]. rewrite (ltb_val prec emax) in L1 by auto. destruct (Rlt_bool_spec (val (zero : F)) (val tr)); [discriminate|]. change (val (zero : F)) with 0 in *.
      cbn [eqb BOps] in L2. rewrite (Beqb_correct prec emax tr zero Ftr F0) in L2. destruct (Req_bool_spec (val tr) (val (zero : F))); [discriminate|]. change (val (zero : F)) with 0 in *. lra. }
    assert (Tn : Rabs (val tr - (r 0%nat + r 4%nat + r 8%nat)) <= 7 * u).
    { pose proof (formula_near prec emax rho ft ltac:(cbn; tauto) Ftr) as Nn. unfold FloatExpr.near in Nn. change (fun k => val (rho k)) with r in Nn. cbn [ft steps size tiny feval Nat.max add ROps] in Nn. fold tr in Nn. eapply Rle_trans; [exact Nn|].
      assert (Z : (1 + u) ^ 2 - 1 <= 201 / 100 * u) by (cbn [pow]; assert (u * u <= / 256 * u) by (apply Rmult_le_compat_r; lra); lra). assert (Z0 : 0 <= (1 + u) ^ 2 - 1) by (cbn [pow]; pose proof (sq_pos u); lra).
      assert (((1 + u) ^ 2 - 1) * (Rabs (r 0%nat) + Rabs (r 4%nat) + Rabs (r 8%nat)) <= 201 / 100 * u * (333 / 100)) by (apply Rmult_le_compat; auto; [repeat apply Rplus_le_le_0_compat; apply Rabs_pos|lra]). lra. }
    apply Rabs_le_inv in Tn. assert (Fd : forall i, (i < 3)%nat -> fin (be m i i)) by (intros i Hi; apply Hm; auto).
    destruct (index_of_float prec emax (be m 0 0) (be m 1 1) (be m 2 2) (be m 0 0) (Fd 0%nat ltac:(lia)) (Fd 1%nat ltac:(lia)) (Fd 2%nat ltac:(lia)) (Fd 0%nat ltac:(lia))) as (_ & _ & Ix & _). rewrite Ix in Br.
    change (val (be m 0 0)) with (r 0%nat) in Br. change (val (be m 1 1)) with (r 4%nat) in Br. change (val (be m 2 2)) with (r 8%nat) in Br. unfold index_of_max3 in Br. cbn [ltb ROps] in Br. unfold Rltb in Br.
    destruct (Rad 1%nat ltac:(lia)) as [_ n1]. destruct (Rad 2%nat ltac:(lia)) as [_ n2]. destruct (Rad 3%nat ltac:(lia)) as [_ n3]. apply Rabs_le_inv in n1. apply Rabs_le_inv in n2. apply Rabs_le_inv in n3.
    pose proof (Main 1%nat ltac:(lia)) as M1. pose proof (Main 2%nat ltac:(lia)) as M2. pose proof (Main 3%nat ltac:(lia)) as M3. clear Main Rad.
    set (x1 := feval rho (radicand 1)) in *. set (x2 := feval rho (radicand 2)) in *. set (x3 := feval rho (radicand 3)) in *. clearbody x1 x2 x3. cbn [radicand feval add sub one ROps Nat.mul Nat.add] in n1, n2, n3.
    destruct (Rlt_dec (r 4%nat) (r 0%nat)); [destruct (Rlt_dec (r 0%nat) (r 8%nat))|destruct (Rlt_dec (r 8%nat) (r 4%nat))]; first [apply (M1 Br)|apply (M2 Br)|apply (M3 Br)]; lra.
Qed.
(** there and back *)
Theorem quaternion_matrix_round_trip : forall (MO : MathOps F), ieee_math prec emax MO -> forall o (q p p' : quat F) (m m' : mx F) d, u <= / 256 ->
  all_fin prec emax q -> unit_within 4 d (wxyz o q) -> d <= / 64 -> matrix_rotation_quaternion m o q = Ok m' -> quaternion_rotation_matrix o p m' = Ok p' ->
  all_fin prec emax p' /\ exists sign, (sign = 1 \/ sign = -1) /\ forall i, (i < 4)%nat -> Rabs (wxyz o p' i - sign * wxyz o q i) <= 5 * d + 92 * u.
Proof.
  intros MO IM o q p p' m m' d U256 Fq Un D64 Em Ep. destruct (quaternion_matrix_near_rotation prec emax o m m' q d U256 Em Fq Un ltac:(lra)) as [Nm _].
  destruct (quaternion_of_matrix_accuracy MO IM o p p' m' (wxyz o q) (13 * u) d U256 Ep Nm ltac:(lra) Un D64) as [A (sg & S & C)]. split; [exact A|]. exists sg. split; [exact S|]. intros i Hi. eapply Rle_trans; [apply C; auto|]. lra.
Qed.
End IEEE.

(** ** Examples in double precision *)
Example round_trip_case : let MO := turn_math in exists m' p', matrix_rotation_quaternion ex_m real_first ex_q = Ok m' /\ quaternion_rotation_matrix real_first ex_q m' = Ok p' /\
  exists sign, (sign = 1 \/ sign = -1) /\ forall i, (i < 4)%nat -> Rabs (wxyz 53 1024 real_first p' i - sign * wxyz 53 1024 real_first ex_q i) <= / 128.
Proof.
  intros MO. destruct ex_q_unit as [Fq Uq]. assert (E : exists m', matrix_rotation_quaternion ex_m real_first ex_q = Ok m' /\ (3 <= mrows m')%nat /\ (3 <= mcols m')%nat) by (eexists; split; [reflexivity|]; split; cbn; lia).
  destruct E as (m' & E & Rr & Rc).
  assert (E' : exists p', quaternion_rotation_matrix real_first ex_q m' = Ok p').
  { clear -Rr Rc. unfold quaternion_rotation_matrix, check_minimum_size, require. apply Nat.leb_le in Rr. apply Nat.leb_le in Rc. rewrite Rr, Rc. cbn [andb bind]. destruct (ltb _ _ || eqb _ _); [eexists; reflexivity|].
    unfold index_of_max3. repeat destruct (ltb _ _); eexists; reflexivity. }
  destruct E' as [p' E']. exists m', p'. split; [exact E|]. split; [exact E'|].
  assert (U9 : u_round 53 <= / 1000000) by (apply Rle_trans with (bpow radix2 (-20)); [apply bpow_le; lia|cbn; lra]).
  assert (IM : ieee_math 53 1024 MO) by (split; reflexivity).
  destruct (quaternion_matrix_round_trip 53 1024 MO IM real_first ex_q ex_q p' ex_m m' (/ 1024) ltac:(lra) Fq Uq ltac:(lra) E E') as [_ (sg & S & C)].
  exists sg. split; [exact S|]. intros i Hi. eapply Rle_trans; [apply C; auto|]. lra.
Qed.
(** the sign is not kept: a quaternion with negative real part comes back negated *)
Theorem round_trip_sign_refuted : let MO := turn_math in exists (q : quat double) m' p', matrix_rotation_quaternion ex_m real_first q = Ok m' /\ quaternion_rotation_matrix real_first q m' = Ok p' /\
  B2R (qget q 0) = -1 /\ B2R (qget p' 0) = 1.
Proof.
  intros MO. set (q := Quat (dbl (-1) 0) (dbl 0 0) (dbl 0 0) (dbl 0 0) : quat double).
  pose (back := m' <- matrix_rotation_quaternion ex_m real_first q ;; quaternion_rotation_matrix real_first q m').
  assert (K : match back with Ok p => match B2SF (qget p 0) with SpecFloat.S754_finite false 4503599627370496 (-52) => true | _ => false end | _ => false end = true) by (vm_compute; reflexivity).
  assert (E : exists m', matrix_rotation_quaternion ex_m real_first q = Ok m') by (eexists; reflexivity). destruct E as [m' E]. unfold back in K. rewrite E in K. cbn [bind] in K.
  destruct (quaternion_rotation_matrix real_first q m') as [p'| |] eqn:E'; try discriminate. exists q, m', p'. split; [exact E|]. split; [exact E'|]. split.
  - unfold q. cbn [qget q0]. rewrite (proj2 (dbl_fin (-1) 0 ltac:(lia) ltac:(lia))). cbn. lra.
  - clear -K. destruct (qget p' 0) as [[|]|[|]| |[|] m e H]; try discriminate. cbn [B2SF] in K.
    assert (m = 4503599627370496%positive /\ e = (-52)%Z) as [-> ->].
    { assert (Em : Pos.eqb m 4503599627370496 && Z.eqb e (-52) = true); [|apply andb_true_iff in Em; destruct Em as [A B]; apply Pos.eqb_eq in A; apply Z.eqb_eq in B; auto].
      revert K. clear. intros K. repeat (match type of K with (match ?x with _ => _ end) = true => is_var x; destruct x; try discriminate K end). reflexivity. }
    cbn. unfold F2R. cbn. lra.
Qed.
Print Assumptions quaternion_of_matrix_accuracy.
Print Assumptions quaternion_matrix_round_trip.
Print Assumptions round_trip_sign_refuted.
