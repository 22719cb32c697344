(** C91: polar, cylindrical and spherical coordinates in IEEE arithmetic. *)
From Coq Require Import ZArith Bool List Arith Lia Reals Lra.
From Flocq Require Import Core BinarySingleNaN.
From Verif Require Import Base RInst ScalarModel MiscModel VecModel RotModel XfModel GeoModel MatModel MatOps FloatModel FloatFacts FloatNorm FloatDot PropFloat PropFloatLU FloatExpr PropFloatForm PropFloatNorm FloatRot PropFloatRot PropFloatFrame.
Import ListNotations.
Open Scope R_scope.

(** ** What the conversions compute *)
Section Eval.
Context {T : Type} {Op : Ops T} {MO : MathOps T}.
Lemma polar_eval (u0 v : list T) r th tol r' th' : polar_to_cartesian u0 r th = Ok v -> cartesian_to_polar v tol = Ok (r', th') ->
  v = [mul (mcos th) r; mul (msin th) r] /\ r' = length2 (mul (mcos th) r) (mul (msin th) r).
Proof.
  intros E1 E2. unfold polar_to_cartesian in E1. apply check_size_eq in E1. destruct E1 as [L E1]. destruct u0 as [|a [|b [|c u0]]]; try discriminate. cbn in E1. apply ok_inj in E1. subst v. split; [reflexivity|].
  cbn in E2. injection E2 as <- _. reflexivity.
Qed.
Lemma cycle_cases axis (v : list T) p : axis_cycle axis v = Ok p -> length v = 3%nat /\ (axis = 0 /\ p = (0, 1, 2)%nat \/ axis = 1 /\ p = (1, 2, 0)%nat \/ axis = 2 /\ p = (2, 0, 1)%nat)%Z.
Proof.
  intros E. unfold axis_cycle in E. destruct (Z.leb_spec 0 axis); [|discriminate]. destruct (Z.leb_spec axis 2); [|discriminate]. cbn [andb require bind] in E. apply check_size_eq in E. destruct E as [L E]. split; [auto|].
  assert (A : axis = 0%Z \/ axis = 1%Z \/ axis = 2%Z) by lia. destruct A as [->|[->| ->]]; cbn in E; apply ok_inj in E; subst p; auto.
Qed.
Lemma cylindrical_eval (u0 v : list T) axis r th h tol r' th' h' : cylindrical_to_cartesian u0 axis r th h = Ok v -> cartesian_to_cylindrical v axis tol = Ok (r', th', h') ->
  r' = length2 (mul (mcos th) r) (mul (msin th) r) /\ h' = h.
Proof.
  intros E1 E2. unfold cylindrical_to_cartesian in E1. apply bind_ok in E1. destruct E1 as (p & Ep & E1). apply cycle_cases in Ep. destruct Ep as [L C]. destruct u0 as [|a [|b [|c [|d u0]]]]; try discriminate.
  destruct C as [[-> ->]|[[-> ->]|[-> ->]]]; cbn in E1; apply ok_inj in E1; subst v; cbn in E2; injection E2 as <- _ <-; auto.
Qed.
(** the angle from the axis: for a latitude it is pi/2 - phi, as computed *)
Definition inclination (type : latitude_type) (phi : T) : T := match type with latitude => sub (div mpi two) phi | colatitude => phi end.
Lemma spherical_eval (u0 v : list T) axis type type' r th phi tol r' th' phi' : spherical_to_cartesian u0 axis type r th phi = Ok v -> cartesian_to_spherical v axis type' tol = Ok (r', th', phi') ->
  let f := inclination type phi in let s := mul (msin f) r in
  r' = length2 (mul (mcos f) r) (length2 (mul s (mcos th)) (mul s (msin th))).
Proof.
  intros E1 E2 f s. unfold spherical_to_cartesian in E1. apply bind_ok in E1. destruct E1 as (p & Ep & E1). apply cycle_cases in Ep. destruct Ep as [L C]. destruct u0 as [|a [|b [|c [|d u0]]]]; try discriminate.
  destruct C as [[-> ->]|[[-> ->]|[-> ->]]]; cbn in E1; apply ok_inj in E1; subst v; cbn in E2; injection E2 as <- _ _; reflexivity.
Qed.
Lemma polar_runs (u0 : list T) r th tol : length u0 = 2%nat -> exists v th', polar_to_cartesian u0 r th = Ok v /\ cartesian_to_polar v tol = Ok (length2 (mul (mcos th) r) (mul (msin th) r), th').
Proof. intros L. destruct u0 as [|a [|b [|c u0]]]; try discriminate. eexists. eexists. split; reflexivity. Qed.
Lemma polar_runs_with (u0 : list T) r th tol c s l (sq : T -> T) : length u0 = 2%nat -> mcos th = c -> msin th = s -> (forall x, msqrt x = sq x) -> sq (length_squared2 (mul c r) (mul s r)) = l -> exists v th', polar_to_cartesian u0 r th = Ok v /\ v = [mul c r; mul s r] /\ cartesian_to_polar v tol = Ok (l, th').
Proof. intros L <- <- Hs <-. destruct u0 as [|a [|b [|k u0]]]; try discriminate. eexists. eexists. split; [reflexivity|]. split; [reflexivity|]. rewrite <- Hs. reflexivity. Qed.
Lemma spherical_runs (u0 : list T) r th phi tol : length u0 = 3%nat -> exists v r' th' phi', spherical_to_cartesian u0 1 latitude r th phi = Ok v /\ cartesian_to_spherical v 1 latitude tol = Ok (r', th', phi').
Proof. intros L. destruct u0 as [|a [|b [|c [|d u0]]]]; try discriminate. eexists. eexists. eexists. eexists. split; reflexivity. Qed.
Lemma length2_vec (x y : T) : vlength_squared [x; y] = Ok (length_squared2 x y) /\ vlength [x; y] = Ok (length2 x y).
Proof. split; reflexivity. Qed.
End Eval.

Lemma norm2_real (x y : R) : norm 2 (fun k => match k with 0%nat => x | _ => y end) * norm 2 (fun k => match k with 0%nat => x | _ => y end) = x * x + y * y.
Proof. rewrite norm_sq. cbn [rsum]. ring. Qed.
Definition pair2 (x y : R) (k : nat) : R := match k with 0%nat => x | _ => y end.
Lemma pair2_sq x y : norm 2 (pair2 x y) * norm 2 (pair2 x y) = x * x + y * y. Proof. apply norm2_real. Qed.
Lemma pair2_le x y a b : Rabs x <= a -> Rabs y <= b -> norm 2 (pair2 x y) <= a + b.
Proof.
  intros A B. pose proof (Rabs_pos x). pose proof (Rabs_pos y). apply sq_le; [lra|]. rewrite pair2_sq. assert (S : forall z, Rabs z * Rabs z = z * z) by (intros z; rewrite <- Rabs_mult; apply Rabs_pos_eq, sq_pos). rewrite <- (S x), <- (S y).
  assert (Rabs x * Rabs x <= a * a) by (apply Rmult_le_compat; auto). assert (Rabs y * Rabs y <= b * b) by (apply Rmult_le_compat; auto). assert (0 <= a * b) by (apply Rmult_le_pos; lra). lra.
Qed.
Lemma circle_norm c s r e : Rabs (c * c + s * s - 1) <= e -> e <= / 2 -> Rabs (norm 2 (pair2 (c * r) (s * r)) - Rabs r) <= e * Rabs r.
Proof.
  intros H E2. set (p := c * c + s * s - 1) in *. assert (N : norm 2 (pair2 (c * r) (s * r)) = Rabs r * sqrt (1 + p)).
  { pose proof (norm_pos 2 (pair2 (c * r) (s * r))) as N0. apply Rabs_le_inv in H. assert (P : 0 <= 1 + p) by lra. assert (Q0 : 0 <= Rabs r * sqrt (1 + p)) by (apply Rmult_le_pos; [apply Rabs_pos|apply sqrt_pos]).
    assert (Q : norm 2 (pair2 (c * r) (s * r)) * norm 2 (pair2 (c * r) (s * r)) = (Rabs r * sqrt (1 + p)) * (Rabs r * sqrt (1 + p))).
    { rewrite pair2_sq. replace (Rabs r * sqrt (1 + p) * (Rabs r * sqrt (1 + p))) with ((Rabs r * Rabs r) * (sqrt (1 + p) * sqrt (1 + p))) by ring. rewrite sqrt_sqrt by auto. rewrite <- Rabs_mult, Rabs_pos_eq by apply sq_pos. unfold p. ring. }
    apply Rle_antisym; apply sq_le; lra. }
  rewrite N. replace (Rabs r * sqrt (1 + p) - Rabs r) with ((sqrt (1 + p) - 1) * Rabs r) by ring. rewrite Rabs_mult, (Rabs_Rabsolu r). apply Rmult_le_compat_r; [apply Rabs_pos|]. eapply Rle_trans; [apply sqrt_rel; lra|]. auto.
Qed.

Section IEEE.
Context (prec emax : Z) {Hprec : Prec_gt_0 prec} {Hmax : Prec_lt_emax prec emax}.
Notation F := (binary_float prec emax).
Notation u := (u_round prec).
Notation eta := (eta_min prec emax).
Notation val := (@B2R prec emax).
Notation fin x := (is_finite x = true).
Context (U256 : u <= / 256).
(** the square of [x] is clear of overflow and underflow *)
Definition square_in_range (x : R) : Prop := bpow radix2 (4 - emax) <= x * x <= bpow radix2 (emax - 3).

Lemma range_facts rho : 0 <= rho -> square_in_range rho -> eta <= u * rho /\ 2 * rho + 1 < bpow radix2 emax /\ 2 * (rho * rho) + 1 < bpow radix2 emax.
Proof.
  intros R0 [Lo Hi]. destruct (eight_bits prec emax U256) as (U & [Et Eu] & B9 & _). assert (P3 : bpow radix2 emax = 8 * bpow radix2 (emax - 3)) by (change 8 with (bpow radix2 3); rewrite <- bpow_plus; f_equal; ring).
  assert (X9 : (9 <= emax)%Z). { change 512 with (bpow radix2 9) in B9. apply le_bpow in B9. auto. }
  split; [|split].
  - assert (R1 : bpow radix2 (2 - emax) <= rho). { apply sq_le; auto. eapply Rle_trans; [|exact Lo]. rewrite <- bpow_plus. apply bpow_le. lia. }
    eapply Rle_trans; [apply eta_small|]. apply Rmult_le_compat_l; lra.
  - destruct (Rle_or_lt rho 1); [lra|]. assert (rho <= rho * rho) by (rewrite <- (Rmult_1_l rho) at 1; apply Rmult_le_compat_r; lra). lra.
  - lra.
Qed.
Lemma length2_core (MO : MathOps F) (IM : ieee_math prec emax MO) (x y : F) a b rho kap eps : fin x -> fin y -> 0 <= rho -> square_in_range rho ->
  norm 2 (pair2 (val x - a) (val y - b)) <= kap * rho -> Rabs (norm 2 (pair2 a b) - rho) <= eps * rho -> kap + eps <= / 4 ->
  fin (length2 x y) /\ Rabs (val (length2 x y) - rho) <= (kap + eps + 15 * u) * rho.
Proof.
  intros Fx Fy R0 Rg Hk He Hs. destruct (eight_bits prec emax U256) as (U & [Et Eu] & B9 & _). destruct (range_facts rho R0 Rg) as (E1 & F1 & F2). destruct Rg as [Lo Hi].
  set (N := norm 2 (pair2 (val x) (val y))). assert (N0 : 0 <= N) by apply norm_pos.
  assert (NR : Rabs (N - rho) <= (kap + eps) * rho).
  { pose proof (norm_dist 2 (pair2 (val x) (val y)) (pair2 a b)) as ND. fold N in ND. rewrite (norm_ext 2 (fun k : nat => pair2 (val x) (val y) k - pair2 a b k) (pair2 (val x - a) (val y - b))) in ND by (intros [|k] _; reflexivity).
    replace (N - rho) with ((N - norm 2 (pair2 a b)) + (norm 2 (pair2 a b) - rho)) by ring. eapply Rle_trans; [apply Rabs_triang|]. lra. }
  assert (KR : (kap + eps) * rho <= / 4 * rho) by (apply Rmult_le_compat_r; auto). assert (N1 : 3 / 4 * rho <= N <= 5 / 4 * rho) by (apply Rabs_le_inv in NR; lra).
  assert (NN : norm2 prec emax [x; y] = N * N) by (unfold N; rewrite pair2_sq; unfold norm2; cbn [length rsum vals nth]; unfold vals; cbn [nth]; ring).
  assert (Nlo : 9 / 16 * (rho * rho) <= N * N). { replace (9 / 16 * (rho * rho)) with ((3 / 4 * rho) * (3 / 4 * rho)) by field. apply Rmult_le_compat; lra. }
  assert (Nhi : N * N <= 25 / 16 * (rho * rho)). { replace (25 / 16 * (rho * rho)) with ((5 / 4 * rho) * (5 / 4 * rho)) by field. apply Rmult_le_compat; lra. }
  assert (P3 : bpow radix2 (4 - emax) = 2 * bpow radix2 (3 - emax)) by (change 2 with (bpow radix2 1); rewrite <- bpow_plus; f_equal; ring).
  assert (HL : bpow radix2 (3 - emax) <= norm2 prec emax [x; y]) by (rewrite NN; lra).
  destruct (length2_vec (MO := MO) x y) as [L1 L2].
  assert (Fl : fin (length_squared2 x y)).
  { assert (D : exists d, vdot [x; y] [x; y] = Ok d /\ fin d).
    { apply (dot_no_overflow prec emax); [discriminate|reflexivity| |].
      - intros z Hz. cbn in Hz. destruct Hz as [[<-|[<-|[]]]|[<-|[<-|[]]]]; auto.
      - unfold fits. cbn [length rsum]. unfold vals. cbn [nth]. rewrite !(Rabs_pos_eq (_ * _)) by apply sq_pos. replace (INR 2) with 2 by (cbn; lra). assert (QN : N * N = val x * val x + val y * val y) by apply pair2_sq.
        replace (0 + val x * val x + val y * val y) with (N * N) by (rewrite QN; ring). assert (U2 : u * u <= / 256 * u) by (apply Rmult_le_compat_r; lra). assert (P2 : (1 + u) ^ 2 <= 102 / 100) by (cbn; lra). assert (0 <= N * N) by apply sq_pos. assert (P2' : 0 <= (1 + u) ^ 2) by (apply pow_le; lra).
        assert ((1 + u) ^ 2 * (N * N) <= 102 / 100 * (25 / 16 * (rho * rho))) by (apply Rmult_le_compat; auto). assert ((1 + u) ^ 2 * eta <= 102 / 100 * eta) by (apply Rmult_le_compat_r; lra). lra. }
    destruct D as (d & Ed & Fd). cbn in Ed. apply ok_inj in Ed. subst d. exact Fd. }
  destruct (length_accuracy prec emax IM [x; y] (length_squared2 x y) (length2 x y) L1 Fl L2) as [A B]; [cbn [length]; replace (INR 2) with 2 by (cbn; lra); lra|exact HL|].
  split; [exact A|]. rewrite NN in B. rewrite sqrt_square in B by auto. cbn [length] in B. replace (INR 2) with 2 in B by (cbn; lra).
  replace (val (length2 x y) - rho) with ((val (length2 x y) - N) + (N - rho)) by ring. eapply Rle_trans; [apply Rabs_triang|]. assert (u * N <= u * (5 / 4 * rho)) by (apply Rmult_le_compat_l; lra). lra.
Qed.
(** a point on a circle, and its distance from the center *)
Lemma circle_point (MO : MathOps F) (IM : ieee_math prec emax MO) (c s r x y : F) e : fin c -> fin s -> fin r -> x = mul c r \/ x = mul r c -> y = mul s r \/ y = mul r s ->
  Rabs (val c * val c + val s * val s - 1) <= e -> e <= / 64 -> square_in_range (val r) ->
  fin (length2 x y) /\ Rabs (val (length2 x y) - Rabs (val r)) <= (e + 18 * u) * Rabs (val r).
Proof.
  intros Fc Fs Fr Hx Hy He E64 Rg. destruct (eight_bits prec emax U256) as (U & [Et Eu] & B9 & _). set (rho := Rabs (val r)). assert (R0 : 0 <= rho) by apply Rabs_pos.
  assert (Rg' : square_in_range rho) by (unfold square_in_range, rho; rewrite <- Rabs_mult, Rabs_pos_eq by apply sq_pos; exact Rg). destruct (range_facts rho R0 Rg') as (E1 & F1 & F2).
  assert (H' := He). apply Rabs_le_inv in H'. pose proof (sq_pos (val c)). pose proof (sq_pos (val s)).
  assert (AB : forall t, t * t <= 1 + / 64 -> Rabs t <= 101 / 100) by (intros t Ht; apply sq_le; [lra|]; rewrite <- Rabs_mult, Rabs_pos_eq by apply sq_pos; lra).
  assert (C1 : Rabs (val c) <= 101 / 100) by (apply AB; lra). assert (S1 : Rabs (val s) <= 101 / 100) by (apply AB; lra).
  assert (One : forall t z, fin t -> Rabs (val t) <= 101 / 100 -> z = mul t r \/ z = mul r t -> fin z /\ Rabs (val z - val t * val r) <= u * Rabs (val t * val r) + eta).
  { intros t z Ft Ht Hz. assert (TR : Rabs (val t * val r) <= 101 / 100 * rho) by (rewrite Rabs_mult; apply Rmult_le_compat_r; auto).
    assert (Fb : (1 + u) * Rabs (val t * val r) + eta < bpow radix2 emax). { assert ((1 + u) * Rabs (val t * val r) <= 257 / 256 * (101 / 100 * rho)) by (apply Rmult_le_compat; try lra; apply Rabs_pos). lra. }
    assert (Fz : fin z) by (destruct Hz as [->| ->]; apply mul_fits; auto; rewrite ?(Rmult_comm (val r)); auto). split; [auto|].
    assert (V : exists d e0, Rabs d <= u /\ Rabs e0 <= eta /\ val z = val t * val r * (1 + d) + e0).
    { destruct Hz as [->| ->]; destruct (mul_err prec emax _ _ Fz) as (_ & _ & d & e0 & D & E0 & V); exists d, e0; repeat split; auto. rewrite V. ring. }
    destruct V as (d & e0 & D & E0 & V). rewrite V. replace (val t * val r * (1 + d) + e0 - val t * val r) with (d * (val t * val r) + e0) by ring. eapply Rle_trans; [apply Rabs_triang|]. rewrite Rabs_mult. apply Rplus_le_compat; auto. apply Rmult_le_compat_r; auto using Rabs_pos. }
  destruct (One c x Fc C1 Hx) as [Fx Dx]. destruct (One s y Fs S1 Hy) as [Fy Dy].
  assert (K : norm 2 (pair2 (val x - val c * val r) (val y - val s * val r)) <= 3 * u * rho).
  { apply Rle_trans with (norm 2 (fun k => u * Rabs (pair2 (val c * val r) (val s * val r) k) + eta)); [apply norm_le; intros [|k] _; cbn [pair2]; auto|]. eapply Rle_trans; [apply norm_triangle|]. rewrite norm_scal, norm_abs, norm_const, Rabs_pos_eq by lra.
    pose proof (circle_norm (val c) (val s) (val r) e He ltac:(lra)) as Cn. apply Rabs_le_inv in Cn. fold rho in Cn. assert (e * rho <= / 64 * rho) by (apply Rmult_le_compat_r; auto).
    assert (S2 : 0 <= sqrt (INR 2) <= 3 / 2) by (split; [apply sqrt_pos|]; replace (INR 2) with 2 by (cbn; lra); apply sq_le; [lra|]; rewrite sqrt_sqrt; lra).
    assert (sqrt (INR 2) * eta <= 3 / 2 * eta) by (apply Rmult_le_compat_r; lra). assert (u * norm 2 (pair2 (val c * val r) (val s * val r)) <= u * (65 / 64 * rho)) by (apply Rmult_le_compat_l; lra). assert (0 <= u * rho) by (apply Rmult_le_pos; lra). lra. }
  destruct (length2_core MO IM x y (val c * val r) (val s * val r) rho (3 * u) e Fx Fy R0 Rg' K) as [A B]; [apply circle_norm; auto; lra|lra|]. split; [exact A|]. eapply Rle_trans; [exact B|]. right. ring.
Qed.

Theorem polar_radius_recovered : forall (MO : MathOps F), ieee_math prec emax MO -> forall u0 v r th tol r' th' e,
  polar_to_cartesian u0 r th = Ok v -> cartesian_to_polar v tol = Ok (r', th') ->
  let c := mcos th : F in let s := msin th : F in fin c -> fin s -> fin r -> Rabs (val c * val c + val s * val s - 1) <= e -> e <= / 64 -> square_in_range (val r) ->
  fin r' /\ Rabs (val r' - Rabs (val r)) <= (e + 18 * u) * Rabs (val r).
Proof.
  intros MO IM u0 v r th tol r' th' e E1 E2 c s Fc Fs Fr He E64 Rg. destruct (polar_eval u0 v r th tol r' th' E1 E2) as [_ ->]. apply (circle_point MO IM c s r _ _ e); auto.
Qed.
Theorem cylindrical_radius_recovered : forall (MO : MathOps F), ieee_math prec emax MO -> forall u0 v axis r th h tol r' th' h' e,
  cylindrical_to_cartesian u0 axis r th h = Ok v -> cartesian_to_cylindrical v axis tol = Ok (r', th', h') ->
  let c := mcos th : F in let s := msin th : F in fin c -> fin s -> fin r -> Rabs (val c * val c + val s * val s - 1) <= e -> e <= / 64 -> square_in_range (val r) ->
  h' = h /\ fin r' /\ Rabs (val r' - Rabs (val r)) <= (e + 18 * u) * Rabs (val r).
Proof.
  intros MO IM u0 v axis r th h tol r' th' h' e E1 E2 c s Fc Fs Fr He E64 Rg. destruct (cylindrical_eval u0 v axis r th h tol r' th' h' E1 E2) as [-> ->]. split; [auto|]. apply (circle_point MO IM c s r _ _ e); auto.
Qed.
(** [type] and [type'] need not agree: the radius does not depend on how the latitude is measured *)
Theorem spherical_radius_recovered : forall (MO : MathOps F), ieee_math prec emax MO -> forall u0 v axis type type' r th phi tol r' th' phi' e,
  spherical_to_cartesian u0 axis type r th phi = Ok v -> cartesian_to_spherical v axis type' tol = Ok (r', th', phi') ->
  let f := inclination type phi in let c := mcos th : F in let s := msin th : F in let cf := mcos f : F in let sf := msin f : F in fin c -> fin s -> fin cf -> fin sf -> fin r ->
  Rabs (val c * val c + val s * val s - 1) <= e -> Rabs (val cf * val cf + val sf * val sf - 1) <= e -> e <= / 64 -> square_in_range (val r) ->
  bpow radix2 (6 - emax) <= (val sf * val r) * (val sf * val r) -> val r * val r <= bpow radix2 (emax - 4) ->
  fin r' /\ Rabs (val r' - Rabs (val r)) <= (3 * e + 40 * u) * Rabs (val r).
Proof.
  intros MO IM u0 v axis type type' r th phi tol r' th' phi' e E1 E2 f c s cf sf Fc Fs Fcf Fsf Fr He Hf E64 Rg Lo Hi. pose proof (spherical_eval u0 v axis type type' r th phi tol r' th' phi' E1 E2) as Er. cbv zeta in Er. fold f in Er. fold c s cf sf in Er. subst r'.
  destruct (eight_bits prec emax U256) as (U & [Et Eu] & B9 & _). set (rho := Rabs (val r)). assert (R0 : 0 <= rho) by apply Rabs_pos.
  assert (RR : rho * rho = val r * val r) by (unfold rho; rewrite <- Rabs_mult; apply Rabs_pos_eq, sq_pos).
  assert (Rg' : square_in_range rho) by (unfold square_in_range; rewrite RR; exact Rg). destruct (range_facts rho R0 Rg') as (Et1 & F1 & F2).
  assert (H' := Hf). apply Rabs_le_inv in H'. pose proof (sq_pos (val cf)). pose proof (sq_pos (val sf)).
  assert (AB : forall t, t * t <= 1 + / 64 -> Rabs t <= 101 / 100) by (intros t Ht; apply sq_le; [lra|]; rewrite <- Rabs_mult, Rabs_pos_eq by apply sq_pos; lra).
  assert (C1 : Rabs (val cf) <= 101 / 100) by (apply AB; lra). assert (S1 : Rabs (val sf) <= 101 / 100) by (apply AB; lra).
  assert (One : forall t, fin t -> Rabs (val t) <= 101 / 100 -> fin (mul t r) /\ Rabs (val (mul t r) - val t * val r) <= u * Rabs (val t * val r) + eta /\ Rabs (val t * val r) <= 101 / 100 * rho).
  { intros t Ft Ht. assert (TR : Rabs (val t * val r) <= 101 / 100 * rho) by (rewrite Rabs_mult; apply Rmult_le_compat_r; auto).
    assert (Fb : (1 + u) * Rabs (val t * val r) + eta < bpow radix2 emax). { assert ((1 + u) * Rabs (val t * val r) <= 257 / 256 * (101 / 100 * rho)) by (apply Rmult_le_compat; try lra; apply Rabs_pos). lra. }
    assert (Fz : fin (mul t r)) by (apply mul_fits; auto). split; [auto|]. split; [|auto]. destruct (mul_err prec emax _ _ Fz) as (_ & _ & d & e0 & D & E0 & V). rewrite V. replace (val t * val r * (1 + d) + e0 - val t * val r) with (d * (val t * val r) + e0) by ring.
    eapply Rle_trans; [apply Rabs_triang|]. rewrite Rabs_mult. apply Rplus_le_compat; auto. apply Rmult_le_compat_r; auto using Rabs_pos. }
  destruct (One cf Fcf C1) as (Fx & Dx & Bx). destruct (One sf Fsf S1) as (Fsr & Dsr & Bs). set (sr := mul sf r) in *. set (x := mul cf r) in *.
  set (sig := Rabs (val sf * val r)) in *. assert (G0 : 0 <= sig) by apply Rabs_pos. assert (GG : sig * sig = (val sf * val r) * (val sf * val r)) by (unfold sig; rewrite <- Rabs_mult; apply Rabs_pos_eq, sq_pos).
  set (rs := Rabs (val sr)). assert (Rs0 : 0 <= rs) by apply Rabs_pos.
  assert (P6 : bpow radix2 (6 - emax) = 4 * bpow radix2 (4 - emax)) by (change 4 with (bpow radix2 2) at 1; rewrite <- bpow_plus; f_equal; ring). assert (P4 : bpow radix2 (emax - 3) = 2 * bpow radix2 (emax - 4)) by (change 2 with (bpow radix2 1); rewrite <- bpow_plus; f_equal; ring).
  assert (Hsig : square_in_range sig). { split; rewrite GG; [pose proof (bpow_gt_0 radix2 (4 - emax)); lra|]. rewrite <- GG. apply Rle_trans with ((101 / 100 * rho) * (101 / 100 * rho)); [apply Rmult_le_compat; auto|]. pose proof (bpow_gt_0 radix2 (emax - 4)). lra. }
  destruct (range_facts sig G0 Hsig) as (Es & _ & _). assert (US : 0 <= u * sig <= / 256 * sig) by (split; [apply Rmult_le_pos; lra|apply Rmult_le_compat_r; lra]). assert (UR : 0 <= u * rho <= / 256 * rho) by (split; [apply Rmult_le_pos; lra|apply Rmult_le_compat_r; lra]).
  assert (Drs : Rabs (rs - sig) <= 2 * u * sig). { unfold rs, sig. eapply Rle_trans; [apply Rabs_triang_inv2|]. fold sig. lra. }
  assert (Hrs : 99 / 100 * sig <= rs <= 101 / 100 * sig) by (apply Rabs_le_inv in Drs; lra).
  assert (Rgs : square_in_range (val sr)).
  { assert (Q : rs * rs = val sr * val sr) by (unfold rs; rewrite <- Rabs_mult; apply Rabs_pos_eq, sq_pos). unfold square_in_range. rewrite <- Q. split.
    - apply Rle_trans with ((99 / 100 * sig) * (99 / 100 * sig)); [|apply Rmult_le_compat; lra]. rewrite <- GG in Lo. pose proof (bpow_gt_0 radix2 (4 - emax)). lra.
    - apply Rle_trans with ((101 / 100 * sig) * (101 / 100 * sig)); [apply Rmult_le_compat; lra|]. assert (sig * sig <= (101 / 100 * rho) * (101 / 100 * rho)) by (apply Rmult_le_compat; auto). pose proof (bpow_gt_0 radix2 (emax - 4)). lra. }
  destruct (circle_point MO IM c s sr (mul sr c) (mul sr s) e Fc Fs Fsr (or_intror eq_refl) (or_intror eq_refl) He E64 Rgs) as [Fl Dl]. fold rs in Dl. set (len := length2 (mul sr c) (mul sr s)) in *.
  assert (E0 : 0 <= e) by (eapply Rle_trans; [apply Rabs_pos|exact He]).
  assert (Dlen : Rabs (val len - sig) <= (e + 18 * u) * (101 / 100 * sig) + 2 * u * sig).
  { replace (val len - sig) with ((val len - rs) + (rs - sig)) by ring. eapply Rle_trans; [apply Rabs_triang|]. apply Rplus_le_compat; auto. eapply Rle_trans; [exact Dl|]. apply Rmult_le_compat_l; lra. }
  assert (UB : u * sig <= u * (101 / 100 * rho)) by (apply Rmult_le_compat_l; lra). assert (EB : e * sig <= e * (101 / 100 * rho)) by (apply Rmult_le_compat_l; auto). assert (ER : 0 <= e * rho) by (apply Rmult_le_pos; auto).
  assert (UX : u * Rabs (val cf * val r) <= u * (101 / 100 * rho)) by (apply Rmult_le_compat_l; lra).
  assert (K : norm 2 (pair2 (val x - val cf * val r) (val len - sig)) <= (21 / 20 * e + 24 * u) * rho).
  { eapply Rle_trans; [apply pair2_le; [exact Dx|exact Dlen]|]. lra. }
  assert (Cn : Rabs (norm 2 (pair2 (val cf * val r) sig) - rho) <= e * rho).
  { replace (norm 2 (pair2 (val cf * val r) sig)) with (norm 2 (pair2 (val cf * val r) (val sf * val r))); [apply circle_norm; auto; lra|]. unfold norm. f_equal. cbn [rsum pair2]. rewrite GG. reflexivity. }
  destruct (length2_core MO IM x len (val cf * val r) sig rho (21 / 20 * e + 24 * u) e Fx Fl R0 Rg' K Cn) as [A B]; [lra|]. split; [exact A|]. eapply Rle_trans; [exact B|]. lra.
Qed.
End IEEE.

(** ** Outside that range the radius is lost, whatever the math library *)
Theorem polar_radius_range_refuted : forall (MO : MathOps double), ieee_math 53 1024 MO -> mcos zero = one -> msin zero = zero -> forall u0 tol, length u0 = 2%nat ->
  (exists r v th', is_finite r = true /\ 0 < B2R r /\ polar_to_cartesian u0 r zero = Ok v /\ (forall x, In x v -> is_finite x = true) /\ cartesian_to_polar v tol = Ok (B754_infinity false, th')) /\
  (exists r v th', is_finite r = true /\ 0 < B2R r /\ polar_to_cartesian u0 r zero = Ok v /\ (forall x, In x v -> is_finite x = true) /\ cartesian_to_polar v tol = Ok (B754_zero false, th')).
Proof.
  intros MO [IS IA] Hc Hs u0 tol L.
  assert (Q : forall r l, is_finite r = true -> 0 < B2R r -> is_finite (mul one r : double) = true -> is_finite (mul zero r : double) = true -> Bsqrt mode_NE (length_squared2 (mul one r) (mul zero r)) = l ->
    exists v th', is_finite r = true /\ 0 < B2R r /\ polar_to_cartesian u0 r zero = Ok v /\ (forall x, In x v -> is_finite x = true) /\ cartesian_to_polar v tol = Ok (l, th')).
  { intros r l Fr Pr F1 F2 El. destruct (polar_runs_with u0 r zero tol one zero l (Bsqrt mode_NE) L Hc Hs IS El) as (v & th' & A & Ev & B). exists v, th'. repeat (split; [solve [auto]|]). split; [|exact B].
    rewrite Ev. intros x [<-|[<-|[]]]; auto. }
  assert (P : forall m e, (0 < m < 2 ^ 53)%Z -> (-1000 <= e <= 900)%Z -> is_finite (dbl m e) = true /\ 0 < B2R (dbl m e)).
  { intros m e Hm He. destruct (dbl_val m e) as [A B]; [lia|lia|]. split; [auto|]. rewrite B. apply Rmult_lt_0_compat; [apply IZR_lt; lia|apply bpow_gt_0]. }
  split; [exists (dbl 1 600)|exists (dbl 1 (-600))]; apply Q; try (apply P; lia); vm_compute; reflexivity.
Qed.

(** ** Examples in double precision *)
Lemma ex_circle : let c := dbl 819 (-10) in let s := dbl 614 (-10) in is_finite c = true /\ is_finite s = true /\ Rabs (B2R c * B2R c + B2R s * B2R s - 1) <= / 1024.
Proof. cbv zeta. split; [apply dbl_ok; lia|]. split; [apply dbl_ok; lia|]. rewrite !(fun m e A B => proj2 (dbl_ok m e A B)) by lia; cbn; apply Rabs_le; lra. Qed.
Lemma ex_radius : is_finite (dbl (-21) (-1)) = true /\ B2R (dbl (-21) (-1)) = - (21 / 2) /\ square_in_range 1024 (B2R (dbl (-21) (-1))).
Proof.
  destruct (dbl_ok (-21) (-1)) as [A B]; [lia|lia|]. split; [exact A|]. assert (V : B2R (dbl (-21) (-1)) = - (21 / 2)) by (rewrite B; cbn; lra). split; [exact V|]. unfold square_in_range. rewrite V. split.
  - apply Rle_trans with (bpow radix2 0); [apply bpow_le; lia|cbn; lra].
  - apply Rle_trans with (bpow radix2 10); [cbn; lra|apply bpow_le; lia].
Qed.
(** the radius -21/2 comes back as 21/2, up to the defect of the sine and cosine *)
Example polar_case : exists v r' th', @polar_to_cartesian double _ turn_math [zero; zero] (dbl (-21) (-1)) (dbl 1 0) = Ok v /\ @cartesian_to_polar double _ turn_math v zero = Ok (r', th') /\ is_finite r' = true /\ Rabs (B2R r' - 21 / 2) <= / 64.
Proof.
  destruct (polar_runs (MO := turn_math) [zero; zero] (dbl (-21) (-1)) (dbl 1 0) zero eq_refl) as (v & th' & A & B). eexists v, _, th'. split; [exact A|]. split; [exact B|].
  pose proof u53_small as U. assert (U2 : u_round 53 <= / 256) by lra. destruct ex_circle as (Fc & Fs & C). destruct ex_radius as (Fr & V & Rg). assert (IM : ieee_math 53 1024 turn_math) by (split; reflexivity).
  destruct (polar_radius_recovered 53 1024 U2 turn_math IM _ _ _ _ _ _ _ _ A B Fc Fs Fr C ltac:(lra) Rg) as [F X]. split; [exact F|]. rewrite V, Rabs_Ropp, (Rabs_pos_eq (21 / 2)) in X by lra. eapply Rle_trans; [exact X|]. lra.
Qed.
Example spherical_case : exists v r' th' phi', @spherical_to_cartesian double _ turn_math [zero; zero; zero] 1 latitude (dbl (-21) (-1)) (dbl 1 0) (dbl 1 (-2)) = Ok v /\ @cartesian_to_spherical double _ turn_math v 1 latitude zero = Ok (r', th', phi') /\
  is_finite r' = true /\ Rabs (B2R r' - 21 / 2) <= / 16.
Proof.
  destruct (spherical_runs (MO := turn_math) [zero; zero; zero] (dbl (-21) (-1)) (dbl 1 0) (dbl 1 (-2)) zero eq_refl) as (v & r' & th' & phi' & A & B). exists v, r', th', phi'. split; [exact A|]. split; [exact B|].
  pose proof u53_small as U. assert (U2 : u_round 53 <= / 256) by lra. destruct ex_circle as (Fc & Fs & C). destruct ex_radius as (Fr & V & Rg). assert (IM : ieee_math 53 1024 turn_math) by (split; reflexivity).
  assert (Y : bpow radix2 (6 - 1024) <= (B2R (dbl 614 (-10)) * B2R (dbl (-21) (-1))) * (B2R (dbl 614 (-10)) * B2R (dbl (-21) (-1)))).
  { rewrite V, (fun m e A B => proj2 (dbl_ok m e A B)) by lia. apply Rle_trans with (bpow radix2 0); [apply bpow_le; lia|cbn; lra]. }
  destruct (spherical_radius_recovered 53 1024 U2 turn_math IM _ _ _ _ _ _ _ _ _ _ _ _ _ A B Fc Fs Fc Fs Fr C C ltac:(lra) Rg) as [F X].
  - exact Y.
  - rewrite V. apply Rle_trans with (bpow radix2 10); [cbn; lra|apply bpow_le; lia].
  - split; [exact F|]. rewrite V, Rabs_Ropp, (Rabs_pos_eq (21 / 2)) in X by lra. eapply Rle_trans; [exact X|]. lra.
Qed.
Print Assumptions polar_radius_recovered. Print Assumptions cylindrical_radius_recovered. Print Assumptions spherical_radius_recovered. Print Assumptions polar_radius_range_refuted.
