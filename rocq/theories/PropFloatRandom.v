(** C97: random unit vectors in IEEE arithmetic. *)
From Coq Require Import ZArith Bool List Arith Lia Reals Lra.
From Flocq Require Import Core BinarySingleNaN.
From Verif Require Import Base RInst ScalarModel MiscModel VecModel RotModel XfModel XfProofs GeoModel MatModel MatOps FloatModel FloatFacts FloatNorm FloatDot PropFloat PropFloatLU FloatExpr PropFloatForm PropFloatNorm FloatRot PropFloatRot FloatScalar FrameFacts PropFloatFrame PropFloatPlanes PropFloatTurn PropFloatRigid PropFloatAngle.
Import ListNotations.
Open Scope R_scope.

(** ** What the functions compute *)
Section Eval.
Context {T : Type} {Op : Ops T} {MO : MathOps T}.
Lemma first_draw_some (draws : list (list T)) d : first_draw draws = Ok (Some d) -> exists pre post, draws = pre ++ d :: post /\
  (forall x, In x pre -> exists l, vlength_squared x = Ok l /\ eqb l zero = true) /\ exists l, vlength_squared d = Ok l /\ eqb l zero = false.
Proof.
  induction draws as [|x ds IH]; cbn; [discriminate|]. intros E. apply bind_ok in E. destruct E as (l & El & E). destruct (eqb l zero) eqn:Z.
  - destruct (IH E) as (pre & post & -> & P & Q). exists (x :: pre), post. split; [reflexivity|]. split; [|exact Q]. intros y [<-|Hy]; eauto.
  - apply ok_inj in E. injection E as <-. exists [], ds. split; [reflexivity|]. split; [intros y []|eauto].
Qed.
Lemma first_draw_in (draws : list (list T)) d : (forall x, In x draws -> x <> []) -> In d draws -> (forall l, vlength_squared d = Ok l -> eqb l zero = false) -> exists d', first_draw draws = Ok (Some d').
Proof.
  intros N I H. induction draws as [|x ds IH]; [destruct I|]. cbn. assert (X : exists l, vlength_squared x = Ok l) by (specialize (N x (or_introl eq_refl)); destruct x; [congruence|eexists; reflexivity]). destruct X as (l & El). rewrite El. cbn.
  destruct (eqb l zero) eqn:Z; [|eauto]. apply IH; [intros; apply N; right; auto|]. destruct I as [->|]; [|auto]. rewrite (H l El) in Z. discriminate.
Qed.
Lemma random_unit_some (n : list T) draws r : random_unit n draws = Ok (Some r) -> n <> [] /\ exists d, first_draw draws = Ok (Some d) /\ vnormalize d = Ok r.
Proof.
  intros E. unfold random_unit, check_vmin, require in E. destruct n as [|a n]; [discriminate|]. split; [discriminate|]. cbn [length Nat.leb bind] in E. apply bind_ok in E. destruct E as (d & Ed & E). destruct d as [d|]; [|discriminate]. apply bind_ok in E. destruct E as (w & Ew & E). apply ok_inj in E. injection E as <-. eauto.
Qed.
Lemma cone_2D_eval (d : list T) theta : random_cone_2D d theta = vnormalize [sub (mul (mcos theta) (el d 0)) (mul (msin theta) (el d 1)); add (mul (msin theta) (el d 0)) (mul (mcos theta) (el d 1))].
Proof. reflexivity. Qed.
Lemma pair_draw (a b l : T) : vlength_squared [a; b] = Ok (add (mul a a) (mul b b)) /\ vdiv [a; b] l = [div a l; div b l].
Proof. split; reflexivity. Qed.
End Eval.

(** directions of real vectors of any size *)
Lemma directions_close n (x e : nat -> R) k : 0 < norm n x -> 0 < norm n e -> norm n (fun i => x i - e i) <= k * norm n e -> norm n (fun i => x i / norm n x - e i / norm n e) <= 2 * k.
Proof.
  intros X E D. set (p := norm n x) in *. set (q := norm n e) in *.
  rewrite (norm_ext n (fun i => x i / p - e i / q) (fun i => / q * (x i - e i) + (q - p) / (p * q) * x i)) by (intros; field; lra).
  eapply Rle_trans; [apply norm_triangle|]. rewrite !norm_scal. fold p. rewrite Rabs_pos_eq by (left; apply Rinv_0_lt_compat; auto).
  pose proof (norm_dist n x e) as ND. fold p q in ND. assert (PQ : 0 < p * q) by (apply Rmult_lt_0_compat; auto). unfold Rdiv. rewrite Rabs_mult, Rabs_inv, (Rabs_pos_eq (p * q)), <- Rabs_Ropp by lra. replace (- (q - p)) with (p - q) by ring.
  replace (Rabs (p - q) * / (p * q) * p) with (/ q * Rabs (p - q)) by (field; lra). assert (I : 0 < / q) by (apply Rinv_0_lt_compat; auto).
  assert (/ q * norm n (fun i => x i - e i) <= / q * (k * q)) by (apply Rmult_le_compat_l; lra). assert (/ q * Rabs (p - q) <= / q * (k * q)) by (apply Rmult_le_compat_l; lra). replace (/ q * (k * q)) with k in * by (field; lra). lra.
Qed.

Section IEEE.
Context (prec emax : Z) {Hprec : Prec_gt_0 prec} {Hmax : Prec_lt_emax prec emax}.
Notation F := (binary_float prec emax).
Notation u := (u_round prec).
Notation eta := (eta_min prec emax).
Notation val := (@B2R prec emax).
Notation fin x := (is_finite x = true).
Notation vals := (PropFloat.vals prec emax).
Notation two := (PropFloatAngle.two prec emax).

Lemma eqb_zero (l : F) : eqb l zero = true -> fin l /\ val l = 0.
Proof.
  intros E. cbn in E. destruct l as [s|s| |s m e h]; try (destruct s; discriminate); [|discriminate]. split; reflexivity.
Qed.
Lemma eqb_nonzero (l : F) : fin l -> val l <> 0 -> eqb l zero = false.
Proof. intros Fl N. destruct (eqb l zero) eqn:E; auto. destruct (eqb_zero l E) as [_ V]. congruence. Qed.
(** numbers in [-1, 1] never overflow the squared length *)
Lemma draw_fits (d : list F) : d <> [] -> (forall x, In x d -> fin x /\ Rabs (val x) <= 1) -> INR (length d) * u <= / 64 -> exists l, vlength_squared d = Ok l /\ fin l.
Proof.
  intros N B Hn. assert (D : exists l, vdot d d = Ok l /\ fin l).
  { apply (dot_no_overflow prec emax); auto; [intros x [Hx|Hx]; apply B; auto|]. unfold fits. set (n := length d) in *. pose proof (u_pos prec) as U. pose proof (eta_pos prec emax) as Et. pose proof (u_half prec) as UH. destruct (growth u n ltac:(lra) ltac:(lra)) as [_ G2].
    assert (In0 : 0 <= INR n) by apply pos_INR. assert (S : 0 <= rsum n (fun k => Rabs (vals d k * vals d k)) <= INR n).
    { split; [apply rsum_nonneg; intros; apply Rabs_pos|]. rewrite <- (Rmult_1_r (INR n)). rewrite <- (rsum_const n 1). apply rsum_le. intros k Hk. rewrite Rabs_mult, <- (Rmult_1_r 1). destruct (B (nth k d zero) ltac:(apply nth_In; auto)) as [_ X]. apply Rmult_le_compat; auto using Rabs_pos. }
    assert (Q : 0 <= (1 + u) ^ n) by (apply pow_le; lra). assert (E1 : eta <= 1). { replace 1 with (bpow radix2 0) by reflexivity. unfold eta_min. pose proof Hmax as X. pose proof Hprec as Y. unfold Prec_lt_emax in X. unfold Prec_gt_0 in Y. apply bpow_le. unfold SpecFloat.emin. lia. }
    assert ((1 + u) ^ n * rsum n (fun k => Rabs (vals d k * vals d k)) <= 2 * INR n) by (apply Rmult_le_compat; lra). assert (INR n * (1 + u) ^ n * eta <= INR n * 2 * 1) by (apply Rmult_le_compat; try lra; [apply Rmult_le_pos; lra|apply Rmult_le_compat_l; lra]).
    assert (N4 : 4 * INR n <= bpow radix2 prec).
    { apply Rmult_le_reg_r with u; [auto|]. replace (bpow radix2 prec * u) with 1 by (unfold u_round; rewrite <- bpow_plus; replace (prec + - prec)%Z with 0%Z by ring; reflexivity). lra. }
    assert (bpow radix2 prec < bpow radix2 emax) by (apply bpow_lt; pose proof Hmax as X; exact X). lra. }
  destruct D as (l & El & Fl). exists l. split; [|exact Fl]. rewrite <- El. unfold vdot, vlength_squared, check_vmin, check_vsame, require. rewrite Nat.eqb_refl. destruct (Nat.leb 1 (length d)); reflexivity.
Qed.

(** random_unit(): the first draw that is not rejected is normalized.  A draw is rejected only if it is all but
    zero; the result has unit length up to rounding if the squared length of the draw is clear of underflow. *)
Theorem random_unit_accuracy : forall (MO : MathOps F), ieee_math prec emax MO -> forall (n : list F) draws r, random_unit n draws = Ok (Some r) ->
  exists pre d post, draws = pre ++ d :: post /\
  (forall x, In x pre -> INR (length x) * u <= / 64 -> norm2 prec emax x <= 4 * INR (length x) * eta) /\
  ((forall x, In x d -> fin x /\ Rabs (val x) <= 1) -> INR (length d) * u <= / 64 -> bpow radix2 (3 - emax) <= norm2 prec emax d ->
   length r = length d /\ (forall x, In x r -> fin x) /\ Rabs (norm2 prec emax r - 1) <= 12 * (INR (length d) + 1) * u + 3 * INR (length d) * eta /\
   forall i, (i < length d)%nat -> let e := vals d i / sqrt (norm2 prec emax d) in Rabs (vals r i - e) <= 4 * (INR (length d) + 1) * u * Rabs e + eta).
Proof.
  intros MO IM n draws r E. destruct (random_unit_some n draws r E) as (_ & d & Ed & Er). destruct (first_draw_some draws d Ed) as (pre & post & -> & P & (l & El & Z)). exists pre, d, post. split; [reflexivity|]. split.
  - intros x Hx Hn. destruct (P x Hx) as (lx & Ex & Zx). destruct (eqb_zero lx Zx) as [Fx Vx]. pose proof (length_squared_accuracy prec emax x lx Ex Fx) as A. cbv zeta in A. rewrite Vx in A. change (rsum (length x) (fun k => vals x k * vals x k)) with (norm2 prec emax x) in A.
    pose proof (u_pos prec) as U. pose proof (eta_pos prec emax) as Et. destruct (growth u (length x) ltac:(lra) ltac:(lra)) as [G1 G2]. assert (N0 : 0 <= norm2 prec emax x) by (apply rsum_nonneg; intros; apply sq_pos). set (L := norm2 prec emax x) in *. assert (In0 : 0 <= INR (length x)) by apply pos_INR.
    assert (((1 + u) ^ length x - 1) * L <= / 32 * L) by (apply Rmult_le_compat_r; lra). assert (INR (length x) * (1 + u) ^ length x * eta <= INR (length x) * 2 * eta) by (apply Rmult_le_compat_r; [lra|]; apply Rmult_le_compat_l; lra). assert (0 <= INR (length x) * eta) by (apply Rmult_le_pos; lra).
    replace (0 - L) with (- L) in A by ring. rewrite Rabs_Ropp, Rabs_pos_eq in A by auto. lra.
  - intros B Hn HL. assert (N : d <> []) by (intros ->; discriminate). destruct (draw_fits d N B Hn) as (l' & El' & Fl). rewrite El in El'. apply ok_inj in El'. subst l'.
    destruct (normalize_accuracy prec emax IM d r l El Fl Er Hn HL) as (A1 & A2 & A3). split; [auto|]. split; [auto|]. split; [|intros i Hi; apply A3; auto]. exact (normalize_unit prec emax IM d r l El Fl Er Hn HL).
Qed.
(** the loop ends with the first draw clear of underflow, if not before *)
Theorem random_unit_ends : forall (MO : MathOps F), ieee_math prec emax MO -> forall (n : list F) draws d, n <> [] -> (forall x, In x draws -> x <> []) -> In d draws ->
  (forall x, In x d -> fin x /\ Rabs (val x) <= 1) -> INR (length d) * u <= / 64 -> bpow radix2 (3 - emax) <= norm2 prec emax d -> exists r, random_unit n draws = Ok (Some r).
Proof.
  intros MO IM n draws d N Nd I B Hn HL. destruct (first_draw_in draws d Nd I) as (d' & Ed).
  - intros l El. destruct (draw_fits d (Nd d I) B Hn) as (l' & El' & Fl). rewrite El in El'. apply ok_inj in El'. subst l'. apply eqb_nonzero; auto. destruct (norm2_rel prec emax d l El Fl Hn HL) as (s & S & V). rewrite V. pose proof (bpow_gt_0 radix2 (3 - emax)) as P. apply Rabs_le_inv in S. assert (0 < norm2 prec emax d * (1 + s)) by (apply Rmult_lt_0_compat; lra). lra.
  - destruct (first_draw_some draws d' Ed) as (pre & post & _ & _ & (l & El & _)). unfold random_unit, check_vmin, require. destruct n as [|a n]; [congruence|]. cbn [length Nat.leb bind]. rewrite Ed. cbn [bind]. unfold vnormalize, vlength. rewrite El. cbn [bind]. eexists. reflexivity.
Qed.

Context (U256 : u <= / 256).
(** random_unit(n, d, a) in the plane: d turned by the drawn angle.  c and s are what the math library returned. *)
Theorem random_cone_2D_accuracy : forall (MO : MathOps F), ieee_math prec emax MO -> forall (d r : list F) theta, random_cone_2D d theta = Ok r -> two d -> fin (mcos theta) -> fin (msin theta) ->
  let c := val (mcos theta) in let s := val (msin theta) in let N := norm 2 (vals d) in / 2 <= c * c + s * s <= 2 -> / 2 <= N * N <= 2 ->
  let e := fun i => match i with 0%nat => c * vals d 0%nat - s * vals d 1%nat | _ => s * vals d 0%nat + c * vals d 1%nat end in
  length r = 2%nat /\ (forall x, In x r -> fin x) /\ norm 2 e = sqrt (c * c + s * s) * N /\ norm 2 (fun i => vals r i - e i / norm 2 e) <= 19 * u /\ unit_within 2 (37 * u) (vals r) /\
  Rabs ((vals r 0%nat * vals d 0%nat + vals r 1%nat * vals d 1%nat) / N - c / sqrt (c * c + s * s)) <= 19 * u.
Proof.
  intros MO IM d r theta E [L2 Fd] Fc Fs c s N HC HN e. rewrite cone_2D_eval in E. destruct (eight_bits prec emax U256) as (U & [Et Eu] & B9 & _). assert (U2 : 0 <= u * u <= / 256 * u) by (split; [apply sq_pos|apply Rmult_le_compat_r; lra]). assert (Q2 : 0 <= (1 + u) ^ 2 <= 102 / 100) by (split; [apply pow_le; lra|cbn; lra]).
  set (d0 := vals d 0%nat) in *. set (d1 := vals d 1%nat) in *. assert (N0 : 0 <= N) by apply norm_pos. assert (NN : N * N = d0 * d0 + d1 * d1) by (unfold N; rewrite norm_sq; cbn [rsum]; fold d0 d1; ring). set (C := sqrt (c * c + s * s)). assert (C0 : 0 <= C) by apply sqrt_pos. assert (CC : C * C = c * c + s * s) by (apply sqrt_sqrt; lra).
  assert (Sq : forall x, 0 <= x -> / 2 <= x * x <= 2 -> 7 / 10 <= x <= 71 / 50) by (intros x X [L H]; split; [apply sq_le; lra|apply sq_le; [lra|]; lra]).
  destruct (Sq N N0 HN) as [N1 N2]. destruct (Sq C C0 ltac:(lra)) as [C1 C2].
  assert (Ne : norm 2 e = C * N).
  { apply Rle_antisym; apply sq_le; try apply norm_pos; try (apply Rmult_le_pos; lra); rewrite norm_sq; cbn [rsum]; unfold e; replace (C * N * (C * N)) with (C * C * (N * N)) by ring; rewrite CC, NN; right; ring. }
  assert (CN : 49 / 100 <= C * N) by (replace (49 / 100) with (7 / 10 * (7 / 10)) by field; apply Rmult_le_compat; lra).
  assert (A1 : forall a b, a * a + b * b <= 2 -> Rabs a <= 71 / 50) by (intros a b H; apply sq_le; [lra|]; rewrite <- Rabs_mult, Rabs_pos_eq by apply sq_pos; pose proof (sq_pos b); lra).
  assert (Ac : Rabs c <= 71 / 50) by (apply (A1 c s); lra). assert (As : Rabs s <= 71 / 50) by (apply (A1 s c); lra). assert (A0 : Rabs d0 <= 71 / 50) by (apply (A1 d0 d1); lra). assert (A2 : Rabs d1 <= 71 / 50) by (apply (A1 d1 d0); lra).
  assert (Pr : forall a b, Rabs a <= 71 / 50 -> Rabs b <= 71 / 50 -> Rabs (a * b) <= 21 / 10) by (intros a b A B; rewrite Rabs_mult; assert (Rabs a * Rabs b <= 71 / 50 * (71 / 50)) by (apply Rmult_le_compat; auto using Rabs_pos); lra).
  pose proof (Fd 0%nat ltac:(lia)) as F0. pose proof (Fd 1%nat ltac:(lia)) as F1.
  assert (Mf : forall x y : F, fin x -> fin y -> Rabs (val x) <= 71 / 50 -> Rabs (val y) <= 71 / 50 -> fin (mul x y) /\ Rabs (val (mul x y)) <= 3).
  { intros x y Fx Fy X Y. pose proof (Pr _ _ X Y) as P. assert (UP : (1 + u) * Rabs (val x * val y) <= 2 * (21 / 10)) by (apply Rmult_le_compat; try lra; apply Rabs_pos). assert (Fm : fin (mul x y)) by (apply mul_fits; auto; lra). split; [auto|].
    destruct (mul_err prec emax x y Fm) as (_ & _ & dd & ee & Dd & De & V). rewrite V. eapply Rle_trans; [apply Rabs_triang|]. rewrite Rabs_mult. assert (Rabs (1 + dd) <= 11 / 10) by (apply Rabs_le_inv in Dd; apply Rabs_le; lra). assert (Rabs (val x * val y) * Rabs (1 + dd) <= 21 / 10 * (11 / 10)) by (apply Rmult_le_compat; auto using Rabs_pos). lra. }
  destruct (Mf _ _ Fc F0 Ac A0) as [Fc0 Vc0]. destruct (Mf _ _ Fs F1 As A2) as [Fs1 Vs1]. destruct (Mf _ _ Fs F0 As A0) as [Fs0 Vs0]. destruct (Mf _ _ Fc F1 Ac A2) as [Fc1 Vc1].
  set (x := sub (mul (mcos theta) (el d 0)) (mul (msin theta) (el d 1))) in *. set (y := add (mul (msin theta) (el d 0)) (mul (mcos theta) (el d 1))) in *.
  assert (Fx : fin x). { apply sub_fits; auto. assert (Rabs (val (mul (mcos theta) (el d 0)) - val (mul (msin theta) (el d 1))) <= 6) by (eapply Rle_trans; [apply Rabs_triang|]; rewrite Rabs_Ropp; lra). assert ((1 + u) * Rabs (val (mul (mcos theta) (el d 0)) - val (mul (msin theta) (el d 1))) <= 2 * 6) by (apply Rmult_le_compat; try lra; apply Rabs_pos). lra. }
  assert (Fy : fin y). { apply add_fits; auto. assert (Rabs (val (mul (msin theta) (el d 0)) + val (mul (mcos theta) (el d 1))) <= 6) by (eapply Rle_trans; [apply Rabs_triang|]; lra). assert ((1 + u) * Rabs (val (mul (msin theta) (el d 0)) + val (mul (mcos theta) (el d 1))) <= 2 * 6) by (apply Rmult_le_compat; try lra; apply Rabs_pos). lra. }
  set (rho := fun k => match k with 0%nat => mcos theta | 1%nat => msin theta | 2%nat => el d 0 | _ => el d 1 end).
  assert (Dx : FloatExpr.near prec emax 2 (Rabs (c * d0) + Rabs (s * d1)) 2 (val x) (c * d0 - s * d1)).
  { eapply (by_formula prec emax rho (FSub (FMul (FVar 0) (FVar 2)) (FMul (FVar 1) (FVar 3)))); auto; cbn; try tauto; try reflexivity; rewrite ?Rabs_mult; unfold c, s, d0, d1, PropFloat.vals, el; try ring. }
  assert (Dy : FloatExpr.near prec emax 2 (Rabs (s * d0) + Rabs (c * d1)) 2 (val y) (s * d0 + c * d1)).
  { eapply (by_formula prec emax rho (FAdd (FMul (FVar 1) (FVar 2)) (FMul (FVar 0) (FVar 3)))); auto; cbn; try tauto; try reflexivity; rewrite ?Rabs_mult; unfold c, s, d0, d1, PropFloat.vals, el; try ring. }
  assert (Cs : forall a b p q, a * a + b * b <= C * C -> p * p + q * q <= N * N -> Rabs (a * p) + Rabs (b * q) <= C * N).
  { intros a b p q HA HP. apply sq_le; [apply Rmult_le_pos; auto|]. rewrite !Rabs_mult. set (a' := Rabs a). set (b' := Rabs b). set (p' := Rabs p). set (q' := Rabs q). assert (SQ : forall z, Rabs z * Rabs z = z * z) by (intros z; rewrite <- Rabs_mult; apply Rabs_pos_eq, sq_pos). rewrite <- (SQ a), <- (SQ b) in HA. rewrite <- (SQ p), <- (SQ q) in HP. fold a' b' p' q' in HA, HP. pose proof (sq_pos (a' * q' - b' * p')).
    assert ((a' * a' + b' * b') * (p' * p' + q' * q') <= C * C * (N * N)) by (apply Rmult_le_compat; auto; pose proof (sq_pos a'); pose proof (sq_pos b'); pose proof (sq_pos p'); pose proof (sq_pos q'); lra). lra. }
  assert (Sx : Rabs (c * d0) + Rabs (s * d1) <= C * N) by (apply Cs; lra). assert (Sy : Rabs (s * d0) + Rabs (c * d1) <= C * N) by (apply Cs; lra).
  assert (Dk : forall S a b, 0 <= S <= C * N -> FloatExpr.near prec emax 2 S 2 a b -> Rabs (a - b) <= 206 / 100 * u * (C * N)).
  { intros S a b [S0 S1] X. apply (near3 prec emax U256) in X; [|lia|auto|lra]. assert (201 / 100 * u * S <= 201 / 100 * u * (C * N)) by (apply Rmult_le_compat_l; lra). assert (u * (49 / 100) <= u * (C * N)) by (apply Rmult_le_compat_l; lra). lra. }
  apply Dk in Dx; [|split; [|exact Sx]; apply Rplus_le_le_0_compat; apply Rabs_pos]. apply Dk in Dy; [|split; [|exact Sy]; apply Rplus_le_le_0_compat; apply Rabs_pos].
  set (v := [x; y]) in *. assert (V0 : vals v 0%nat = val x) by reflexivity. assert (V1 : vals v 1%nat = val y) by reflexivity.
  assert (UC : 0 <= u * (C * N)) by (apply Rmult_le_pos; lra).
  assert (Dv : norm 2 (fun i => vals v i - e i) <= 3 * u * norm 2 e).
  { rewrite Ne. eapply Rle_trans; [apply (norm_le 2 _ (fun _ => 206 / 100 * u * (C * N)))|].
    - intros [|[|k]] Hk; [..|lia]; [rewrite V0|rewrite V1]; [exact Dx|exact Dy].
    - rewrite norm_const by lra. assert (S2 : 0 <= sqrt (INR 2) <= 145 / 100) by (split; [apply sqrt_pos|]; replace (INR 2) with 2 by (cbn; lra); apply sq_le; [lra|]; rewrite sqrt_sqrt; lra). assert (sqrt (INR 2) * (206 / 100 * u * (C * N)) <= 145 / 100 * (206 / 100 * u * (C * N))) by (apply Rmult_le_compat_r; lra). lra. }
  assert (CN2 : C * N <= 21 / 10) by (assert (C * N <= 71 / 50 * (71 / 50)) by (apply Rmult_le_compat; lra); lra).
  set (M := norm 2 (vals v)). assert (M0 : 0 <= M) by apply norm_pos. pose proof (norm_dist 2 (vals v) e) as ND. fold M in ND. rewrite Ne in ND, Dv. assert (UCs : u * (C * N) <= / 256 * (C * N)) by (apply Rmult_le_compat_r; lra). assert (MB : 47 / 100 <= M <= 22 / 10) by (apply Rabs_le_inv in ND; lra).
  assert (M2 : norm2 prec emax v = M * M) by (unfold M; rewrite norm_sq; reflexivity). assert (MM : 22 / 100 <= M * M <= 5) by (split; [assert (47 / 100 * (47 / 100) <= M * M) by (apply Rmult_le_compat; lra); lra|assert (M * M <= 22 / 10 * (22 / 10)) by (apply Rmult_le_compat; lra); lra]).
  assert (LoB : bpow radix2 (3 - emax) <= / 64). { change (/ 64) with (bpow radix2 (-6)). apply bpow_le. change 512 with (bpow radix2 9) in B9. apply le_bpow in B9. lia. }
  assert (Fl : exists l, vlength_squared v = Ok l /\ fin l).
  { assert (D : exists l, vdot v v = Ok l /\ fin l).
    { apply (dot_no_overflow prec emax); [discriminate|reflexivity| |].
      - intros z Hz. assert (In z v) as Hz' by tauto. destruct Hz' as [<-|[<-|[]]]; auto.
      - unfold fits, v. cbn [length]. fold v. rewrite (rsum_ext 2 _ (fun i => vals v i * vals v i)) by (intros; apply Rabs_pos_eq, sq_pos). rewrite <- norm_sq. fold M. replace (INR 2) with 2 by (cbn; lra).
        assert ((1 + u) ^ 2 * (M * M) <= 102 / 100 * 5) by (apply Rmult_le_compat; lra). assert ((1 + u) ^ 2 * eta <= 102 / 100 * eta) by (apply Rmult_le_compat_r; lra). lra. }
    destruct D as (l & Ed & Fl). exists l. split; [exact Ed|exact Fl]. }
  destruct Fl as (l & El & Fl). assert (I2 : INR (length v) = 2) by (unfold v; cbn; lra).
  destruct (normalize_accuracy prec emax IM v r l El Fl E) as (Lr & Fr & Dr); [rewrite I2; lra|rewrite M2; lra|]. rewrite M2, sqrt_square, I2 in Dr by auto. pose proof (normalize_unit prec emax IM v r l El Fl E ltac:(rewrite I2; lra) ltac:(rewrite M2; lra)) as Un. rewrite I2 in Un.
  assert (Lr2 : length r = 2%nat) by (rewrite Lr; reflexivity). assert (EU : eta <= / 128 * u) by lra.
  assert (W : norm 2 (fun i => vals r i - vals v i / M) <= 13 * u).
  { eapply Rle_trans; [apply (norm_le 2 _ (fun i => 12 * u * Rabs (vals v i / M) + eta))|].
    - intros k Hk. eapply Rle_trans; [apply Dr; exact Hk|]. lra.
    - eapply Rle_trans; [apply norm_triangle|]. rewrite norm_scal, norm_abs, norm_const, Rabs_pos_eq by lra. rewrite (norm_ext 2 (fun i => vals v i / M) (fun i => / M * vals v i)) by (intros; unfold Rdiv; ring). rewrite norm_scal, Rabs_pos_eq by (left; apply Rinv_0_lt_compat; lra). fold M. rewrite Rinv_l by lra.
      assert (S2 : 0 <= sqrt (INR 2) <= 145 / 100) by (split; [apply sqrt_pos|]; replace (INR 2) with 2 by (cbn; lra); apply sq_le; [lra|]; rewrite sqrt_sqrt; lra). assert (sqrt (INR 2) * eta <= 145 / 100 * eta) by (apply Rmult_le_compat_r; lra). lra. }
  assert (DC : norm 2 (fun i => vals v i / M - e i / norm 2 e) <= 2 * (3 * u)) by (apply (directions_close 2 (vals v) e (3 * u)); [fold M; lra|rewrite Ne; lra|rewrite Ne; exact Dv]).
  assert (Fin : norm 2 (fun i => vals r i - e i / norm 2 e) <= 19 * u).
  { rewrite (norm_ext 2 _ (fun i => (vals r i - vals v i / M) + (vals v i / M - e i / norm 2 e))) by (intros; ring). eapply Rle_trans; [apply norm_triangle|]. lra. }
  split; [auto|]. split; [exact Fr|]. split; [exact Ne|]. split; [lra|]. split.
  - unfold unit_within. unfold norm2 in Un. rewrite Lr2 in Un. eapply Rle_trans; [exact Un|]. lra.
  - replace (c / C) with ((e 0%nat / norm 2 e * d0 + e 1%nat / norm 2 e * d1) / N).
    2:{ rewrite Ne. unfold e. replace (((c * d0 - s * d1) / (C * N) * d0 + (s * d0 + c * d1) / (C * N) * d1) / N) with (c * (d0 * d0 + d1 * d1) / (C * N * N)) by (field; lra). rewrite <- NN. field. lra. }
    replace ((vals r 0%nat * d0 + vals r 1%nat * d1) / N - (e 0%nat / norm 2 e * d0 + e 1%nat / norm 2 e * d1) / N) with (rsum 2 (fun i => (vals r i - e i / norm 2 e) * vals d i) / N) by (cbn [rsum]; fold d0 d1; field; rewrite Ne; lra).
    unfold Rdiv at 1. rewrite Rabs_mult, Rabs_inv, (Rabs_pos_eq N) by auto. apply Rmult_le_reg_r with N; [lra|]. rewrite Rmult_assoc, Rinv_l, Rmult_1_r by lra. eapply Rle_trans; [apply cauchy|]. fold N. apply Rmult_le_compat_r; lra.
Qed.
End IEEE.

(** ** A draw so small that its squared length is rounded: the result is not a unit vector *)
Lemma pow2_draw (p q : double) : p = dbl 1 (-537) -> q = dbl 1 (-538) -> forall MO : MathOps double, ieee_math 53 1024 MO -> random_unit [p; q] [[p; q]] = Ok (Some [dbl 1 0; dbl 1 (-1)]).
Proof.
  intros -> -> MO IM. unfold random_unit, first_draw, vnormalize, vlength. 
  assert (E : vlength_squared [dbl 1 (-537); dbl 1 (-538)] = Ok (dbl 1 (-1074))) by (rewrite (proj1 (pair_draw _ _ zero)); f_equal; apply B2SF_inj; vm_compute; reflexivity). rewrite E. cbn [bind check_vmin require length Nat.leb].
  assert (Z : eqb (dbl 1 (-1074)) zero = false) by (vm_compute; reflexivity). rewrite Z. cbn [bind]. rewrite E. cbn [bind]. rewrite (proj1 IM).
  assert (Q : vdiv [dbl 1 (-537); dbl 1 (-538)] (Bsqrt mode_NE (dbl 1 (-1074))) = [dbl 1 0; dbl 1 (-1)]) by (rewrite (proj2 (pair_draw _ _ _)); f_equal; [|f_equal]; apply B2SF_inj; vm_compute; reflexivity). rewrite Q. reflexivity.
Qed.
(** documented: "Generate a random unit vector"; expected: every result has unit length *)
Theorem random_unit_float_refuted : forall MO : MathOps double, ieee_math 53 1024 MO -> exists (d r : list double), (forall x, In x d -> is_finite x = true /\ 0 < B2R x <= 1) /\ random_unit d [d] = Ok (Some r) /\ norm2 53 1024 r = 5 / 4.
Proof.
  intros MO IM. destruct (pow2_val (-537) ltac:(lia)) as [Fp Vp]. destruct (pow2_val (-538) ltac:(lia)) as [Fq Vq]. exists [dbl 1 (-537); dbl 1 (-538)], [dbl 1 0; dbl 1 (-1)]. split; [|split].
  - assert (B : forall e, (e <= 0)%Z -> 0 < bpow radix2 e <= 1) by (intros e He; split; [apply bpow_gt_0|]; change 1 with (bpow radix2 0); apply bpow_le; exact He). intros x [<-|[<-|[]]]; [rewrite Vp|rewrite Vq]; (split; [auto|]); apply B; lia.
  - apply pow2_draw; auto.
  - destruct (pow2_val 0 ltac:(lia)) as [_ V0]. destruct (pow2_val (-1) ltac:(lia)) as [_ V1]. unfold norm2, vals. cbn [length rsum nth]. rewrite V0, V1. change (bpow radix2 0) with 1. change (bpow radix2 (-1)) with (/ 2). lra.
Qed.

(** ** Examples *)
(** the second of two draws is used *)
Example random_unit_case : forall MO : MathOps double, ieee_math 53 1024 MO -> let d := [dbl 1 (-1); dbl (-1) (-2)] in let z := [dbl 0 0; dbl 0 0] in
  (exists r, random_unit d [z; d] = Ok (Some r)) /\ (forall x, In x d -> is_finite x = true /\ Rabs (B2R x) <= 1) /\ INR (length d) * u_round 53 <= / 64 /\ bpow radix2 (3 - 1024) <= norm2 53 1024 d.
Proof.
  intros MO IM d z. assert (B : forall x, In x d -> is_finite x = true /\ Rabs (B2R x) <= 1).
  { intros x [<-|[<-|[]]]; (split; [apply dbl_ok; lia|]); rewrite !(fun m e A B => proj2 (dbl_ok m e A B)) by lia; [change (bpow radix2 (-1)) with (/ 2)|change (bpow radix2 (-2)) with (/ 4)]; apply Rabs_le; lra. }
  assert (Hn : INR (length d) * u_round 53 <= / 64). { cbn [length d INR]. assert (H : u_round 53 <= bpow radix2 (-7)) by (apply bpow_le; lia). change (bpow radix2 (-7)) with (/ 128) in H. lra. }
  assert (HL : bpow radix2 (3 - 1024) <= norm2 53 1024 d).
  { apply Rle_trans with (bpow radix2 (-2)); [apply bpow_le; lia|]. unfold norm2, vals. cbn [length d rsum nth]. rewrite !(fun m e A B => proj2 (dbl_ok m e A B)) by lia. change (bpow radix2 (-1)) with (/ 2). change (bpow radix2 (-2)) with (/ 4). lra. }
  split; [|auto]. apply (random_unit_ends 53 1024 MO IM d [z; d] d); auto; [discriminate| |right; left; reflexivity]. intros x [<-|[<-|[]]]; discriminate.
Qed.
(** a turn with the values a math library could return *)
Definition ex_turn_math (MO : MathOps double) : MathOps double := {|
  mfabs := mfabs; mfmod := mfmod; msqrt := msqrt; mcos := fun _ => dbl 3 (-2); msin := fun _ => dbl 5 (-3); mtan := mtan;
  macos := macos; masin := masin; matan2 := matan2; mlog := mlog; mexp := mexp; mpi := mpi |}.
Example random_cone_2D_case : exists MO : MathOps double, ieee_math 53 1024 MO /\ exists (d r : list double) theta, random_cone_2D d theta = Ok r /\ PropFloatAngle.two 53 1024 d /\ is_finite (mcos theta) = true /\ is_finite (msin theta) = true /\
  / 2 <= B2R (mcos theta) * B2R (mcos theta) + B2R (msin theta) * B2R (msin theta) <= 2 /\ / 2 <= norm 2 (vals 53 1024 d) * norm 2 (vals 53 1024 d) <= 2 /\ u_round 53 <= / 256.
Proof.
  exists (ex_turn_math (ex_math 53 1024)). split; [split; reflexivity|]. exists [dbl 1 0; dbl 1 (-1)], (match random_cone_2D (MO := ex_turn_math (ex_math 53 1024)) [dbl 1 0; dbl 1 (-1)] (dbl 1 0) with Ok r => r | _ => [] end), (dbl 1 0).
  split; [reflexivity|]. split; [split; [reflexivity|]; intros [|[|k]] Hk; [..|lia]; apply dbl_ok; lia|]. cbn [mcos msin ex_turn_math]. split; [apply dbl_ok; lia|]. split; [apply dbl_ok; lia|].
  split; [|split].
  - rewrite !(fun m e A B => proj2 (dbl_ok m e A B)) by lia. change (bpow radix2 (-2)) with (/ 4). change (bpow radix2 (-3)) with (/ 8). lra.
  - rewrite norm_sq. unfold vals. cbn [rsum nth]. rewrite !(fun m e A B => proj2 (dbl_ok m e A B)) by lia. change (bpow radix2 0) with 1. change (bpow radix2 (-1)) with (/ 2). lra.
  - change (/ 256) with (bpow radix2 (-8)). apply bpow_le. lia.
Qed.
Print Assumptions random_unit_accuracy.
Print Assumptions random_unit_ends.
Print Assumptions random_cone_2D_accuracy.
Print Assumptions random_unit_float_refuted.
