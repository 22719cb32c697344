(** C94: angles between vectors in IEEE arithmetic. *)
From Coq Require Import ZArith Bool List Arith Lia Reals Lra.
From Flocq Require Import Core BinarySingleNaN.
From Verif Require Import Base RInst ScalarModel MiscModel VecModel RotModel XfModel GeoModel MatModel MatOps FloatModel FloatFacts FloatNorm FloatDot PropFloat PropFloatLU FloatExpr PropFloatForm PropFloatNorm FloatRot PropFloatRot FloatScalar FrameFacts PropFloatFrame PropFloatPlanes PropFloatTurn.
Import ListNotations.
Open Scope R_scope.

(** ** Directions in the plane *)
(** if (c, s) is within [e] of L (cos theta, sin theta), its own angle t is close to theta *)
Lemma angle_close L e c s theta rho t k : 0 < L -> 0 <= rho -> Rabs (s - L * sin theta) <= e * L -> Rabs (c - L * cos theta) <= k * L -> e + k <= / 8 -> c = rho * cos t -> s = rho * sin t ->
  Rabs (sin (t - theta)) <= 8 / 7 * (e + k) /\ 0 < cos (t - theta).
Proof.
  intros L0 R0 Hs Hc He -> ->. set (p := rho * sin t - L * sin theta) in *. set (q := rho * cos t - L * cos theta) in *.
  pose proof (SIN_bound theta) as Sb. pose proof (COS_bound theta) as Cb. assert (As : Rabs (sin theta) <= 1) by (apply Rabs_le; lra). assert (Ac : Rabs (cos theta) <= 1) by (apply Rabs_le; lra).
  pose proof (sin2_cos2 theta) as SC. unfold Rsqr in SC.
  assert (S1 : rho * sin (t - theta) = p * cos theta - q * sin theta) by (rewrite sin_minus; unfold p, q; ring).
  assert (C1 : rho * cos (t - theta) = L + q * cos theta + p * sin theta). { rewrite cos_minus. unfold p, q. replace L with (L * (sin theta * sin theta + cos theta * cos theta)) at 1 by (rewrite SC; ring). ring. }
  assert (pm : forall a b m, Rabs a <= m -> Rabs b <= 1 -> Rabs (a * b) <= m) by (intros a b m A B'; rewrite Rabs_mult; pose proof (Rabs_pos a); pose proof (Rabs_pos b); apply Rle_trans with (m * 1); [apply Rmult_le_compat; auto|lra]).
  pose proof (pm p (cos theta) _ Hs Ac) as X1. pose proof (pm q (sin theta) _ Hc As) as X2. pose proof (pm q (cos theta) _ Hc Ac) as X3. pose proof (pm p (sin theta) _ Hs As) as X4. apply Rabs_le_inv in X1, X2, X3, X4.
  assert (E8 : (e + k) * L <= / 8 * L) by (apply Rmult_le_compat_r; lra).
  assert (CP : 7 / 8 * L <= rho * cos (t - theta)) by (rewrite C1; lra).
  assert (Cpos : 0 < cos (t - theta)). { destruct (Rle_or_lt (cos (t - theta)) 0) as [N|]; [|auto]. assert (rho * cos (t - theta) <= 0) by (rewrite <- (Rmult_0_r rho); apply Rmult_le_compat_l; auto). lra. }
  split; [|exact Cpos]. assert (RL : 7 / 8 * L <= rho). { pose proof (COS_bound (t - theta)). apply Rle_trans with (rho * 1); [|lra]. eapply Rle_trans; [exact CP|]. apply Rmult_le_compat_l; lra. }
  assert (SS : Rabs (rho * sin (t - theta)) <= (e + k) * L) by (rewrite S1; apply Rabs_le; lra). rewrite Rabs_mult, (Rabs_pos_eq rho) in SS by auto. pose proof (Rabs_pos (sin (t - theta))) as P.
  assert (Y : 7 / 8 * L * Rabs (sin (t - theta)) <= (e + k) * L) by (eapply Rle_trans; [apply Rmult_le_compat_r; [exact P|exact RL]|exact SS]). apply Rmult_le_reg_r with L; lra.
Qed.

Section IEEE.
Context (prec emax : Z) {Hprec : Prec_gt_0 prec} {Hmax : Prec_lt_emax prec emax}.
Notation F := (binary_float prec emax).
Notation u := (u_round prec).
Notation eta := (eta_min prec emax).
Notation val := (@B2R prec emax).
Notation fin x := (is_finite x = true).
Notation vals := (PropFloat.vals prec emax).
Notation three := (PropFloatFrame.three prec emax).
Context (U256 : u <= / 256).

(** ** Lengths of vectors that may be so short that their squares underflow *)
Notation rnd := (Generic_fmt.round radix2 (FLT_exp (SpecFloat.emin prec emax) prec) ZnearestE).
Lemma rnd_nonneg x : 0 <= x -> 0 <= rnd x.
Proof. intros H. apply round_ge_generic; [apply FLT_exp_valid; exact Hprec|apply valid_rnd_N|apply generic_format_0|exact H]. Qed.
Lemma squares_nonneg (x y z : F) : fin (length_squared3 x y z) -> 0 <= val (length_squared3 x y z).
Proof.
  unfold length_squared3. intros H. destruct (add_rounded prec emax _ _ H) as (A & B & C). destruct (add_rounded prec emax _ _ A) as (A1 & A2 & A3). 
  assert (M : forall a : F, fin (Bmult mode_NE a a) -> 0 <= val (Bmult mode_NE a a)). { intros a Fa. destruct (mul_rounded prec emax a a Fa) as (_ & _ & V). rewrite V. apply rnd_nonneg, sq_pos. }
  change (0 <= val (Bplus mode_NE (Bplus mode_NE (Bmult mode_NE x x) (Bmult mode_NE y y)) (Bmult mode_NE z z))). pose proof (M z B). pose proof (M x A1). pose proof (M y A2).
  eapply Rle_trans; [|apply Req_le; symmetry; exact C]. apply rnd_nonneg. assert (0 <= val (add (mul x x) (mul y y))); [|cbn [add mul BOps] in *; lra]. eapply Rle_trans; [|apply Req_le; symmetry; exact A3]. apply rnd_nonneg. cbn [mul BOps] in *. lra.
Qed.
(** a length, with an absolute error [t] when the square is below the normal range *)
Lemma length_any (MO : MathOps F) (IM : ieee_math prec emax MO) (v : list F) t : three v -> norm 3 (vals v) * norm 3 (vals v) <= bpow radix2 (emax - 3) -> 0 <= t -> bpow radix2 (7 - emax) <= t * t ->
  exists len, vlength v = Ok len /\ fin len /\ 0 <= val len /\ Rabs (val len - norm 3 (vals v)) <= 16 * u * norm 3 (vals v) + t / 2.
Proof.
  intros [L3 Fv] Hi T0 Lo. destruct v as [|x [|y [|z [|]]]]; try discriminate. destruct (length3_vec (MO := MO) x y z) as [L1 L2]. exists (length3 x y z). split; [exact L2|].
  destruct (eight_bits prec emax U256) as (U & [Et Eu] & B9 & _). set (M := norm 3 (vals [x; y; z])) in *. assert (M0 : 0 <= M) by apply norm_pos. assert (MM : norm2 prec emax [x; y; z] = M * M) by (unfold M; rewrite norm_sq; reflexivity).
  assert (P3 : bpow radix2 emax = 8 * bpow radix2 (emax - 3)) by (change 8 with (bpow radix2 3); rewrite <- bpow_plus; f_equal; ring). pose proof (bpow_gt_0 radix2 (emax - 3)) as Bp. pose proof (sq_pos M) as MP.
  assert (U2 : u * u <= / 256 * u) by (apply Rmult_le_compat_r; lra). assert (U3 : u * u * u <= / 65536 * u) by (apply Rmult_le_compat_r; [lra|]; lra). assert (Uq : 0 <= u * u) by apply sq_pos. assert (Ur : 0 <= u * u * u) by (apply Rmult_le_pos; lra). assert (Q3 : 1 <= (1 + u) ^ 3 <= 102 / 100) by (cbn; split; lra).
  assert (Fl : fin (length_squared3 x y z)).
  { assert (D : exists d, vdot [x; y; z] [x; y; z] = Ok d /\ fin d).
    { apply (dot_no_overflow prec emax); [discriminate|reflexivity| |].
      - intros a Ha. assert (In a [x; y; z]) as Ha' by tauto. destruct Ha' as [<-|[<-|[<-|[]]]]; [apply (Fv 0%nat)|apply (Fv 1%nat)|apply (Fv 2%nat)]; lia.
      - unfold fits. cbn [length]. rewrite (rsum_ext 3 _ (fun i => vals [x; y; z] i * vals [x; y; z] i)) by (intros; apply Rabs_pos_eq, sq_pos). rewrite <- norm_sq. fold M. replace (INR 3) with 3 by (cbn; lra).
        assert ((1 + u) ^ 3 * (M * M) <= 102 / 100 * bpow radix2 (emax - 3)) by (apply Rmult_le_compat; lra). assert ((1 + u) ^ 3 * eta <= 102 / 100 * eta) by (apply Rmult_le_compat_r; lra). lra. }
    destruct D as (d & Ed & Fd). cbn in Ed. apply ok_inj in Ed. subst d. exact Fd. }
  pose proof (squares_nonneg x y z Fl) as Ln. set (l := length_squared3 x y z) in *. assert (EL : length3 x y z = Bsqrt mode_NE l) by (apply (proj1 IM)).
  destruct (Bsqrt_correct prec emax Hprec Hmax mode_NE l) as (A & B & _).
  assert (FL : fin (length3 x y z)). { rewrite EL, B. clear -Fl Ln. destruct l as [s|s| |[|] m e h]; auto. exfalso. cbn [B2R cond_Zopp] in Ln. assert (@F2R radix2 {| Fnum := Z.neg m; Fexp := e |} < 0) by (apply Float_prop.F2R_lt_0; cbn; lia). cbn in *. lra. }
  assert (VL : val (length3 x y z) = rnd (sqrt (val l))) by (rewrite EL; exact A).
  split; [exact FL|]. split; [rewrite VL; apply rnd_nonneg, sqrt_pos|].
  destruct (Rle_or_lt (bpow radix2 (3 - emax)) (M * M)) as [Big|Small].
  - destruct (length_accuracy prec emax IM [x; y; z] l (length3 x y z) L1 Fl L2) as [_ X]; [cbn [length]; replace (INR 3) with 3 by (cbn; lra); lra|rewrite MM; exact Big|]. rewrite MM, sqrt_square in X by auto. cbn [length] in X. replace (INR 3) with 3 in X by (cbn; lra). eapply Rle_trans; [exact X|]. lra.
  - pose proof (length_squared_accuracy prec emax [x; y; z] l L1 Fl) as X. cbv zeta in X. cbn [length] in X. rewrite <- norm_sq in X. fold M in X. replace (INR 3) with 3 in X by (cbn; lra).
    assert (P7 : bpow radix2 (7 - emax) = 16 * bpow radix2 (3 - emax)) by (change 16 with (bpow radix2 4); rewrite <- bpow_plus; f_equal; ring). assert (E3 : eta <= u * bpow radix2 (3 - emax)). { eapply Rle_trans; [apply eta_small|]. apply Rmult_le_compat_l; [lra|]. apply bpow_le. lia. }
    set (b := bpow radix2 (3 - emax)) in *. assert (b0 : 0 < b) by apply bpow_gt_0. assert (UB : u * b <= / 256 * b) by (apply Rmult_le_compat_r; lra).
    assert (Lb : val l <= 11 / 10 * b).
    { apply Rabs_le_inv in X. assert (((1 + u) ^ 3 - 1) * (M * M) <= 2 / 100 * b) by (apply Rmult_le_compat; lra). assert (3 * (1 + u) ^ 3 * eta <= 4 * eta) by (apply Rmult_le_compat_r; lra). lra. }
    assert (T2 : sqrt (val l) <= 3 / 10 * t). { apply sq_le; [lra|]. rewrite sqrt_sqrt by auto. lra. }
    assert (M2 : M <= / 4 * t) by (apply sq_le; [lra|]; lra). destruct (rnd_err prec emax (sqrt (val l))) as (d & e & D & E & V). pose proof (sqrt_pos (val l)) as S0.
    assert (Te : eta <= / 256 * t). { eapply Rle_trans; [exact E3|]. assert (b <= t); [|lra]. destruct (Rle_or_lt b 1); [|exfalso]. 2: { assert (b <= bpow radix2 0) by (apply bpow_le; change 512 with (bpow radix2 9) in B9; apply le_bpow in B9; lia). cbn in *. lra. } apply sq_le; [lra|]. assert (b * b <= 1 * b) by (apply Rmult_le_compat_r; lra). lra. }
    assert (V0 : 0 <= val (length3 x y z) <= 32 / 100 * t). { split; [rewrite VL; apply rnd_nonneg, sqrt_pos|]. rewrite VL. eapply Rle_trans; [apply Req_le; exact V|]. apply Rabs_le_inv in D, E. assert (sqrt (val l) * (1 + d) <= 3 / 10 * t * (257 / 256)) by (apply Rmult_le_compat; lra). lra. }
    assert (0 <= u * M) by (apply Rmult_le_pos; lra). apply Rabs_le. lra.
Qed.
(** ** Three dimensions *)
(** the product of the lengths is clear of overflow, and its roundoff is clear of underflow *)
Definition product_in_range (L : R) : Prop := 0 <= L /\ bpow radix2 (7 - emax) <= (u * L) * (u * L) /\ L * L <= bpow radix2 (emax - 4).
Lemma product_facts L : product_in_range L -> 0 < L /\ eta <= / 256 * (u * L) /\ L <= bpow radix2 (emax - 4).
Proof.
  intros (L0 & Lo & Hi). destruct (eight_bits prec emax U256) as (U & [Et Eu] & B9 & _). pose proof (bpow_gt_0 radix2 (7 - emax)) as Bp. assert (X9 : (9 <= emax)%Z) by (change 512 with (bpow radix2 9) in B9; apply le_bpow in B9; auto).
  assert (UL : 0 <= u * L) by (apply Rmult_le_pos; lra). assert (L1 : L <> 0) by (intros ->; rewrite Rmult_0_r, Rmult_0_r in Lo; lra).
  split; [lra|]. split.
  - assert (R1 : bpow radix2 (2 - emax) <= u * L). { apply sq_le; auto. eapply Rle_trans; [|exact Lo]. rewrite <- bpow_plus. apply bpow_le. lia. }
    eapply Rle_trans; [apply eta_small|]. apply Rmult_le_compat; try lra. left; apply bpow_gt_0.
  - destruct (Rle_or_lt L 1) as [S|S]; [apply Rle_trans with (bpow radix2 0); [cbn; lra|apply bpow_le; lia]|]. eapply Rle_trans; [|exact Hi]. rewrite <- (Rmult_1_l L) at 1. apply Rmult_le_compat_r; lra.
Qed.
Lemma dot3_close (v w : list F) d : three v -> three w -> vdot v w = Ok d -> norm 3 (vals v) * norm 3 (vals w) <= bpow radix2 (emax - 3) ->
  fin d /\ Rabs (val d - rsum 3 (fun k => vals v k * vals w k)) <= 151 / 50 * u * (norm 3 (vals v) * norm 3 (vals w)) + 4 * eta.
Proof.
  intros [Lv Fv] [Lw Fw] E HL. destruct (eight_bits prec emax U256) as (U & [Et Eu] & B9 & _). set (L := norm 3 (vals v) * norm 3 (vals w)) in *. assert (L0 : 0 <= L) by (apply Rmult_le_pos; apply norm_pos).
  assert (U2 : u * u <= / 256 * u) by (apply Rmult_le_compat_r; lra). assert (U3 : u * u * u <= / 65536 * u) by (apply Rmult_le_compat_r; lra). assert (Uq : 0 <= u * u) by apply sq_pos. assert (Ur : 0 <= u * u * u) by (apply Rmult_le_pos; lra).
  assert (Q3 : 0 <= (1 + u) ^ 3 - 1 <= 151 / 50 * u) by (cbn; split; lra). set (S := rsum 3 (fun k => Rabs (vals v k * vals w k))).
  assert (SL : S <= L). { unfold S, L. rewrite <- (norm_abs 3 (vals v)), <- (norm_abs 3 (vals w)). eapply Rle_trans; [|apply cauchy]. eapply Rle_trans; [|apply Rle_abs]. apply Req_le, rsum_ext. intros k _. apply Rabs_mult. }
  assert (S0 : 0 <= S) by (apply rsum_nonneg; intros; apply Rabs_pos). assert (P3 : bpow radix2 emax = 8 * bpow radix2 (emax - 3)) by (change 8 with (bpow radix2 3); rewrite <- bpow_plus; f_equal; ring).
  assert (Fd : fin d).
  { destruct (dot_no_overflow prec emax v w) as (d' & Ed & Fd'); [intros ->; discriminate|congruence| | |rewrite E in Ed; apply ok_inj in Ed; subst d'; exact Fd'].
    - intros x Hx. destruct Hx as [Hx|Hx]; apply (In_nth _ _ zero) in Hx; destruct Hx as (k & Hk & <-); [apply Fv|apply Fw]; lia.
    - unfold fits. rewrite Lv. fold S. replace (INR 3) with 3 by (cbn; lra). assert ((1 + u) ^ 3 * S <= 102 / 100 * L) by (apply Rmult_le_compat; lra). assert ((1 + u) ^ 3 * eta <= 102 / 100 * eta) by (apply Rmult_le_compat_r; lra). lra. }
  split; [exact Fd|]. destruct (dot_accuracy prec emax v w d E Fd) as [_ A]. unfold accurate in A. rewrite Lv in A. fold S in A. replace (INR 3) with 3 in A by (cbn; lra). eapply Rle_trans; [exact A|].
  assert (((1 + u) ^ 3 - 1) * S <= 151 / 50 * u * L) by (apply Rmult_le_compat; lra). assert (3 * (1 + u) ^ 3 * eta <= 4 * eta) by (apply Rmult_le_compat_r; lra). lra.
Qed.
(** the pair handed to atan2 *)
Lemma angle_pair (MO : MathOps F) (IM : ieee_math prec emax MO) (v w c : list F) l d : three v -> three w -> let L := norm 3 (vals v) * norm 3 (vals w) in product_in_range L ->
  vcross3 v w = Ok c -> vlength c = Ok l -> vdot v w = Ok d ->
  three c /\ dist3 (vals c) (cross3 (vals v) (vals w)) <= 5 * u * L /\ fin l /\ fin d /\ 0 <= val l /\ Rabs (val l - norm 3 (cross3 (vals v) (vals w))) <= 23 * u * L /\ Rabs (val d - rsum 3 (fun k => vals v k * vals w k)) <= 4 * u * L.
Proof.
  intros Tv Tw L HL Ec El Ed. destruct (product_facts L HL) as (L1 & Et & LB). destruct HL as (L0 & Lo & Hi). destruct (eight_bits prec emax U256) as (U & _).
  assert (P34 : bpow radix2 (emax - 3) = 2 * bpow radix2 (emax - 4)) by (change 2 with (bpow radix2 1); rewrite <- bpow_plus; f_equal; ring). pose proof (bpow_gt_0 radix2 (emax - 4)) as Bp. assert (UL : 0 < u * L <= / 256 * L) by (split; [apply Rmult_lt_0_compat; lra|apply Rmult_le_compat_r; lra]).
  destruct (cross_near prec emax U256 v w c Tv Tw Ec) as [Tc Dc]; [fold L; lra|]. fold L in Dc. assert (Dc5 : dist3 (vals c) (cross3 (vals v) (vals w)) <= 5 * u * L) by lra.
  split; [exact Tc|]. split; [exact Dc5|]. destruct (dot3_close v w d Tv Tw Ed) as [Fd Dd]; [fold L; lra|]. fold L in Dd.
  set (X := cross3 (vals v) (vals w)) in *. assert (XL : norm 3 X <= L) by apply cross_norm. pose proof (norm_dist 3 (vals c) X) as ND. change (norm 3 (fun k => vals c k - X k)) with (dist3 (vals c) X) in ND. assert (X0 := norm_pos 3 X). assert (C0 := norm_pos 3 (vals c)).
  assert (ND' : Rabs (norm 3 (vals c) - norm 3 X) <= 5 * u * L) by lra. assert (NDi := ND'). apply Rabs_le_inv in NDi. assert (CL : norm 3 (vals c) <= 11 / 10 * L) by lra.
  destruct (length_any MO IM c (u * L) Tc) as (l' & El' & Fl & l0 & Dl); [|lra|exact Lo|]. { assert (norm 3 (vals c) * norm 3 (vals c) <= (11 / 10 * L) * (11 / 10 * L)) by (apply Rmult_le_compat; lra). lra. }
  rewrite El in El'. apply ok_inj in El'. subst l'. split; [exact Fl|]. split; [exact Fd|]. split; [exact l0|]. split; [|lra].
  replace (val l - norm 3 X) with ((val l - norm 3 (vals c)) + (norm 3 (vals c) - norm 3 X)) by ring. eapply Rle_trans; [apply Rabs_triang|]. assert (u * norm 3 (vals c) <= u * (21 / 20 * L)) by (apply Rmult_le_compat_l; lra). lra.
Qed.
Lemma sine_of_angle (a b : nat -> R) theta : let L := norm 3 a * norm 3 b in 0 < L -> 0 <= theta <= PI -> L * cos theta = rsum 3 (fun k => a k * b k) -> L * sin theta = norm 3 (cross3 a b).
Proof.
  intros L L1 Ht Hc. assert (Sp : 0 <= sin theta) by (apply sin_ge_0; lra). assert (Q : (L * sin theta) * (L * sin theta) = norm 3 (cross3 a b) * norm 3 (cross3 a b)).
  { rewrite cross_sq, <- Hc. pose proof (sin2_cos2 theta) as SC. unfold Rsqr in SC. replace (L * sin theta * (L * sin theta)) with (L * L * (sin theta * sin theta)) by ring. replace (sin theta * sin theta) with (1 - cos theta * cos theta) by lra. unfold L. ring. }
  pose proof (norm_pos 3 (cross3 a b)). assert (0 <= L * sin theta) by (apply Rmult_le_pos; lra). apply Rle_antisym; apply sq_le; lra.
Qed.
Lemma not_origin L theta s c e : 0 < L -> Rabs (s - L * sin theta) <= e * L -> Rabs (c - L * cos theta) <= e * L -> e <= / 8 -> s <> 0 \/ c <> 0.
Proof.
  intros L0 Hs Hc He. destruct (Req_dec s 0) as [->|]; [|auto]. destruct (Req_dec c 0) as [->|]; [exfalso|auto]. pose proof (sin2_cos2 theta) as SC. unfold Rsqr in SC.
  assert (B : forall x, Rabs (0 - L * x) <= e * L -> x * x <= / 4).
  { intros x Hx. replace (0 - L * x) with (- (x * L)) in Hx by ring. rewrite Rabs_Ropp, Rabs_mult, (Rabs_pos_eq L) in Hx by lra. apply Rmult_le_reg_r in Hx; [|auto]. assert (Rabs x * Rabs x <= / 8 * / 8) by (apply Rmult_le_compat; auto using Rabs_pos; lra). rewrite <- Rabs_mult, Rabs_pos_eq in H by apply sq_pos. lra. }
  pose proof (B _ Hs). pose proof (B _ Hc). lra.
Qed.
(** [t] is the angle of the pair (c, s), measured exactly: it is within [e] of [theta] as a direction *)
Definition angle_within (e : R) (theta : R) (s c : R) : Prop := (s <> 0 \/ c <> 0) /\ forall t rho, 0 <= rho -> c = rho * cos t -> s = rho * sin t -> Rabs (sin (t - theta)) <= e /\ 0 < cos (t - theta).
Theorem unsigned_angle_accuracy : forall (MO : MathOps F), ieee_math prec emax MO -> forall (v w : list F) r theta, three v -> three w ->
  let L := norm 3 (vals v) * norm 3 (vals w) in product_in_range L -> 0 <= theta <= PI -> L * cos theta = rsum 3 (fun k => vals v k * vals w k) ->
  vunsigned_angle v w = Ok r ->
  exists s c : F, r = matan2 s c /\ fin s /\ fin c /\ 0 <= val s /\ angle_within (31 * u) theta (val s) (val c).
Proof.
  intros MO IM v w r theta Tv Tw L HL Ht Hc E. unfold vunsigned_angle in E. apply bind_ok in E. destruct E as (c & Ec & E). apply bind_ok in E. destruct E as (l & El & E). apply bind_ok in E. destruct E as (d & Ed & E). apply ok_inj in E. subst r.
  destruct (angle_pair MO IM v w c l d Tv Tw HL Ec El Ed) as (_ & _ & Fl & Fd & l0 & Dl & Dd). fold L in Dl, Dd. destruct (product_facts L HL) as (L1 & _ & _). destruct (eight_bits prec emax U256) as (U & _). pose proof (sine_of_angle _ _ theta L1 Ht Hc) as Hs. fold L in Hs.
  exists l, d. split; [reflexivity|]. split; [exact Fl|]. split; [exact Fd|]. split; [exact l0|]. rewrite <- Hs in Dl. rewrite <- Hc in Dd. split.
  - apply (not_origin L theta (val l) (val d) (23 * u)); auto; [|lra]. assert (0 <= u * L) by (apply Rmult_le_pos; lra). lra.
  - intros t rho R0 Vc Vs. destruct (angle_close L (23 * u) (val d) (val l) theta rho t (4 * u) L1 R0 Dl Dd ltac:(lra) Vc Vs) as [A B]. split; [lra|exact B].
Qed.
(** the sign: that of (v x w) . reference, unless the latter is within rounding of zero *)
Theorem signed_angle_sign_float : forall (MO : MathOps F), ieee_math prec emax MO -> forall (v w ref : list F) r, three v -> three w -> three ref ->
  let L := norm 3 (vals v) * norm 3 (vals w) in let N := norm 3 (vals ref) in product_in_range L -> 2 * L * N <= bpow radix2 (emax - 3) ->
  vsigned_angle v w ref = Ok r -> let side := rsum 3 (fun k => cross3 (vals v) (vals w) k * vals ref k) in let margin := 9 * u * (L * N) + 4 * eta in
  exists a, vunsigned_angle v w = Ok a /\ (r = a \/ r = neg a) /\ (margin < side -> r = a) /\ (side < - margin -> r = neg a).
Proof.
  intros MO IM v w ref r Tv Tw Tr L N HL HN E side margin. unfold vsigned_angle in E. apply bind_ok in E. destruct E as (c & Ec & E). apply bind_ok in E. destruct E as (l & El & E). apply bind_ok in E. destruct E as (d & Ed & E). cbv zeta in E. apply bind_ok in E. destruct E as (cr & Ecr & E). apply ok_inj in E.
  exists (matan2 l d). split; [unfold vunsigned_angle; rewrite Ec; cbn [bind]; rewrite El; cbn [bind]; rewrite Ed; reflexivity|].
  destruct (angle_pair MO IM v w c l d Tv Tw HL Ec El Ed) as (Tc & Dc & _). fold L in Dc. destruct (product_facts L HL) as (L1 & Et & LB). destruct (eight_bits prec emax U256) as (U & [Et0 _] & _). assert (UL : 0 < u * L <= / 256 * L) by (split; [apply Rmult_lt_0_compat; lra|apply Rmult_le_compat_r; lra]).
  set (X := cross3 (vals v) (vals w)) in *. assert (XL : norm 3 X <= L) by apply cross_norm. pose proof (norm_dist 3 (vals c) X) as ND. change (norm 3 (fun k => vals c k - X k)) with (dist3 (vals c) X) in ND. assert (C0 := norm_pos 3 (vals c)). assert (N0 : 0 <= N) by apply norm_pos. apply Rabs_le_inv in ND. assert (CL : norm 3 (vals c) <= 11 / 10 * L) by lra.
  assert (CN : norm 3 (vals c) * N <= 11 / 10 * L * N) by (apply Rmult_le_compat_r; auto). assert (LN : 0 <= L * N) by (apply Rmult_le_pos; lra).
  destruct (dot3_close c ref cr Tc Tr Ecr) as [Fcr Dcr]; [fold N; lra|]. fold N in Dcr.
  assert (Ds : Rabs (val cr - side) <= margin).
  { set (S := rsum 3 (fun k => vals c k * vals ref k)) in *. assert (D2 : Rabs (S - side) <= 5 * u * L * N).
    { replace (S - side) with (rsum 3 (fun k => (vals c k - X k) * vals ref k)) by (unfold S, side; cbn [rsum]; ring). eapply Rle_trans; [apply cauchy|]. fold N. apply Rmult_le_compat_r; auto. }
    replace (val cr - side) with ((val cr - S) + (S - side)) by ring. eapply Rle_trans; [apply Rabs_triang|]. unfold margin. assert (u * (norm 3 (vals c) * N) <= u * (11 / 10 * L * N)) by (apply Rmult_le_compat_l; lra). assert (0 <= u * (L * N)) by (apply Rmult_le_pos; lra). lra. }
  assert (Lt : ltb cr zero = true <-> val cr < 0). { rewrite (ltb_val prec emax) by auto. change (val zero) with 0. destruct (Rlt_bool_spec (val cr) 0); split; intros; auto; try discriminate; lra. }
  apply Rabs_le_inv in Ds. subst r. split; [destruct (ltb cr zero); auto|]. split; intros Hm.
  - destruct (ltb cr zero); [|reflexivity]. exfalso. assert (val cr < 0) by (apply Lt; reflexivity). lra.
  - assert (Z : ltb cr zero = true) by (apply Lt; lra). rewrite Z. reflexivity.
Qed.

(** ** Two dimensions: the angle is signed and comes straight from atan2 *)
Definition two (v : list F) : Prop := length v = 2%nat /\ forall k, (k < 2)%nat -> fin (el v k).
Theorem signed_angle_2D_accuracy : forall (MO : MathOps F) (v w : list F) r theta, two v -> two w ->
  let L := norm 2 (vals v) * norm 2 (vals w) in bpow radix2 (7 - emax) <= u * L -> L <= bpow radix2 (emax - 3) ->
  L * cos theta = vals v 0%nat * vals w 0%nat + vals v 1%nat * vals w 1%nat -> L * sin theta = vals v 0%nat * vals w 1%nat - vals v 1%nat * vals w 0%nat ->
  vsigned_angle_2D v w = Ok r ->
  exists s c : F, r = matan2 s c /\ fin s /\ fin c /\ angle_within (7 * u) theta (val s) (val c).
Proof.
  intros MO v w r theta [Lv Fv] [Lw Fw] L Lo Hi Hc Hs E. destruct (eight_bits prec emax U256) as (U & [Et Eu] & B9 & _). pose proof (bpow_gt_0 radix2 (7 - emax)) as Bp.
  assert (L0 : 0 <= L) by (apply Rmult_le_pos; apply norm_pos). assert (L1 : 0 < L) by (destruct (Req_dec L 0) as [Z|]; [rewrite Z, Rmult_0_r in Lo; lra|lra]).
  assert (Es : eta <= / 256 * (u * L)). { eapply Rle_trans; [apply eta_small|]. apply Rmult_le_compat; try lra; [left; apply bpow_gt_0|]. eapply Rle_trans; [|exact Lo]. apply bpow_le. lia. }
  assert (P3 : bpow radix2 emax = 8 * bpow radix2 (emax - 3)) by (change 8 with (bpow radix2 3); rewrite <- bpow_plus; f_equal; ring). assert (UL : 0 < u * L <= / 256 * L) by (split; [apply Rmult_lt_0_compat; lra|apply Rmult_le_compat_r; lra]).
  destruct v as [|v0 [|v1 [|]]]; try discriminate. destruct w as [|w0 [|w1 [|]]]; try discriminate. pose proof (Fv 0%nat ltac:(lia)) as F0. pose proof (Fv 1%nat ltac:(lia)) as F1. pose proof (Fw 0%nat ltac:(lia)) as G0. pose proof (Fw 1%nat ltac:(lia)) as G1. cbn in F0, F1, G0, G1.
  unfold vals in Hc, Hs. cbn [nth] in Hc, Hs.
  assert (B1 : forall a b c d : F, Rabs (val a * val c) + Rabs (val b * val d) <= norm 2 (vals [a; b]) * norm 2 (vals [c; d])).
  { intros a b c d. rewrite <- (norm_abs 2 (vals [a; b])), <- (norm_abs 2 (vals [c; d])). eapply Rle_trans; [|apply cauchy]. eapply Rle_trans; [|apply Rle_abs]. cbn [rsum]. unfold vals. cbn [nth]. rewrite !Rabs_mult. lra. }
  assert (Sw : norm 2 (vals [w1; w0]) = norm 2 (vals [w0; w1])) by (unfold norm; f_equal; cbn [rsum]; unfold vals; cbn [nth]; ring).
  pose proof (B1 v0 v1 w0 w1) as C1. fold L in C1. pose proof (B1 v0 v1 w1 w0) as C2. rewrite Sw in C2. fold L in C2.
  assert (One : forall a b : F, fin a -> fin b -> Rabs (val a * val b) <= L -> fin (mul a b) /\ Rabs (val (mul a b) - val a * val b) <= u * Rabs (val a * val b) + eta).
  { intros a b Fa Fb H. pose proof (Rabs_pos (val a * val b)) as P. assert (u * Rabs (val a * val b) <= u * L) by (apply Rmult_le_compat_l; lra). assert (Fz : fin (mul a b)) by (apply mul_fits; auto; lra). split; [auto|].
    destruct (mul_err prec emax _ _ Fz) as (_ & _ & d & e0 & D & E0 & V). rewrite V. replace (val a * val b * (1 + d) + e0 - val a * val b) with (d * (val a * val b) + e0) by ring. eapply Rle_trans; [apply Rabs_triang|]. rewrite Rabs_mult. apply Rplus_le_compat; auto. apply Rmult_le_compat_r; auto. }
  assert (P := Rabs_pos). pose proof (P (val v0 * val w0)). pose proof (P (val v1 * val w1)). pose proof (P (val v0 * val w1)). pose proof (P (val v1 * val w0)).
  destruct (One v0 w0 F0 G0 ltac:(lra)) as [Fa Da]. destruct (One v1 w1 F1 G1 ltac:(lra)) as [Fb Db]. destruct (One v0 w1 F0 G1 ltac:(lra)) as [Fc Dc]. destruct (One v1 w0 F1 G0 ltac:(lra)) as [Fd Dd].
  assert (M1 : u * (Rabs (val v0 * val w0) + Rabs (val v1 * val w1)) <= u * L) by (apply Rmult_le_compat_l; lra). assert (M2 : u * (Rabs (val v0 * val w1) + Rabs (val v1 * val w0)) <= u * L) by (apply Rmult_le_compat_l; lra).
  assert (Dsum : Rabs (val (mul v0 w0) + val (mul v1 w1) - L * cos theta) <= 51 / 50 * (u * L)) by (rewrite Hc; apply Rabs_le_inv in Da, Db; apply Rabs_le; lra).
  assert (Ddif : Rabs (val (mul v0 w1) - val (mul v1 w0) - L * sin theta) <= 51 / 50 * (u * L)) by (rewrite Hs; apply Rabs_le_inv in Dc, Dd; apply Rabs_le; lra).
  pose proof (SIN_bound theta) as Sb. pose proof (COS_bound theta) as Cb. assert (LC : Rabs (L * cos theta) <= L) by (rewrite Rabs_mult, (Rabs_pos_eq L) by lra; rewrite <- (Rmult_1_r L) at 2; apply Rmult_le_compat_l; [lra|apply Rabs_le; lra]). assert (LS : Rabs (L * sin theta) <= L) by (rewrite Rabs_mult, (Rabs_pos_eq L) by lra; rewrite <- (Rmult_1_r L) at 2; apply Rmult_le_compat_l; [lra|apply Rabs_le; lra]).
  set (x := val (mul v0 w0) + val (mul v1 w1)) in *. set (y := val (mul v0 w1) - val (mul v1 w0)) in *. assert (Ax : Rabs x <= 101 / 100 * L) by (apply Rabs_le_inv in Dsum, LC; apply Rabs_le; lra). assert (Ay : Rabs y <= 101 / 100 * L) by (apply Rabs_le_inv in Ddif, LS; apply Rabs_le; lra).
  assert (Fx : forall q, Rabs q <= 101 / 100 * L -> (1 + u) * Rabs q < bpow radix2 emax) by (intros q Hq; assert ((1 + u) * Rabs q <= 257 / 256 * (101 / 100 * L)) by (apply Rmult_le_compat; try lra; apply Rabs_pos); lra).
  assert (Fs : fin (sub (mul v0 w1) (mul v1 w0))) by (apply sub_fits; auto; apply Fx; exact Ay). assert (Fp : fin (add (mul v0 w0) (mul v1 w1))) by (apply add_fits; auto; apply Fx; exact Ax).
  destruct (sub_err prec emax _ _ Fs) as (_ & _ & d1 & D1 & V1). destruct (add_err prec emax _ _ Fp) as (_ & _ & d2 & D2 & V2). fold y in V1. fold x in V2.
  assert (S1 : Rabs (val (sub (mul v0 w1) (mul v1 w0)) - L * sin theta) <= 3 * u * L).
  { rewrite V1. replace (y * (1 + d1) - L * sin theta) with ((y - L * sin theta) + d1 * y) by ring. eapply Rle_trans; [apply Rabs_triang|]. rewrite Rabs_mult. assert (Rabs d1 * Rabs y <= u * (101 / 100 * L)) by (apply Rmult_le_compat; auto). lra. }
  assert (S2 : Rabs (val (add (mul v0 w0) (mul v1 w1)) - L * cos theta) <= 3 * u * L).
  { rewrite V2. replace (x * (1 + d2) - L * cos theta) with ((x - L * cos theta) + d2 * x) by ring. eapply Rle_trans; [apply Rabs_triang|]. rewrite Rabs_mult. assert (Rabs d2 * Rabs x <= u * (101 / 100 * L)) by (apply Rmult_le_compat; auto). lra. }
  cbn in E. apply ok_inj in E. subst r. eexists. eexists. split; [reflexivity|]. split; [exact Fs|]. split; [exact Fp|]. split.
  - apply (not_origin L theta _ _ (3 * u)); auto. lra.
  - intros t rho R0 Vc Vs. destruct (angle_close L (3 * u) _ _ theta rho t (3 * u) L1 R0 S1 S2 ltac:(lra) Vc Vs) as [A B]. split; [lra|exact B].
Qed.
End IEEE.

(** ** Examples in double precision: (3, 4, 0) and (4, 3, 0) *)
Definition ex_a : list double := [dbl 3 0; dbl 4 0; dbl 0 0].
Definition ex_b : list double := [dbl 4 0; dbl 3 0; dbl 0 0].
Lemma ex_a_val i : (i < 3)%nat -> vals 53 1024 ex_a i = match i with 0%nat => 3 | 1%nat => 4 | _ => 0 end.
Proof. revert i. apply cases3; unfold vals; cbn [nth ex_a]; rewrite !(fun m e A B => proj2 (dbl_ok m e A B)) by lia; cbn; ring. Qed.
Lemma ex_b_val i : (i < 3)%nat -> vals 53 1024 ex_b i = match i with 0%nat => 4 | 1%nat => 3 | _ => 0 end.
Proof. revert i. apply cases3; unfold vals; cbn [nth ex_b]; rewrite !(fun m e A B => proj2 (dbl_ok m e A B)) by lia; cbn; ring. Qed.
Lemma ex_ab_three : three 53 1024 ex_a /\ three 53 1024 ex_b.
Proof. repeat split; apply cases3; apply dbl_ok; lia. Qed.
Lemma ex_ab_norm : norm 3 (vals 53 1024 ex_a) = 5 /\ norm 3 (vals 53 1024 ex_b) = 5.
Proof.
  assert (Q : forall x, norm 3 x * norm 3 x = 25 -> norm 3 x = 5) by (intros x H; pose proof (norm_pos 3 x); apply Rle_antisym; apply sq_le; lra).
  split; apply Q; rewrite norm_sq; cbn [rsum]; rewrite ?ex_a_val, ?ex_b_val by lia; ring.
Qed.
Lemma ex_ab_range : product_in_range 53 1024 (norm 3 (vals 53 1024 ex_a) * norm 3 (vals 53 1024 ex_b)).
Proof.
  destruct ex_ab_norm as [-> ->]. assert (V : bpow radix2 (-60) <= u_round 53) by (apply bpow_le; lia). pose proof (bpow_gt_0 radix2 (-60)). unfold product_in_range. repeat split; [lra| |].
  - apply Rle_trans with (bpow radix2 (-60) * bpow radix2 (-60)); [rewrite <- bpow_plus; apply bpow_le; lia|]. apply Rmult_le_compat; lra.
  - apply Rle_trans with (bpow radix2 10); [cbn; lra|apply bpow_le; lia].
Qed.
(** the pair handed to atan2 is at the exact angle acos(24/25) up to 1e-10 *)
Example unsigned_angle_case : exists s c : double, @vunsigned_angle double _ turn_math ex_a ex_b = Ok (@matan2 double turn_math s c) /\ angle_within (/ 10000000000) (acos (24 / 25)) (B2R s) (B2R c).
Proof.
  assert (E : exists r, @vunsigned_angle double _ turn_math ex_a ex_b = Ok r) by (eexists; reflexivity). destruct E as [r E].
  pose proof u53_small as U. assert (U2 : u_round 53 <= / 256) by lra. assert (IM : ieee_math 53 1024 turn_math) by (split; reflexivity). destruct ex_ab_three as [Ta Tb].
  destruct (unsigned_angle_accuracy 53 1024 U2 turn_math IM ex_a ex_b r (acos (24 / 25)) Ta Tb ex_ab_range) as (s & c & -> & _ & _ & _ & NZ & X); [apply acos_bound| |exact E|].
  - destruct ex_ab_norm as [-> ->]. rewrite cos_acos by lra. cbn [rsum]. rewrite !ex_a_val, !ex_b_val by lia. lra.
  - exists s, c. split; [exact E|]. split; [exact NZ|]. intros t rho R0 Vc Vs. destruct (X t rho R0 Vc Vs) as [A B]. split; [|exact B]. eapply Rle_trans; [exact A|]. lra.
Qed.
(** seen from +z the turn from (3, 4, 0) to (4, 3, 0) is clockwise: the result is the negated unsigned angle *)
Definition ex_z : list double := [dbl 0 0; dbl 0 0; dbl 1 0].
Lemma ex_z_val i : (i < 3)%nat -> vals 53 1024 ex_z i = match i with 2%nat => 1 | _ => 0 end.
Proof. revert i. apply cases3; unfold vals; cbn [nth ex_z]; rewrite !(fun m e A B => proj2 (dbl_ok m e A B)) by lia; cbn; ring. Qed.
Example signed_angle_case : exists a, @vunsigned_angle double _ turn_math ex_a ex_b = Ok a /\ @vsigned_angle double _ turn_math ex_a ex_b ex_z = Ok (neg a).
Proof.
  assert (E : exists r, @vsigned_angle double _ turn_math ex_a ex_b ex_z = Ok r) by (eexists; reflexivity). destruct E as [r E].
  pose proof u53_small as U. pose proof eta53 as Et. assert (U2 : u_round 53 <= / 256) by lra. assert (IM : ieee_math 53 1024 turn_math) by (split; reflexivity). destruct ex_ab_three as [Ta Tb].
  assert (Tz : three 53 1024 ex_z) by (split; [reflexivity|]; apply cases3; apply dbl_ok; lia). assert (Nz : norm 3 (vals 53 1024 ex_z) = 1).
  { assert (Q : norm 3 (vals 53 1024 ex_z) * norm 3 (vals 53 1024 ex_z) = 1) by (rewrite norm_sq; cbn [rsum]; rewrite !ex_z_val by lia; ring). pose proof (norm_pos 3 (vals 53 1024 ex_z)). apply Rle_antisym; apply sq_le; lra. }
  destruct (signed_angle_sign_float 53 1024 U2 turn_math IM ex_a ex_b ex_z r Ta Tb Tz ex_ab_range) as (a & Ea & _ & _ & X); [|exact E|].
  - destruct ex_ab_norm as [-> ->]. rewrite Nz. apply Rle_trans with (bpow radix2 6); [cbn; lra|apply bpow_le; lia].
  - exists a. split; [exact Ea|]. rewrite E. f_equal. apply X. destruct ex_ab_norm as [-> ->]. rewrite Nz. cbn [rsum cross3]. rewrite !ex_z_val by lia. rewrite !ex_a_val, !ex_b_val by lia. lra.
Qed.
(** in 2D the same turn is -acos(24/25) *)
Example signed_angle_2D_case : exists s c : double, @vsigned_angle_2D double _ turn_math [dbl 3 0; dbl 4 0] [dbl 4 0; dbl 3 0] = Ok (@matan2 double turn_math s c) /\ angle_within (/ 10000000000) (- acos (24 / 25)) (B2R s) (B2R c).
Proof.
  assert (E : exists r, @vsigned_angle_2D double _ turn_math [dbl 3 0; dbl 4 0] [dbl 4 0; dbl 3 0] = Ok r) by (eexists; reflexivity). destruct E as [r E].
  pose proof u53_small as U. assert (U2 : u_round 53 <= / 256) by lra. assert (V : forall i, (i < 2)%nat -> vals 53 1024 [dbl 3 0; dbl 4 0] i = match i with 0%nat => 3 | _ => 4 end).
  { intros [|[|i]] Hi; [..|lia]; unfold vals; cbn [nth]; rewrite !(fun m e A B => proj2 (dbl_ok m e A B)) by lia; cbn; ring. }
  assert (W : forall i, (i < 2)%nat -> vals 53 1024 [dbl 4 0; dbl 3 0] i = match i with 0%nat => 4 | _ => 3 end).
  { intros [|[|i]] Hi; [..|lia]; unfold vals; cbn [nth]; rewrite !(fun m e A B => proj2 (dbl_ok m e A B)) by lia; cbn; ring. }
  assert (Q : forall x, norm 2 x * norm 2 x = 25 -> norm 2 x = 5) by (intros x H; pose proof (norm_pos 2 x); apply Rle_antisym; apply sq_le; lra).
  assert (NV : norm 2 (vals 53 1024 [dbl 3 0; dbl 4 0]) = 5) by (apply Q; rewrite norm_sq; cbn [rsum]; rewrite !V by lia; ring). assert (NW : norm 2 (vals 53 1024 [dbl 4 0; dbl 3 0]) = 5) by (apply Q; rewrite norm_sq; cbn [rsum]; rewrite !W by lia; ring).
  assert (T1 : two 53 1024 [dbl 3 0; dbl 4 0]) by (split; [reflexivity|intros [|[|i]] Hi; [..|lia]; apply dbl_ok; lia]). assert (T2 : two 53 1024 [dbl 4 0; dbl 3 0]) by (split; [reflexivity|intros [|[|i]] Hi; [..|lia]; apply dbl_ok; lia]).
  destruct (signed_angle_2D_accuracy 53 1024 U2 turn_math [dbl 3 0; dbl 4 0] [dbl 4 0; dbl 3 0] r (- acos (24 / 25)) T1 T2) as (s & c & -> & _ & _ & NZ & X); rewrite ?NV, ?NW; [..|exact E|].
  - apply Rle_trans with (bpow radix2 (-53)); [apply bpow_le; lia|]. assert (bpow radix2 (-53) <= u_round 53) by (apply bpow_le; lia). lra.
  - apply Rle_trans with (bpow radix2 10); [cbn; lra|apply bpow_le; lia].
  - rewrite cos_neg, cos_acos, !V, !W by (lra || lia). lra.
  - rewrite sin_neg, !V, !W by lia. rewrite sin_acos by lra. replace (1 - (24 / 25)²) with ((7 / 25) * (7 / 25)) by (unfold Rsqr; field). rewrite sqrt_square by lra. lra.
  - exists s, c. split; [exact E|]. split; [exact NZ|]. intros t rho R0 Vc Vs. destruct (X t rho R0 Vc Vs) as [A B]. split; [|exact B]. eapply Rle_trans; [exact A|]. lra.
Qed.
Print Assumptions unsigned_angle_accuracy. Print Assumptions signed_angle_sign_float. Print Assumptions signed_angle_2D_accuracy.
