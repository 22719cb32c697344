(** C81: the mathematical constants and the conversions between degrees and radians. *)
From Coq Require Import ZArith Reals Lra Lia List Bool.
From Flocq Require Import Core IEEE754.BinarySingleNaN.
From Verif Require Import Base IntModel FloatModel MixedModel ConstModel ConstSpec ConstBounds ConstProofs MixedFacts PropMixed.
Import ListNotations.
Open Scope R_scope.

(** ** The constants *)

(** Every constant of double, and every constant of float, is the number of its type that is nearest to
    the real number it stands for (the float is rounded twice, from the literal and from double). *)
Theorem constants_nearest : forall c,
  (exists x : double, constant TDouble c = Some (ND x) /\ strictly_nearest x (meaning c)) /\
  (exists x : single, constant TFloat c = Some (NF x) /\ strictly_nearest x (meaning c)).
Proof.
  intros c. split.
  - exists (in_double c). split; [reflexivity|apply double_nearest].
  - exists (narrow (in_double c)). split; [reflexivity|apply single_nearest].
Qed.
(** Hence their relative errors are at most u / (1 + u). *)
Theorem constants_relative_error : forall c, 0 < meaning c /\
  (exists x : double, constant TDouble c = Some (ND x) /\ Rabs (B2R x - meaning c) * (1 + unit 53) <= unit 53 * meaning c) /\
  (exists x : single, constant TFloat c = Some (NF x) /\ Rabs (B2R x - meaning c) * (1 + unit 24) <= unit 24 * meaning c).
Proof.
  intros c. split; [|split].
  - pose proof PI_RGT_0. destruct c; cbn [meaning]; try lra; try apply exp_pos; try (apply sqrt_lt_R0; lra);
    (apply Rdiv_lt_0_compat; lra).
  - exists (in_double c). split; [reflexivity|apply double_rel].
  - exists (narrow (in_double c)). split; [reflexivity|apply single_rel].
Qed.
(** pi() is below the real number in double and above it in float, and so are its half and its double. *)
Theorem pi_side : forall c, In c [Pi; TwoPi; PiOver2; PiOver4] ->
  (exists x : double, constant TDouble c = Some (ND x) /\ B2R x < meaning c) /\
  (exists x : single, constant TFloat c = Some (NF x) /\ meaning c < B2R x).
Proof.
  intros c Hc.
  assert (D : B2R (in_double c) < meaning c).
  { rewrite (proj2 (double_value c)). cbn [In] in Hc.
    destruct Hc as [<-|[<-|[<-|[<-|[]]]]]; cbn [code64 fst snd meaning]; pose proof PI_enclosure;
    cbn [bpow Z.opp radix_val radix2 Z.pow_pos Pos.iter Z.mul Pos.mul]; lra. }
  assert (S : meaning c < B2R (narrow (in_double c))).
  { rewrite (proj2 (single_value c)). cbn [In] in Hc.
    destruct Hc as [<-|[<-|[<-|[<-|[]]]]]; cbn [code32 fst snd meaning]; pose proof PI_enclosure;
    cbn [bpow Z.opp radix_val radix2 Z.pow_pos Pos.iter Z.mul Pos.mul]; lra. }
  split; [exists (in_double c)|exists (narrow (in_double c))]; split; auto.
Qed.
(** The constant of an integer type is the integer part. *)
Theorem integer_constants_truncated : forall t c, usual t ->
  exists z, constant (TInt t) c = Some (NI t z) /\ in_range t z = true /\ IZR z <= meaning c < IZR z + 1.
Proof.
  intros t c Ht.
  exists (match c with Pi => 3 | TwoPi => 6 | E => 2 | DegPerRad => 57 | PiOver2 => 1 | Sqrt2 => 1 | Sqrt3 => 1 | Sqrt5 => 2 | Sqrt6 => 2 | _ => 0 end)%Z.
  split; [|split].
  - destruct t as [b s]. destruct Ht as [Hb|[Hb|[Hb|Hb]]]; cbn [bits] in Hb; subst b; destruct s, c; vm_compute; reflexivity.
  - destruct t as [b s]. destruct Ht as [Hb|[Hb|[Hb|Hb]]]; cbn [bits] in Hb; subst b; destruct s, c; vm_compute; reflexivity.
  - pose proof PI_enclosure as P. pose proof exp_1_enclosure as Q.
    assert (q : forall z x a b, 0 < x -> a * x <= z < b * x -> a <= z / x < b).
    { intros z x a b Hx [H1 H2]. split.
      - apply (Rmult_le_reg_r x); auto. unfold Rdiv. rewrite Rmult_assoc, Rinv_l by lra. lra.
      - apply (Rmult_lt_reg_r x); auto. unfold Rdiv. rewrite Rmult_assoc, Rinv_l by lra. lra. }
    assert (s : forall x a b, 0 <= a -> a < b -> a * a <= x < b * b -> a <= sqrt x < b).
    { intros x a b Ha Hab [H1 H2]. split.
      - rewrite <- (sqrt_square a) by lra. apply sqrt_le_1_alt; lra.
      - rewrite <- (sqrt_square b) by lra. apply sqrt_lt_1_alt; nra. }
    destruct c; cbn [meaning]; try lra; try (apply q; lra); apply s; lra.
Qed.

(** ** Degrees and radians in floating point *)

Lemma rad_d (x : double) : rad (ND x) = Some (ND (mul x (in_double RadPerDeg))). Proof. reflexivity. Qed.
Lemma deg_d (x : double) : deg (ND x) = Some (ND (mul x (in_double DegPerRad))). Proof. reflexivity. Qed.
Lemma rad_f (x : single) : rad (NF x) = Some (NF (mul x (narrow (in_double RadPerDeg)))). Proof. reflexivity. Qed.
Lemma deg_f (x : single) : deg (NF x) = Some (NF (mul x (narrow (in_double DegPerRad)))). Proof. reflexivity. Qed.
Lemma rad_K : 0 < meaning RadPerDeg <= / 8.
Proof. pose proof PI_enclosure. cbn [meaning]. lra. Qed.
Lemma deg_K : 0 < meaning DegPerRad <= 58.
Proof.
  pose proof PI_enclosure. cbn [meaning]. split; [apply Rdiv_lt_0_compat; lra|].
  apply (Rmult_le_reg_r PI); [lra|]. unfold Rdiv. rewrite Rmult_assoc, Rinv_l by lra. lra.
Qed.
Lemma inv_K : / meaning DegPerRad = meaning RadPerDeg /\ / meaning RadPerDeg = meaning DegPerRad.
Proof. pose proof PI_RGT_0. cbn [meaning]. split; field; lra. Qed.

(** rad(theta) of a finite number is finite and has at most two rounding errors (and the least
    positive number, below the normal range). *)
Theorem rad_accurate :
  (forall x : double, is_finite x = true ->
     exists y : double, rad (ND x) = Some (ND y) /\ is_finite y = true /\ within 2 1 y (B2R x * (PI / 180))) /\
  (forall x : single, is_finite x = true ->
     exists y : single, rad (NF x) = Some (NF y) /\ is_finite y = true /\ within 2 1 y (B2R x * (PI / 180))).
Proof.
  destruct rad_K as [K1 K2]. split; intros x Fx; eexists; (split; [apply rad_d || apply rad_f|]).
  - assert (Fm : is_finite (mul x (in_double RadPerDeg)) = true).
    { exact (shrunk_fits 53 1024 x _ (meaning RadPerDeg) K1 K2 (double_rel _) Fx (proj1 (double_value _))). }
    split; [exact Fm|]. exact (scaled_within 53 1024 x _ (meaning RadPerDeg) K1 (double_rel _) Fm).
  - assert (Fm : is_finite (mul x (narrow (in_double RadPerDeg))) = true).
    { exact (shrunk_fits 24 128 x _ (meaning RadPerDeg) K1 K2 (single_rel _) Fx (proj1 (single_value _))). }
    split; [exact Fm|]. exact (scaled_within 24 128 x _ (meaning RadPerDeg) K1 (single_rel _) Fm).
Qed.
(** deg(theta) likewise, up to 1/64 of the range. *)
Theorem deg_accurate :
  (forall x : double, is_finite x = true -> Rabs (B2R x) * 64 <= bpow radix2 1024 ->
     exists y : double, deg (ND x) = Some (ND y) /\ is_finite y = true /\ within 2 1 y (B2R x * (180 / PI))) /\
  (forall x : single, is_finite x = true -> Rabs (B2R x) * 64 <= bpow radix2 128 ->
     exists y : single, deg (NF x) = Some (NF y) /\ is_finite y = true /\ within 2 1 y (B2R x * (180 / PI))).
Proof.
  destruct deg_K as [K1 K2].
  assert (U : forall p, (6 <= p)%Z -> unit p <= / 64).
  { intros p Hp. change (/ 64) with (bpow radix2 (-6)). apply bpow_le. lia. }
  assert (G : forall e, (6 <= e)%Z -> 64 <= bpow radix2 e).
  { intros p Hp. change 64 with (bpow radix2 6). apply bpow_le. lia. }
  split; intros x Fx Hx; eexists; (split; [apply deg_d || apply deg_f|]).
  - assert (Fm : is_finite (mul x (in_double DegPerRad)) = true).
    { apply (grown_fits 53 1024 x _ (meaning DegPerRad)); [apply U; lia|apply G; lia|exact deg_K|exact (double_rel _)|exact Fx|exact (proj1 (double_value _))|exact Hx]. }
    split; [exact Fm|]. exact (scaled_within 53 1024 x _ (meaning DegPerRad) K1 (double_rel _) Fm).
  - assert (Fm : is_finite (mul x (narrow (in_double DegPerRad))) = true).
    { apply (grown_fits 24 128 x _ (meaning DegPerRad)); [apply U; lia|apply G; lia|exact deg_K|exact (single_rel _)|exact Fx|exact (proj1 (single_value _))|exact Hx]. }
    split; [exact Fm|]. exact (scaled_within 24 128 x _ (meaning DegPerRad) K1 (single_rel _) Fm).
Qed.
(** deg(rad(theta)) is theta but for four roundings. *)
Theorem degrees_round_trip :
  (forall x : double, is_finite x = true -> Rabs (B2R x) * 2 <= bpow radix2 1024 ->
     exists z : double, bindo (rad (ND x)) deg = Some (ND z) /\ is_finite z = true /\ within (4 * (1 + unit 53)) 60 z (B2R x)) /\
  (forall x : single, is_finite x = true -> Rabs (B2R x) * 2 <= bpow radix2 128 ->
     exists z : single, bindo (rad (NF x)) deg = Some (NF z) /\ is_finite z = true /\ within (4 * (1 + unit 24)) 60 z (B2R x)).
Proof.
  assert (U : forall p, (7 <= p)%Z -> 0 < unit p <= / 128).
  { intros p Hp. split; [apply bpow_gt_0|]. change (/ 128) with (bpow radix2 (-7)). apply bpow_le. lia. }
  assert (small : forall p e (x y : binary_float p e), (7 <= p)%Z -> (7 <= e)%Z -> (0 < p)%Z ->
            Rabs (B2R x) * 2 <= bpow radix2 e -> within 2 1 y (B2R x * (PI / 180)) -> Rabs (B2R y) * 64 <= bpow radix2 e).
  { intros p e x y Hp He Hp0 Hx Hy. unfold within in Hy. destruct (U p Hp) as [U1 U2].
    assert (128 <= bpow radix2 e) by (change 128 with (bpow radix2 7); apply bpow_le; lia).
    assert (T : tiny p e <= / 4) by (change (/ 4) with (bpow radix2 (-2)); apply bpow_le; lia).
    pose proof PI_enclosure as P. pose proof (Rabs_pos (B2R x)) as Q.
    rewrite Rabs_mult, (Rabs_pos_eq (PI / 180)) in Hy by lra.
    assert (A : Rabs (B2R x) * (PI / 180) <= bpow radix2 e * / 114).
    { apply Rle_trans with (bpow radix2 e / 2 * / 57); [|lra]. apply Rmult_le_compat; lra. }
    assert (A0 : 0 <= Rabs (B2R x) * (PI / 180)) by (apply Rmult_le_pos; lra).
    assert (C : Rabs (B2R y) <= Rabs (B2R y - B2R x * (PI / 180)) + Rabs (B2R x) * (PI / 180)).
    { rewrite <- (Rabs_pos_eq (PI / 180)) at 2 by lra. rewrite <- Rabs_mult.
      eapply Rle_trans; [|apply Rabs_triang]. apply Req_le. f_equal. ring. }
    assert (D : 2 * unit p * (Rabs (B2R x) * (PI / 180)) <= / 64 * (Rabs (B2R x) * (PI / 180))) by (apply Rmult_le_compat_r; lra).
    lra. }
  assert (weaken : forall p e (z : binary_float p e) r, (7 <= p)%Z -> within (4 * (1 + unit p)) (59 + 120 * unit p) z r -> within (4 * (1 + unit p)) 60 z r).
  { intros p e z r Hp Hz. unfold within in *. eapply Rle_trans; [exact Hz|]. apply Rplus_le_compat_l.
    apply Rmult_le_compat_r; [apply Rlt_le, bpow_gt_0|]. destruct (U p Hp). lra. }
  destruct rad_accurate as [RD RF], deg_accurate as [DD DF], inv_K as [I1 I2].
  split; intros x Fx Hx.
  - destruct (RD x Fx) as (y & Ey & Fy & Wy).
    destruct (DD y Fy) as (z & Ez & Fz & Wz); [apply (small 53%Z 1024%Z x y); auto; lia|].
    exists z. split; [rewrite Ey; exact Ez|]. split; auto. apply weaken; [lia|].
    apply (back_within 53 1024 x y z (meaning DegPerRad) deg_K Fy); [rewrite I1; exact Wy|exact Wz].
  - destruct (RF x Fx) as (y & Ey & Fy & Wy).
    destruct (DF y Fy) as (z & Ez & Fz & Wz); [apply (small 24%Z 128%Z x y); auto; lia|].
    exists z. split; [rewrite Ey; exact Ez|]. split; auto. apply weaken; [lia|].
    apply (back_within 24 128 x y z (meaning DegPerRad) deg_K Fy); [rewrite I1; exact Wy|exact Wz].
Qed.
(** It need not be theta itself: 30 degrees come back as another number, in double and in float. *)
Theorem degrees_round_trip_exact_refuted :
  (exists (x z : double), B2R x = 30 /\ bindo (rad (ND x)) deg = Some (ND z) /\ is_finite z = true /\ B2R z <> 30) /\
  (exists (x z : single), B2R x = 30 /\ bindo (rad (NF x)) deg = Some (NF z) /\ is_finite z = true /\ B2R z <> 30).
Proof.
  split.
  - exists (dbl 30), (mul (mul (dbl 30) (in_double RadPerDeg)) (in_double DegPerRad)). split; [|split; [reflexivity|]].
    + assert (V : show (dbl 30) = Some (false, 8444249301319680%positive, (-48)%Z)) by (vm_compute; reflexivity).
      revert V. generalize (dbl 30). intros x V. apply show_value in V. rewrite (proj2 V).
      cbn [bpow Z.opp radix_val radix2 Z.pow_pos Pos.iter Z.mul Pos.mul]. lra.
    + set (z := mul (mul (dbl 30) (in_double RadPerDeg)) (in_double DegPerRad)).
      assert (V : show z = Some (false, 8444249301319679%positive, (-48)%Z)) by (vm_compute; reflexivity).
      revert V. generalize z. intros w V. apply show_value in V. destruct V as [F V]. split; [exact F|]. rewrite V.
      cbn [bpow Z.opp radix_val radix2 Z.pow_pos Pos.iter Z.mul Pos.mul]. lra.
  - exists (Bof_int 24 128 30), (mul (mul (Bof_int 24 128 30) (narrow (in_double RadPerDeg))) (narrow (in_double DegPerRad))). split; [|split; [reflexivity|]].
    + assert (V : show1 (Bof_int 24 128 30) = Some (false, 15728640%positive, (-19)%Z)) by (vm_compute; reflexivity).
      revert V. generalize (Bof_int 24 128 30). intros x V. apply show1_value in V. rewrite (proj2 V).
      cbn [bpow Z.opp radix_val radix2 Z.pow_pos Pos.iter Z.mul Pos.mul]. lra.
    + set (z := mul (mul (Bof_int 24 128 30) (narrow (in_double RadPerDeg))) (narrow (in_double DegPerRad))).
      assert (V : exists m, show1 z = Some (false, m, (-19)%Z) /\ m <> 15728640%positive) by (vm_compute; eexists; split; [reflexivity|discriminate]).
      revert V. generalize z. intros w [m [V N]]. apply show1_value in V. destruct V as [F V]. split; [exact F|]. rewrite V.
      intro C. apply N. change (bpow radix2 (-19)) with (/ 524288) in C.
      assert (C' : IZR (Z.pos m) = IZR 15728640) by lra. apply eq_IZR in C'. congruence.
Qed.
(** The angles of the constants convert exactly to the constants, and back. *)
Theorem right_angles_convert : forall z c, In (z, c) [(360, TwoPi); (180, Pi); (90, PiOver2); (45, PiOver4)]%Z ->
  (forall x y : double, constant TDouble c = Some (ND y) -> is_finite x = true -> B2R x = IZR z ->
     (exists r, rad (ND x) = Some (ND r) /\ B2R r = B2R y) /\ (exists r, deg (ND y) = Some (ND r) /\ B2R r = IZR z)) /\
  (forall x y : single, constant TFloat c = Some (NF y) -> is_finite x = true -> B2R x = IZR z ->
     (exists r, rad (NF x) = Some (NF r) /\ B2R r = B2R y) /\ (exists r, deg (NF y) = Some (NF r) /\ B2R r = IZR z)).
Proof.
  assert (same : forall x y : double, show x = show y -> show y <> None -> B2R x = B2R y).
  { intros x y H N. destruct x as [s|s| |s m e B], y as [s'|s'| |s' m' e' B']; cbn in *; try congruence; inversion H; subst; reflexivity. }
  assert (same1 : forall x y : single, show1 x = show1 y -> show1 y <> None -> B2R x = B2R y).
  { intros x y H N. destruct x as [s|s| |s m e B], y as [s'|s'| |s' m' e' B']; cbn in *; try congruence; inversion H; subst; reflexivity. }
  assert (strict : forall p e (x : binary_float p e), is_finite x = true -> B2R x <> 0 -> is_finite_strict x = true).
  { intros p e x F N. destruct x; cbn in *; congruence. }
  assert (unique : forall (x : double) z, (0 < z < 1000)%Z -> is_finite x = true -> B2R x = IZR z -> x = dbl z).
  { intros x z Hz F V. destruct (of_int_exact 53 1024 z) as (A & B & _); [unfold SpecFloat.emin; lia..|].
    assert (IZR z <> 0) by (apply not_0_IZR; lia).
    apply B2R_inj; [apply strict; [exact F|congruence]|apply strict; [exact B|unfold dbl; congruence]|]. unfold dbl. congruence. }
  assert (unique1 : forall (x : single) z, (0 < z < 1000)%Z -> is_finite x = true -> B2R x = IZR z -> x = Bof_int 24 128 z).
  { intros x z Hz F V. destruct (of_int_exact 24 128 z) as (A & B & _); [unfold SpecFloat.emin; lia..|].
    assert (IZR z <> 0) by (apply not_0_IZR; lia).
    apply B2R_inj; [apply strict; [exact F|congruence]|apply strict; [exact B|congruence]|]. congruence. }
  intros z c Hz.
  assert (Hr : (0 < z < 1000)%Z).
  { cbn [In] in Hz. destruct Hz as [H|[H|[H|[H|[]]]]]; inversion H; subst; lia. }
  split; intros x y Hy Fx Vx.
  - assert (y = in_double c) by (change (Some (ND (in_double c)) = Some (ND y)) in Hy; congruence). subst y.
    rewrite <- Vx. rewrite (unique x z Hr Fx Vx). clear - Hz same.
    split; eexists; (split; [reflexivity|]); apply same;
    cbn [In] in Hz; destruct Hz as [H|[H|[H|[H|[]]]]]; inversion H; subst; vm_compute; congruence.
  - assert (y = narrow (in_double c)) by (change (Some (NF (narrow (in_double c))) = Some (NF y)) in Hy; congruence). subst y.
    rewrite <- Vx. rewrite (unique1 x z Hr Fx Vx). clear - Hz same1.
    split; eexists; (split; [reflexivity|]); apply same1;
    cbn [In] in Hz; destruct Hz as [H|[H|[H|[H|[]]]]]; inversion H; subst; vm_compute; congruence.
Qed.
(** Both conversions preserve order and sign: a larger angle does not get a smaller value, and that of the
    opposite angle is the opposite, also for infinities. *)
Theorem conversions_monotone_and_odd : forall f, f = rad \/ f = deg ->
  (forall x y x' y' : double, f (ND x) = Some (ND x') -> f (ND y) = Some (ND y') ->
     is_finite x' = true -> is_finite y' = true -> B2R x <= B2R y -> B2R x' <= B2R y') /\
  (forall x y x' y' : single, f (NF x) = Some (NF x') -> f (NF y) = Some (NF y') ->
     is_finite x' = true -> is_finite y' = true -> B2R x <= B2R y -> B2R x' <= B2R y') /\
  (forall x x' : double, f (ND x) = Some (ND x') -> f (ND (Bopp x)) = Some (ND (Bopp x'))) /\
  (forall x x' : single, f (NF x) = Some (NF x') -> f (NF (Bopp x)) = Some (NF (Bopp x'))).
Proof.
  assert (P : forall c, 0 <= B2R (in_double c) /\ 0 <= B2R (narrow (in_double c))).
  { intros c. rewrite (proj2 (double_value c)), (proj2 (single_value c)).
    split; apply Rmult_le_pos; try apply bpow_ge_0; apply IZR_le; destruct c; discriminate. }
  assert (main : forall c,
    (forall x y x' y' : double, convert_angle c (ND x) = Some (ND x') -> convert_angle c (ND y) = Some (ND y') ->
       is_finite x' = true -> is_finite y' = true -> B2R x <= B2R y -> B2R x' <= B2R y') /\
    (forall x y x' y' : single, convert_angle c (NF x) = Some (NF x') -> convert_angle c (NF y) = Some (NF y') ->
       is_finite x' = true -> is_finite y' = true -> B2R x <= B2R y -> B2R x' <= B2R y') /\
    (forall x x' : double, convert_angle c (ND x) = Some (ND x') -> convert_angle c (ND (Bopp x)) = Some (ND (Bopp x'))) /\
    (forall x x' : single, convert_angle c (NF x) = Some (NF x') -> convert_angle c (NF (Bopp x)) = Some (NF (Bopp x')))).
  { intros c.
    assert (Ed : forall x : double, convert_angle c (ND x) = Some (ND (mul x (in_double c)))) by reflexivity.
    assert (Ef : forall x : single, convert_angle c (NF x) = Some (NF (mul x (narrow (in_double c))))) by reflexivity.
    destruct (P c) as [Pd Pf]. revert Ed Ef Pd Pf. generalize (narrow (in_double c)). generalize (in_double c). generalize (convert_angle c).
    intros g kd kf Ed Ef Pd Pf. repeat split.
    - intros x y x' y' Hx Hy. rewrite Ed in Hx, Hy. inversion Hx; inversion Hy; subst. apply (scaled_monotone 53 1024); exact Pd.
    - intros x y x' y' Hx Hy. rewrite Ef in Hx, Hy. inversion Hx; inversion Hy; subst. apply (scaled_monotone 24 128); exact Pf.
    - intros x x' Hx. rewrite Ed in Hx |- *. inversion Hx; subst. f_equal. f_equal. apply (opp_mul 53 1024).
    - intros x x' Hx. rewrite Ef in Hx |- *. inversion Hx; subst. f_equal. f_equal. apply (opp_mul 24 128). }
  intros f [-> | ->]; apply main.
Qed.

(** ** Integers *)

Lemma usual_bits t : usual t -> (8 <= bits t)%Z.
Proof. unfold usual. lia. Qed.
Lemma usual_promoted t : usual t -> usual (promoted t).
Proof. unfold promoted. destruct (_ <? _)%Z; auto. unfold usual. cbn. lia. Qed.

(** rad(z) of any integer is 0; deg(z) is 57 z where that fits, undefined for int and long where it does
    not, and 57 z modulo the range for the narrow and the unsigned types. *)
Theorem integer_angles_refuted : forall t z, usual t -> in_range t z = true ->
  rad (NI t z) = Some (NI t 0) /\
  (in_range t (57 * z) = true -> deg (NI t z) = Some (NI t (57 * z))) /\
  (in_range t (57 * z) = false -> (32 <= bits t)%Z -> signed t = true -> deg (NI t z) = None) /\
  ((bits t < 32)%Z \/ signed t = false ->
     exists w, deg (NI t z) = Some (NI t w) /\ in_range t w = true /\ (w mod 2 ^ bits t = (57 * z) mod 2 ^ bits t)%Z).
Proof.
  intros t z Ht Hz. pose proof (usual_bits t Ht) as B8.
  assert (conv : forall c k, constant (TInt t) c = Some (NI t k) -> in_range t k = true ->
            convert_angle c (NI t z) = option_map (NI t) (compute t (z * k))).
  { intros c k Hk Rk. unfold convert_angle. cbn [type_of]. rewrite Hk. cbn [bindo].
    pose proof (same_type_int OMul t z k B8 Hz Rk) as S. unfold apply2 in S. cbn [type_of] in S.
    rewrite (proj1 common_type_laws) in S. exact S. }
  assert (R0 : constant (TInt t) RadPerDeg = Some (NI t 0) /\ in_range t 0 = true /\ constant (TInt t) DegPerRad = Some (NI t 57) /\ in_range t 57 = true).
  { destruct t as [b s]. destruct Ht as [Hb|[Hb|[Hb|Hb]]]; cbn [bits] in Hb; subst b; destruct s; vm_compute; auto. }
  destruct R0 as (C0 & I0 & C57 & I57).
  unfold rad, deg. rewrite (conv _ _ C0 I0), (conv _ _ C57 I57).
  replace (z * 0)%Z with 0%Z by lia. replace (z * 57)%Z with (57 * z)%Z by lia.
  assert (Pos : (0 < 2 ^ bits t)%Z) by (apply Z.pow_pos_nonneg; lia).
  split; [|split; [|split]].
  - unfold compute. rewrite (promoted_range t 0 B8 I0), andb_false_r. cbn [option_map]. rewrite cv_id; auto. lia.
  - intros I. unfold compute. rewrite (promoted_range t _ B8 I), andb_false_r. cbn [option_map]. rewrite cv_id; auto. lia.
  - intros I Hb Hs. unfold compute.
    assert (E : promoted t = t) by (unfold promoted; change (bits int_t) with 32%Z; destruct (Z.ltb_spec (bits t) 32); [lia|reflexivity]).
    rewrite E, I, Hs. reflexivity.
  - intros Hw. assert (E : signed (promoted t) && negb (in_range (promoted t) (57 * z)) = false).
    { unfold promoted. change (bits int_t) with 32%Z. destruct (Z.ltb_spec (bits t) 32) as [L|L].
      - assert (Hr : (- 2 ^ 16 <= z <= 2 ^ 16)%Z).
        { unfold in_range, lo, hi in Hz. apply andb_prop in Hz as [Z1 Z2]. apply Z.leb_le in Z1, Z2.
          assert (P1 : (2 ^ (bits t - 1) <= 2 ^ 16)%Z) by (apply Z.pow_le_mono_r; unfold usual in Ht; lia).
          assert (P2 : (2 ^ bits t <= 2 ^ 16)%Z) by (apply Z.pow_le_mono_r; unfold usual in Ht; lia).
          clear - Z1 Z2 P1 P2. destruct (signed t); lia. }
        assert (I : in_range int_t (57 * z) = true).
        { unfold in_range. change (lo int_t) with (-2147483648)%Z. change (hi int_t) with 2147483647%Z.
          apply andb_true_intro. split; apply Z.leb_le; change (2 ^ 16)%Z with 65536%Z in Hr; lia. }
        rewrite I. apply andb_false_r.
      - destruct Hw as [Hw|Hw]; [lia|]. rewrite Hw. reflexivity. }
    unfold compute. rewrite E. cbn [option_map]. eexists. split; [reflexivity|]. split.
    + unfold convert, in_range. pose proof (Z.mod_pos_bound (57 * z - lo t) (2 ^ bits t) Pos) as M.
      assert (L : (hi t = lo t + 2 ^ bits t - 1)%Z).
      { unfold hi, lo. destruct (signed t); [|lia].
        assert (2 ^ bits t = 2 * 2 ^ (bits t - 1))%Z by (replace (bits t) with (1 + (bits t - 1))%Z at 1 by lia; rewrite Z.pow_add_r by lia; lia). lia. }
      rewrite L. apply andb_true_intro. split; apply Z.leb_le; lia.
    + apply convert_congr. lia.
Qed.

(** ** Examples *)

(** 90 degrees *)
Example rad_accurate_case : is_finite (dbl 90) = true /\ is_finite (Bof_int 24 128 90) = true.
Proof. split; apply of_int_exact; unfold SpecFloat.emin; lia. Qed.
Example integer_angles_case :
  usual int_t /\ in_range int_t 180 = true /\ rad (NI int_t 180) = Some (NI int_t 0) /\
  deg (NI int_t 3) = Some (NI int_t 171) /\ deg (NI int_t (2 ^ 30)) = None /\ deg (NI uchar_t 5) = Some (NI uchar_t 29).
Proof. vm_compute. auto 10. Qed.

Print Assumptions constants_nearest.
Print Assumptions constants_relative_error.
Print Assumptions pi_side.
Print Assumptions integer_constants_truncated.
Print Assumptions rad_accurate.
Print Assumptions deg_accurate.
Print Assumptions degrees_round_trip.
Print Assumptions degrees_round_trip_exact_refuted.
Print Assumptions right_angles_convert.
Print Assumptions conversions_monotone_and_odd.
Print Assumptions integer_angles_refuted.
