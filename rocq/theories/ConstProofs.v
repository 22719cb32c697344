(** The constants are the values nearest to the real numbers they stand for. *)
From Coq Require Import ZArith Reals Lra Lia List.
From Flocq Require Import Core IEEE754.BinarySingleNaN.
From Verif Require Import Base IntModel FloatModel MixedModel ConstModel ConstSpec ConstBounds FloatFacts.
Open Scope R_scope.

Section Nearest.
Context (prec emax : Z) {Hprec : Prec_gt_0 prec} {Hmax : Prec_lt_emax prec emax}.
Notation fexp := (SpecFloat.fexp prec emax).

Lemma round_near (x : R) (n e : Z) :
  bpow radix2 (e + prec - 1) <= x < bpow radix2 (e + prec) -> (SpecFloat.emin prec emax <= e)%Z ->
  Rabs (x - IZR n * bpow radix2 e) < / 2 * bpow radix2 e ->
  round radix2 fexp ZnearestE x = IZR n * bpow radix2 e.
Proof.
  intros Hx He Hn.
  assert (Hm : mag radix2 x = (e + prec)%Z :> Z).
  { apply mag_unique. rewrite Rabs_pos_eq; [exact Hx|].
    apply Rle_trans with (2 := proj1 Hx). apply bpow_ge_0. }
  unfold round, F2R, scaled_mantissa, cexp. simpl. rewrite Hm.
  replace (fexp (e + prec)%Z) with e by (unfold SpecFloat.fexp; lia).
  f_equal. f_equal. apply Znearest_imp.
  assert (P : 0 < bpow radix2 e) by apply bpow_gt_0.
  rewrite bpow_opp.
  replace (x * / bpow radix2 e - IZR n) with ((x - IZR n * bpow radix2 e) / bpow radix2 e) by (field; lra).
  unfold Rdiv. rewrite Rabs_mult, (Rabs_pos_eq (/ _)) by (apply Rlt_le, Rinv_0_lt_compat; lra).
  apply (Rmult_lt_reg_r (bpow radix2 e)); auto. rewrite Rmult_assoc, Rinv_l by lra. lra.
Qed.
Lemma round_between (x : R) (n k : Z) :
  (2 ^ (prec - 1) < n < 2 ^ prec)%Z -> (0 <= k)%Z -> (SpecFloat.emin prec emax <= - k)%Z ->
  IZR (2 * n - 1) < x * IZR (2 * 2 ^ k) < IZR (2 * n + 1) ->
  round radix2 fexp ZnearestE x = IZR n * bpow radix2 (- k).
Proof.
  intros Hn Hk He Hx. pose proof (prec_gt_0 prec) as Hp.
  assert (B : bpow radix2 (- k) = / IZR (2 ^ k)).
  { rewrite bpow_opp. f_equal. rewrite <- IZR_Zpower by lia. reflexivity. }
  assert (P : 0 < IZR (2 ^ k)) by (apply IZR_lt; apply Z.pow_pos_nonneg; lia).
  rewrite minus_IZR, plus_IZR, !mult_IZR in Hx.
  assert (L1 : IZR n - / 2 < x * IZR (2 ^ k)) by lra.
  assert (L2 : x * IZR (2 ^ k) < IZR n + / 2) by lra.
  assert (V : x = x * IZR (2 ^ k) * / IZR (2 ^ k)) by (field; lra).
  assert (Pi' : 0 < / IZR (2 ^ k)) by (apply Rinv_0_lt_compat; lra).
  apply round_near; auto.
  - replace (- k + prec - 1)%Z with ((prec - 1) + - k)%Z by lia.
    replace (- k + prec)%Z with (prec + - k)%Z by lia.
    rewrite !bpow_plus, B.
    rewrite <- !IZR_Zpower by lia. change (radix_val radix2) with 2%Z.
    assert (N1 : IZR (2 ^ (prec - 1)) + 1 <= IZR n) by (rewrite <- plus_IZR; apply IZR_le; lia).
    assert (N2 : IZR n + 1 <= IZR (2 ^ prec)) by (rewrite <- plus_IZR; apply IZR_le; lia).
    rewrite V. split.
    + apply Rmult_le_compat_r; lra.
    + apply Rmult_lt_compat_r; lra.
  - rewrite B. rewrite V at 1. rewrite <- Rmult_minus_distr_r, Rabs_mult, (Rabs_pos_eq (/ _)) by lra.
    apply Rmult_lt_compat_r; auto. apply Rabs_def1; lra.
Qed.
Lemma between_rel (x : R) (n k : Z) :
  (2 ^ (prec - 1) < n)%Z -> (0 <= k)%Z -> (SpecFloat.emin prec emax <= - k)%Z ->
  IZR (2 * n - 1) < x * IZR (2 * 2 ^ k) < IZR (2 * n + 1) ->
  Rabs (IZR n * bpow radix2 (- k) - x) * (1 + unit prec) <= unit prec * x.
Proof.
  intros Hn Hk He Hx. pose proof (prec_gt_0 prec) as Hp.
  assert (B : bpow radix2 (- k) = / IZR (2 ^ k)).
  { rewrite bpow_opp. f_equal. rewrite <- IZR_Zpower by lia. reflexivity. }
  assert (U : unit prec = / 2 * / IZR (2 ^ (prec - 1))).
  { unfold unit. replace (IZR (2 ^ (prec - 1))) with (bpow radix2 (prec - 1)) by (symmetry; apply (IZR_Zpower radix2); lia).
    rewrite <- bpow_opp. change (/ 2) with (bpow radix2 (-1)). rewrite <- bpow_plus. f_equal. lia. }
  set (H := IZR (2 ^ (prec - 1))) in *.
  assert (Hpos : 0 < H) by (apply IZR_lt; apply Z.pow_pos_nonneg; lia).
  assert (P : 0 < IZR (2 ^ k)) by (apply IZR_lt; apply Z.pow_pos_nonneg; lia).
  rewrite minus_IZR, plus_IZR, !mult_IZR in Hx.
  assert (V : x = x * IZR (2 ^ k) * / IZR (2 ^ k)) by (field; lra).
  set (y := x * IZR (2 ^ k)) in *.
  assert (Pi' : 0 < / IZR (2 ^ k)) by (apply Rinv_0_lt_compat; lra).
  assert (N1 : H + 1 <= IZR n) by (unfold H; rewrite <- plus_IZR; apply IZR_le; lia).
  assert (Hy : IZR n - / 2 < y < IZR n + / 2) by (unfold y; lra).
  assert (Y : H + / 2 < y) by lra.
  clearbody y. rewrite B, V, <- Rmult_minus_distr_r, Rabs_mult, (Rabs_pos_eq (/ _)) by lra.
  replace (Rabs (IZR n - y) * / IZR (2 ^ k) * (1 + unit prec)) with ((Rabs (IZR n - y) * (1 + unit prec)) * / IZR (2 ^ k)) by ring.
  replace (unit prec * (y * / IZR (2 ^ k))) with ((unit prec * y) * / IZR (2 ^ k)) by ring.
  apply Rmult_le_compat_r; [lra|]. rewrite U.
  assert (I : 0 < / H) by (apply Rinv_0_lt_compat; auto).
  assert (A : Rabs (IZR n - y) <= / 2) by (apply Rabs_le; lra).
  apply Rle_trans with (/ 2 * (1 + / 2 * / H)).
  - apply Rmult_le_compat_r; [|exact A]. nra.
  - replace (/ 2 * (1 + / 2 * / H)) with (/ 2 * / H * (H + / 2)) by (field; lra).
    apply Rmult_le_compat_l; nra.
Qed.

(** a number that is within half a unit is nearer than any other *)
Lemma between_nearest (a : binary_float prec emax) (x : R) (n k : Z) :
  (2 ^ (prec - 1) < n < 2 ^ prec)%Z -> (0 <= k)%Z -> (SpecFloat.emin prec emax <= - k)%Z ->
  IZR (2 * n - 1) < x * IZR (2 * 2 ^ k) < IZR (2 * n + 1) ->
  is_finite a = true -> B2R a = IZR n * bpow radix2 (- k) -> strictly_nearest a x.
Proof.
  intros Hn Hk He Hx Fa Va. split; auto. intros y Fy Hy.
  pose proof (round_between x n k Hn Hk He Hx) as R.
  destruct (round_N_pt radix2 fexp (fun z => negb (Z.even z)) x) as [_ G].
  rewrite R, <- Va in G.
  assert (Gy : generic_format radix2 fexp (B2R y)) by apply generic_format_B2R.
  assert (Ga : generic_format radix2 fexp (B2R a)) by apply generic_format_B2R.
  assert (P : 0 < IZR (2 ^ k)) by (apply IZR_lt; apply Z.pow_pos_nonneg; lia).
  assert (B : bpow radix2 (- k) = / IZR (2 ^ k)).
  { rewrite bpow_opp. f_equal. rewrite <- IZR_Zpower by lia. reflexivity. }
  set (K := IZR (2 ^ k)) in *.
  assert (HxK : IZR n - / 2 < x * K < IZR n + / 2).
  { rewrite minus_IZR, plus_IZR, !mult_IZR in Hx. fold K in Hx. lra. }
  set (d := x - B2R a).
  assert (HaK : B2R a * K = IZR n) by (rewrite Va, B; field; lra).
  assert (HdK : - / 2 < d * K < / 2) by (unfold d; lra).
  specialize (G (B2R y) Gy).
  destruct (Rle_lt_or_eq_dec _ _ G) as [L|L]; [exact L|]. exfalso.
  assert (Y : B2R y = x + d).
  { unfold d in *. revert L Hy. unfold Rabs. do 2 destruct Rcase_abs; intros; lra. }
  assert (D : d <> 0) by (intro D; apply Hy; rewrite Y; unfold d in *; lra).
  (* a point a little nearer to y is still rounded to a *)
  pose (s := / 2 - Rabs (d * K)).
  assert (Ss : 0 < s <= / 2).
  { unfold s. split; [|pose proof (Rabs_pos (d * K)); lra]. pose proof (Rabs_def1 (d * K) (/ 2)). lra. }
  pose (x' := x + s * d).
  assert (Hx' : IZR (2 * n - 1) < x' * IZR (2 * 2 ^ k) < IZR (2 * n + 1)).
  { rewrite minus_IZR, plus_IZR, !mult_IZR. fold K.
    assert (A : - / 2 < (1 + s) * (d * K) < / 2).
    { revert Ss. unfold s, Rabs. destruct Rcase_abs; intros; nra. }
    replace (x' * (2 * K)) with (2 * (IZR n + (1 + s) * (d * K))) by (unfold x'; rewrite <- HaK; unfold d; ring). lra. }
  pose proof (round_between x' n k Hn Hk He Hx') as R'.
  destruct (round_N_pt radix2 fexp (fun z => negb (Z.even z)) x') as [_ G'].
  rewrite R', <- Va in G'. specialize (G' (B2R y) Gy).
  replace (B2R a - x') with (- ((1 + s) * d)) in G' by (unfold x', d; ring).
  replace (B2R y - x') with ((1 - s) * d) in G' by (rewrite Y; unfold x'; ring).
  rewrite Rabs_Ropp, !Rabs_mult, !Rabs_pos_eq with (x := 1 + s), Rabs_pos_eq with (x := 1 - s) in G' by lra.
  assert (0 < Rabs d) by (apply Rabs_pos_lt; auto). nra.
Qed.
End Nearest.

Lemma sqrt_between (x a b : R) : 0 < a -> a < b -> a * a < x < b * b -> a < sqrt x < b.
Proof.
  intros Ha Hab [H1 H2]. split.
  - rewrite <- (sqrt_square a) by lra. apply sqrt_lt_1; nra.
  - rewrite <- (sqrt_square b) by lra. apply sqrt_lt_1; nra.
Qed.
Lemma quot_between (z x a b : R) : 0 < z -> 0 < a -> a < x < b -> z / b < z / x < z / a.
Proof.
  intros Hz Ha [H1 H2]. split; apply Rmult_lt_compat_l; auto; apply Rinv_lt_contravar; auto; nra.
Qed.
Definition show (x : double) : option (bool * positive * Z) :=
  match x with B754_finite s m e _ => Some (s, m, e) | _ => None end.
Definition show1 (x : single) : option (bool * positive * Z) :=
  match x with B754_finite s m e _ => Some (s, m, e) | _ => None end.

Lemma sqrt_scaled (j x a b : R) : 0 < j -> 0 < a -> a < b -> a * a < x * (j * j) < b * b -> a < sqrt x * j < b.
Proof.
  intros Hj Ha Hab H.
  assert (0 <= x) by nra.
  replace (sqrt x * j) with (sqrt (x * (j * j))).
  - apply sqrt_between; auto.
  - rewrite sqrt_mult_alt by auto. rewrite sqrt_square by lra. reflexivity.
Qed.
Lemma quot_scaled (z x j a b : R) : 0 < x -> a * x < z * j < b * x -> a < z / x * j < b.
Proof.
  intros Hx [H1 H2]. unfold Rdiv.
  replace (z * / x * j) with (z * j * / x) by ring.
  split; apply (Rmult_lt_reg_r x); auto; rewrite (Rmult_assoc (z * j)), Rinv_l by lra; lra.
Qed.

(** The significand and the (negated) exponent of each constant. *)
Definition code64 (c : cname) : Z * Z :=
  match c with
  | Pi => (7074237752028440, 51) | TwoPi => (7074237752028440, 50)
  | InvPi => (5734161139222659, 54) | InvTwoPi => (5734161139222659, 55)
  | PiOver2 => (7074237752028440, 52) | PiOver4 => (7074237752028440, 53)
  | E => (6121026514868073, 51)
  | DegPerRad => (8063664102031864, 47) | RadPerDeg => (5030569068109113, 58)
  | Sqrt2 => (6369051672525773, 52) | Sqrt3 => (7800463371553962, 52)
  | Sqrt5 => (5035177455121576, 51) | Sqrt6 => (5515760546423086, 51)
  end%Z.
Definition code32 (c : cname) : Z * Z :=
  match c with
  | Pi => (13176795, 22) | TwoPi => (13176795, 21)
  | InvPi => (10680707, 25) | InvTwoPi => (10680707, 26)
  | PiOver2 => (13176795, 23) | PiOver4 => (13176795, 24)
  | E => (11401300, 22)
  | DegPerRad => (15019745, 18) | RadPerDeg => (9370165, 29)
  | Sqrt2 => (11863283, 23) | Sqrt3 => (14529495, 23)
  | Sqrt5 => (9378749, 22) | Sqrt6 => (10273905, 22)
  end%Z.

Ltac by_enclosure :=
  pose proof PI_enclosure; pose proof exp_1_enclosure;
  match goal with
  | |- _ < sqrt _ * _ < _ => apply sqrt_scaled; [lra|lra|lra|lra]
  | |- _ < _ / (2 * PI) * _ < _ => apply quot_scaled; [lra|lra]
  | |- _ < _ / PI * _ < _ => apply quot_scaled; [lra|lra]
  | |- _ => lra
  end.

Ltac numerals :=
  repeat match goal with
  | |- context [IZR (?a - ?b)] => let v := eval vm_compute in (a - b)%Z in change (IZR (a - b)) with (IZR v)
  | |- context [IZR (?a + ?b)] => let v := eval vm_compute in (a + b)%Z in change (IZR (a + b)) with (IZR v)
  | |- context [IZR (?a * ?b)] => let v := eval vm_compute in (a * b)%Z in change (IZR (a * b)) with (IZR v)
  end.

Lemma close64 (c : cname) :
  (2 ^ (53 - 1) < fst (code64 c) < 2 ^ 53)%Z /\ (0 <= snd (code64 c))%Z /\ (SpecFloat.emin 53 1024 <= - snd (code64 c))%Z /\
  IZR (2 * fst (code64 c) - 1) < meaning c * IZR (2 * 2 ^ snd (code64 c)) < IZR (2 * fst (code64 c) + 1).
Proof.
  destruct c; cbn [meaning code64 fst snd];
  (split; [split; reflexivity | split; [discriminate | split; [discriminate | numerals; by_enclosure]]]).
Qed.
Lemma close32 (c : cname) :
  (2 ^ (24 - 1) < fst (code32 c) < 2 ^ 24)%Z /\ (0 <= snd (code32 c))%Z /\ (SpecFloat.emin 24 128 <= - snd (code32 c))%Z /\
  IZR (2 * fst (code32 c) - 1) < meaning c * IZR (2 * 2 ^ snd (code32 c)) < IZR (2 * fst (code32 c) + 1).
Proof.
  destruct c; cbn [meaning code32 fst snd];
  (split; [split; reflexivity | split; [discriminate | split; [discriminate | numerals; by_enclosure]]]).
Qed.

Lemma shown64 (c : cname) : show (in_double c) = Some (false, Z.to_pos (fst (code64 c)), (- snd (code64 c))%Z).
Proof. destruct c; vm_compute; reflexivity. Qed.
Lemma shown32 (c : cname) : show1 (narrow (in_double c)) = Some (false, Z.to_pos (fst (code32 c)), (- snd (code32 c))%Z).
Proof. destruct c; vm_compute; reflexivity. Qed.

Lemma show_value (x : double) m e : show x = Some (false, m, e) -> is_finite x = true /\ B2R x = IZR (Z.pos m) * bpow radix2 e.
Proof.
  destruct x; try discriminate. intro H. inversion H; subst. split; reflexivity.
Qed.
Lemma show1_value (x : single) m e : show1 x = Some (false, m, e) -> is_finite x = true /\ B2R x = IZR (Z.pos m) * bpow radix2 e.
Proof.
  destruct x; try discriminate. intro H. inversion H; subst. split; reflexivity.
Qed.

Lemma double_value (c : cname) :
  is_finite (in_double c) = true /\ B2R (in_double c) = IZR (fst (code64 c)) * bpow radix2 (- snd (code64 c)).
Proof.
  generalize (shown64 c). generalize (in_double c). intros x H. apply show_value in H.
  rewrite Z2Pos.id in H; auto. destruct c; reflexivity.
Qed.
Lemma single_value (c : cname) :
  is_finite (narrow (in_double c)) = true /\ B2R (narrow (in_double c)) = IZR (fst (code32 c)) * bpow radix2 (- snd (code32 c)).
Proof.
  generalize (shown32 c). generalize (narrow (in_double c)). intros x H. apply show1_value in H.
  rewrite Z2Pos.id in H; auto. destruct c; reflexivity.
Qed.

Lemma double_nearest (c : cname) : strictly_nearest (in_double c) (meaning c).
Proof.
  destruct (close64 c) as (A & B & C & D), (double_value c) as [F V].
  apply (between_nearest 53 1024 _ _ _ _ A B C D F V).
Qed.
Lemma single_nearest (c : cname) : strictly_nearest (narrow (in_double c)) (meaning c).
Proof.
  destruct (close32 c) as (A & B & C & D), (single_value c) as [F V].
  apply (between_nearest 24 128 _ _ _ _ A B C D F V).
Qed.
Lemma double_rel (c : cname) : Rabs (B2R (in_double c) - meaning c) * (1 + unit 53) <= unit 53 * meaning c.
Proof.
  destruct (close64 c) as (A & B & C & D), (double_value c) as [F V]. rewrite V.
  apply (between_rel 53 1024 _ _ _ (proj1 A) B C D).
Qed.
Lemma single_rel (c : cname) : Rabs (B2R (narrow (in_double c)) - meaning c) * (1 + unit 24) <= unit 24 * meaning c.
Proof.
  destruct (close32 c) as (A & B & C & D), (single_value c) as [F V]. rewrite V.
  apply (between_rel 24 128 _ _ _ (proj1 A) B C D).
Qed.

(** ** The angle conversions *)
Section Angles.
Context (prec emax : Z) {Hprec : Prec_gt_0 prec} {Hmax : Prec_lt_emax prec emax}.
Notation F := (binary_float prec emax).
Notation fin x := (is_finite x = true).
Notation u := (unit prec).
Notation eta := (tiny prec emax).

Lemma tiny_eta : eta_min prec emax = eta.
Proof. unfold eta_min, tiny. f_equal. lia. Qed.
Lemma unit_pos : 0 < u. Proof. apply bpow_gt_0. Qed.
Lemma tiny_pos : 0 < eta. Proof. apply bpow_gt_0. Qed.
Lemma unit_half : u <= / 2.
Proof. change (/ 2) with (bpow radix2 (-1)). apply bpow_le. pose proof (prec_gt_0 prec). lia. Qed.
Lemma tiny_half : eta <= / 2.
Proof. change (/ 2) with (bpow radix2 (-1)). apply bpow_le. pose proof (prec_gt_0 prec). pose proof (prec_lt_emax prec emax). lia. Qed.
Lemma huge : 4 <= bpow radix2 emax.
Proof. change 4 with (bpow radix2 2). apply bpow_le. pose proof (prec_gt_0 prec). pose proof (prec_lt_emax prec emax). lia. Qed.

Lemma scaled_within (x k : F) (K : R) : 0 < K -> Rabs (B2R k - K) * (1 + u) <= u * K -> fin (mul x k) ->
  within 2 1 (mul x k) (B2R x * K).
Proof.
  intros HK Hk Hf. destruct (mul_err prec emax x k Hf) as (_ & _ & d & e & Hd & He & V).
  rewrite tiny_eta in He. change (u_round prec) with u in Hd.
  unfold within. rewrite V. pose proof unit_pos as U.
  replace (B2R x * B2R k * (1 + d) + e - B2R x * K) with (B2R x * ((B2R k - K) * (1 + d) + K * d) + e) by ring.
  eapply Rle_trans; [apply Rabs_triang|]. rewrite !Rabs_mult, (Rabs_pos_eq K) by lra.
  apply Rplus_le_compat; [|lra].
  replace (2 * u * (Rabs (B2R x) * K)) with (Rabs (B2R x) * (2 * u * K)) by ring.
  apply Rmult_le_compat_l; [apply Rabs_pos|].
  eapply Rle_trans; [apply Rabs_triang|]. rewrite !Rabs_mult, (Rabs_pos_eq K) by lra.
  replace (2 * u * K) with (u * K + K * u) by ring. apply Rplus_le_compat.
  - eapply Rle_trans; [|exact Hk]. apply Rmult_le_compat_l; [apply Rabs_pos|].
    apply (Rle_trans _ _ _ (Rabs_triang _ _)). rewrite Rabs_R1. lra.
  - apply Rmult_le_compat_l; lra.
Qed.

Lemma near_above (k : F) K : 0 < K -> Rabs (B2R k - K) * (1 + u) <= u * K -> 0 < B2R k <= K * (1 + u).
Proof.
  intros HK Hk. pose proof unit_pos as U. pose proof unit_half as U2.
  assert (A : Rabs (B2R k - K) <= u * K).
  { eapply Rle_trans; [|exact Hk]. pose proof (Rabs_pos (B2R k - K)). nra. }
  apply Rabs_le_inv in A. split; nra.
Qed.

(** multiplication by at most 1/4 does not overflow *)
Lemma shrunk_fits (x k : F) K : 0 < K -> K <= / 8 -> Rabs (B2R k - K) * (1 + u) <= u * K -> fin x -> fin k -> fin (mul x k).
Proof.
  intros HK HK8 Hk Fx Fk. apply (mul_fits prec emax); auto.
  rewrite tiny_eta. change (u_round prec) with u.
  pose proof (abs_B2R_lt_emax prec emax x) as B. pose proof (near_above k K HK Hk) as [N1 N2].
  pose proof unit_pos as U. pose proof unit_half as U2. pose proof tiny_half. pose proof huge.
  assert (N3 : B2R k <= / 4) by nra.
  rewrite Rabs_mult, (Rabs_pos_eq (B2R k)) by lra.
  assert (Rabs (B2R x) * B2R k <= bpow radix2 emax * / 4).
  { apply Rmult_le_compat; try lra. apply Rabs_pos. }
  pose proof (Rabs_pos (B2R x)).
  assert (0 <= Rabs (B2R x) * B2R k) by (apply Rmult_le_pos; lra). nra.
Qed.
(** multiplication by at most 58 of a number at most 2^(emax-6) does not overflow *)
Lemma grown_fits (x k : F) K : u <= / 64 -> 64 <= bpow radix2 emax -> 0 < K <= 58 -> Rabs (B2R k - K) * (1 + u) <= u * K -> fin x -> fin k ->
  Rabs (B2R x) * 64 <= bpow radix2 emax -> fin (mul x k).
Proof.
  intros Us G HK Hk Fx Fk Hx. apply (mul_fits prec emax); auto.
  rewrite tiny_eta. change (u_round prec) with u.
  pose proof (near_above k K (proj1 HK) Hk) as [N1 N2].
  pose proof unit_pos as U. pose proof tiny_half.
  assert (N3 : B2R k <= 59) by nra.
  rewrite Rabs_mult, (Rabs_pos_eq (B2R k)) by lra.
  pose proof (Rabs_pos (B2R x)).
  assert (L : Rabs (B2R x) * B2R k <= bpow radix2 emax / 64 * 59).
  { apply Rmult_le_compat; lra. }
  assert (0 <= Rabs (B2R x) * B2R k) by (apply Rmult_le_pos; lra).
  set (p := Rabs (B2R x) * B2R k) in *. set (M := bpow radix2 emax) in *.
  assert (u * p <= / 64 * p) by (apply Rmult_le_compat_r; lra). lra.
Qed.

Lemma back_within (x y z : F) K : 0 < K <= 58 -> fin y -> within 2 1 y (B2R x * / K) -> within 2 1 z (B2R y * K) ->
  within (4 * (1 + u)) (59 + 120 * u) z (B2R x).
Proof.
  intros HK Fy Hy Hz. unfold within in *. pose proof unit_pos as U. pose proof tiny_pos as T.
  assert (A : Rabs (B2R y * K - B2R x) <= 2 * u * Rabs (B2R x) + 58 * eta).
  { replace (B2R y * K - B2R x) with ((B2R y - B2R x * / K) * K) by (field; lra).
    rewrite Rabs_mult, (Rabs_pos_eq K) by lra.
    rewrite Rabs_mult, (Rabs_pos_eq (/ K)) in Hy by (apply Rlt_le, Rinv_0_lt_compat; lra).
    apply Rle_trans with ((2 * u * (Rabs (B2R x) * / K) + 1 * eta) * K).
    - apply Rmult_le_compat_r; lra.
    - replace ((2 * u * (Rabs (B2R x) * / K) + 1 * eta) * K) with (2 * u * Rabs (B2R x) + eta * K) by (field; lra). nra. }
  assert (B : Rabs (B2R y * K) <= (1 + 2 * u) * Rabs (B2R x) + 58 * eta).
  { replace (B2R y * K) with ((B2R y * K - B2R x) + B2R x) by ring. eapply Rle_trans; [apply Rabs_triang|]. lra. }
  replace (B2R z - B2R x) with ((B2R z - B2R y * K) + (B2R y * K - B2R x)) by ring.
  eapply Rle_trans; [apply Rabs_triang|].
  assert (2 * u * Rabs (B2R y * K) <= 2 * u * ((1 + 2 * u) * Rabs (B2R x) + 58 * eta)) by (apply Rmult_le_compat_l; lra).
  pose proof (Rabs_pos (B2R x)). nra.
Qed.

Lemma scaled_monotone (x y k : F) : 0 <= B2R k -> fin (mul x k) -> fin (mul y k) -> B2R x <= B2R y -> B2R (mul x k) <= B2R (mul y k).
Proof.
  intros Hk Hx Hy H. destruct (mul_rounded prec emax x k Hx) as (_ & _ & Vx), (mul_rounded prec emax y k Hy) as (_ & _ & Vy).
  cbn [mul BOps] in *. rewrite Vx, Vy.
  apply round_le; try typeclasses eauto. nra.
Qed.
Lemma opp_mul (x y : F) : mul (neg x) y = neg (mul x y).
Proof.
  cbn [mul neg BOps].
  destruct x as [sx|sx| |sx mx ex Hx] eqn:Ex, y as [sy|sy| |sy my ey Hy] eqn:Ey; try reflexivity; try (destruct sx, sy; reflexivity).
  rewrite <- Ex, <- Ey. assert (Fx : fin x) by (subst; auto). assert (Fy : fin y) by (subst; auto).
  assert (Nx : is_nan x = false) by (subst; auto).
  clear Ex Ey.
  pose proof (Bmult_correct prec emax Hprec Hmax mode_NE x y) as A. pose proof (Bmult_correct prec emax Hprec Hmax mode_NE (Bopp x) y) as B.
  rewrite !B2R_Bopp in B. replace (- B2R x * B2R y) with (- (B2R x * B2R y)) in B by ring.
  assert (Sg : xorb (Bsign (Bopp x)) (Bsign y) = negb (xorb (Bsign x) (Bsign y))) by (rewrite !Bsign_Bopp by auto; destruct (Bsign x), (Bsign y); reflexivity).
  rewrite Sg, !is_finite_Bopp in B. change (round_mode mode_NE) with ZnearestE in *. rewrite round_NE_opp, Rabs_Ropp in B. destruct (Rlt_bool _ _).
  - destruct A as (A1 & A2 & A3), B as (B1 & B2 & B3). rewrite Fx, Fy in *. cbn in A2, B2.
    assert (N1 : is_nan (Bmult mode_NE x y) = false) by (destruct (Bmult mode_NE x y); cbn in *; auto; discriminate).
    assert (N2 : is_nan (Bmult mode_NE (Bopp x) y) = false) by (destruct (Bmult mode_NE (Bopp x) y); cbn in *; auto; discriminate).
    apply B2R_Bsign_inj; rewrite ?is_finite_Bopp, ?B2R_Bopp; auto; [congruence|].
    rewrite Bsign_Bopp, A3, B3; auto.
  - destruct (Bmult mode_NE x y) as [?|s1| |? ? ? ?], (Bmult mode_NE (Bopp x) y) as [?|s2| |? ? ? ?]; cbn in *; try discriminate.
    inversion A; inversion B; subst. reflexivity.
Qed.
End Angles.
