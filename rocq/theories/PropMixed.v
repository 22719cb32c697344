(** C71: expressions over different element types: result types, conversions, and what
    they do to values. *)
From Coq Require Import ZArith Bool List Arith Lia Reals Lra.
From Flocq Require Import Core BinarySingleNaN.
From Verif Require Import Base VecModel IntModel FloatModel FloatFacts FloatDot PropFloat PropInt MixedModel MixedFacts.
Import ListNotations.

(** ** Specification *)
(** the value of a number; [finite_num] excludes infinities and NaN *)
Definition real_of (a : num) : R := match a with NI _ z => IZR z | NF x => B2R x | ND x => B2R x end.
Definition finite_num (a : num) : Prop := match a with NI _ _ => True | NF x => is_finite x = true | ND x => is_finite x = true end.
(** [a] is a number of its type *)
Definition proper (a : num) : Prop := match a with NI t z => (8 <= bits t)%Z /\ in_range t z = true | _ => True end.
Definition exact (o : bop) : R -> R -> R := match o with OAdd => Rplus | OSub => Rminus | OMul => Rmult | ODiv => Rdiv end.
(** no number of the type of [a] is nearer to [r] than [a] *)
Definition closest (a : num) (r : R) : Prop :=
  finite_num a /\ forall b, type_of b = type_of a -> finite_num b -> (Rabs (real_of a - r) <= Rabs (real_of b - r))%R.
(** every value of the integer is a number of the floating point type [t] *)
Definition converts_exactly (t : sty) (a : num) : Prop :=
  match t, a with TFloat, NI _ z => (Z.abs z <= 2 ^ 24)%Z | TDouble, NI _ z => (Z.abs z <= 2 ^ 53)%Z | _, _ => True end.

(** ** Types of results *)
Lemma ity_eqb_eq s t : ity_eqb s t = true <-> s = t.
Proof.
  unfold ity_eqb. destruct s as [b s], t as [c t]. cbn. rewrite andb_true_iff, Z.eqb_eq, Bool.eqb_true_iff. split; [intros [-> ->]; auto|intros H; injection H as -> ->; auto].
Qed.
Lemma sty_eqb_eq a b : sty_eqb a b = true <-> a = b.
Proof. destruct a, b; cbn; try rewrite ity_eqb_eq; split; intros H; try discriminate; try congruence. Qed.
Lemma cast_type t a r : cast t a = Some r -> type_of r = t.
Proof. destruct t, a; cbn; try (destruct (Bto_int _ _ _ _); try discriminate); intros H; injection H as <-; reflexivity. Qed.
Theorem result_type : forall o a b r, apply2 o a b = Some r -> type_of r = common (type_of a) (type_of b).
Proof. intros o a b r H. unfold apply2, bindo in H. destruct (builtin o a b); [|discriminate]. eapply cast_type; eauto. Qed.

Lemma promoted_wide t : (32 <= bits (promoted t))%Z.
Proof. unfold promoted, int_t. cbn. destruct (Z.ltb_spec (bits t) 32); cbn; lia. Qed.
Lemma promoted_id t : (32 <= bits t)%Z -> promoted t = t.
Proof. intros H. unfold promoted, int_t. cbn. destruct (Z.ltb_spec (bits t) 32); auto; lia. Qed.
(** a total order of the promoted types *)
Definition weight (t : ity) : Z := 2 * bits t + (if signed t then 0 else 1).
Lemma weight_inj s t : weight s = weight t -> s = t.
Proof. destruct s as [b []], t as [c []]; unfold weight; cbn [bits signed]; intros H; try lia; f_equal; lia. Qed.
Lemma int_common_max s t : weight (int_common s t) = Z.max (weight (promoted s)) (weight (promoted t)) /\ (int_common s t = promoted s \/ int_common s t = promoted t).
Proof.
  unfold int_common. set (a := promoted s). set (b := promoted t). clearbody a b. destruct a as [x []], b as [y []]; cbn;
    repeat match goal with |- context[Z.ltb ?u ?v] => destruct (Z.ltb_spec u v) end; unfold weight; cbn [bits signed]; split; auto; try lia.
Qed.
Lemma int_common_promoted s t : promoted (int_common s t) = int_common s t.
Proof. destruct (int_common_max s t) as [_ [->| ->]]; apply promoted_id, promoted_wide. Qed.
Lemma int_common_comm s t : int_common s t = int_common t s.
Proof. apply weight_inj. rewrite !(proj1 (int_common_max _ _)). lia. Qed.
Lemma int_common_assoc s t w : int_common s (int_common t w) = int_common (int_common s t) w.
Proof. apply weight_inj. rewrite !(proj1 (int_common_max _ _)), !int_common_promoted, !(proj1 (int_common_max _ _)). lia. Qed.
Lemma int_common_absorb s t : int_common s (int_common s t) = int_common s t.
Proof. apply weight_inj. rewrite !(proj1 (int_common_max _ _)), !int_common_promoted, !(proj1 (int_common_max _ _)). lia. Qed.

Lemma int_common_same s : promoted s = s -> int_common s s = s.
Proof. intros H. apply weight_inj. rewrite (proj1 (int_common_max _ _)), H. lia. Qed.
Lemma select_promoted s t : promoted s = s -> (if ity_eqb s t then TInt s else TInt (int_common s t)) = TInt (int_common s t).
Proof. intros H. destruct (ity_eqb s t) eqn:Q; auto. apply ity_eqb_eq in Q. subst. rewrite int_common_same; auto. Qed.
Lemma select_promoted' s t : promoted t = t -> (if ity_eqb s t then TInt s else TInt (int_common s t)) = TInt (int_common s t).
Proof. intros H. destruct (ity_eqb s t) eqn:Q; auto. apply ity_eqb_eq in Q. subst. rewrite int_common_same; auto. Qed.
Theorem common_type_laws :
  (forall a, common a a = a) /\ (forall a b, common a b = common b a) /\ (forall a b c, common a (common b c) = common (common a b) c) /\
  (forall a b, common a b = TDouble <-> a = TDouble \/ b = TDouble) /\
  (forall a b, common a b = TFloat <-> a <> TDouble /\ b <> TDouble /\ (a = TFloat \/ b = TFloat)).
Proof.
  assert (Same : forall a, common a a = a) by (intros a; unfold common; rewrite (proj2 (sty_eqb_eq a a) eq_refl); auto).
  assert (Comm : forall a b, common a b = common b a).
  { intros a b. unfold common. destruct (sty_eqb a b) eqn:Q.
    - apply sty_eqb_eq in Q. subst. rewrite (proj2 (sty_eqb_eq b b) eq_refl). auto.
    - destruct (sty_eqb b a) eqn:Q'; [apply sty_eqb_eq in Q'; subst; rewrite (proj2 (sty_eqb_eq a a) eq_refl) in Q; discriminate|].
      destruct a, b; cbn; auto. rewrite int_common_comm. auto. }
  assert (Float : forall a b, common a b = match a, b with TDouble, _ | _, TDouble => TDouble | TFloat, _ | _, TFloat => TFloat | TInt s, TInt t => if ity_eqb s t then TInt s else TInt (int_common s t) end).
  { intros [s| |] [t| |]; unfold common; cbn; auto. }
  repeat split; auto.
  - intros a b c. rewrite !Float. destruct a as [a| |], b as [b| |], c as [c| |]; auto; try (destruct (ity_eqb _ _); reflexivity).
    destruct (ity_eqb b c) eqn:Q1, (ity_eqb a b) eqn:Q2; try (apply ity_eqb_eq in Q1; subst); try (apply ity_eqb_eq in Q2; subst).
    + rewrite (proj2 (ity_eqb_eq c c) eq_refl). auto.
    + destruct (ity_eqb (int_common a c) c) eqn:Q3; auto. rewrite <- int_common_assoc. apply f_equal.
      apply weight_inj. rewrite !(proj1 (int_common_max _ _)), !int_common_promoted, !(proj1 (int_common_max _ _)). lia.
    + rewrite Q1, select_promoted' by apply int_common_promoted. rewrite int_common_absorb. auto.
    + rewrite (select_promoted' a), (select_promoted _ c), int_common_assoc by apply int_common_promoted. auto.
  - intros H. rewrite Float in H. destruct a, b; auto; try discriminate. destruct (ity_eqb _ _); discriminate.
  - intros [->| ->]; rewrite Float; auto. destruct a; auto.
  - rewrite Float in *. intros ->. discriminate.
  - intros ->. rewrite Float in *. destruct a; discriminate.
  - rewrite Float in *. destruct a, b; auto; try discriminate. destruct (ity_eqb _ _); discriminate.
  - intros (A & B & C). rewrite Float. destruct a, b; auto; try congruence. destruct C; discriminate.
Qed.
(** the common type of two integer types holds all values of both, except the negative
    values when it is unsigned *)
Theorem common_type_range : forall s t z, (8 <= bits s)%Z -> (8 <= bits t)%Z -> in_range s z = true -> s <> t ->
  exists w, common (TInt s) (TInt t) = TInt w /\ ((0 <= z)%Z \/ signed w = true -> in_range w z = true) /\
    (signed w = false -> (signed s = false /\ bits s = bits w) \/ (signed t = false /\ bits t = bits w)).
Proof.
  intros s t z Bs Bt R N. exists (int_common s t). split.
  { unfold common. destruct (sty_eqb (TInt s) (TInt t)) eqn:Q; auto. apply sty_eqb_eq in Q. congruence. }
  destruct (int_common_max s t) as [W O].
  assert (Rp : in_range (promoted s) z = true /\ (promoted s = s \/ promoted s = int_t)).
  { unfold promoted. change (bits int_t) with 32%Z. destruct (Z.ltb_spec (bits s) 32); auto. split; auto.
    unfold in_range, lo, hi in *. destruct (signed s); cbn [int_t bits signed]; apply andb_true_intro; apply andb_prop in R; destruct R as [R1 R2]; apply Z.leb_le in R1; apply Z.leb_le in R2;
      split; apply Z.leb_le.
    - assert (2 ^ (bits s - 1) <= 2 ^ (32 - 1))%Z by (apply Z.pow_le_mono_r; lia). lia.
    - assert (2 ^ (bits s - 1) <= 2 ^ (32 - 1))%Z by (apply Z.pow_le_mono_r; lia). lia.
    - cbn; lia.
    - assert (2 ^ bits s <= 2 ^ (32 - 1))%Z by (apply Z.pow_le_mono_r; lia). lia. }
  destruct Rp as [Rp Ps]. assert (Pt : promoted t = t \/ promoted t = int_t) by (unfold promoted; destruct (_ <? _)%Z; auto).
  pose proof (promoted_wide s) as Ws. pose proof (promoted_wide t) as Wt.
  split.
  - intros Hz. set (w := int_common s t) in *. assert (Hw : (weight (promoted s) <= weight w)%Z) by lia. assert (32 <= bits w)%Z by (destruct O as [->| ->]; auto).
    clearbody w. destruct (promoted s) as [b1 s1], w as [b2 s2]. unfold weight in Hw. cbn [bits signed] in *.
    unfold in_range, lo, hi in *. cbn [bits signed] in *. apply andb_prop in Rp. destruct Rp as [R1 R2]. apply Z.leb_le in R1. apply Z.leb_le in R2.
    apply andb_true_intro. split; apply Z.leb_le; destruct s1, s2; try lia.
    all: try (assert (2 ^ (b1 - 1) <= 2 ^ (b2 - 1))%Z by (apply Z.pow_le_mono_r; lia); lia).
    all: try (assert (2 ^ b1 <= 2 ^ (b2 - 1))%Z by (apply Z.pow_le_mono_r; lia); lia).
    all: try (assert (2 ^ b1 <= 2 ^ b2)%Z by (apply Z.pow_le_mono_r; lia); lia).
    all: try (assert (2 ^ (b1 - 1) <= 2 ^ b2)%Z by (apply Z.pow_le_mono_r; lia); lia).
  - intros U. destruct O as [O|O]; rewrite O in *.
    + left. destruct Ps as [Q|Q]; rewrite Q in *; auto. discriminate.
    + right. destruct Pt as [Q|Q]; rewrite Q in *; auto. discriminate.
Qed.

(** ** Conversions *)
Lemma float_value x : real_of (NF x) = B2R x. Proof. reflexivity. Qed.
Lemma closest_float (y : single) r : nearest 24 128 y r -> closest (NF y) r.
Proof. intros [A B]. split; auto. intros [| |] T Fb; try discriminate. apply B; auto. Qed.
Lemma closest_double (y : double) r : nearest 53 1024 y r -> closest (ND y) r.
Proof. intros [A B]. split; auto. intros [| |] T Fb; try discriminate. apply B; auto. Qed.

(** float to double and back is the identity, also for infinities, NaN and signed zeros; the value is kept *)
Theorem float_to_double_exact : forall x, exists y, cast TDouble (NF x) = Some (ND y) /\ B2R y = B2R x /\ is_finite y = is_finite x /\ is_nan y = is_nan x /\ Bsign y = Bsign x /\
  cast TFloat (ND y) = Some (NF x).
Proof.
  intros x. exists (widen x). destruct (widen_spec x) as (A & B & C & D). repeat split; auto. cbn. rewrite narrow_widen. auto.
Qed.
(** double to float, integer to float and integer to double give a nearest number *)
Theorem to_floating_nearest : forall t a r, t = TFloat \/ t = TDouble -> finite_num a -> cast t a = Some r -> finite_num r -> closest r (real_of a).
Proof.
  intros t a r [->| ->] Fa H Fr; destruct a as [i z|x|x]; cbn in H; injection H as <-; cbn [real_of finite_num] in *.
  - apply closest_float, of_int_nearest. auto.
  - split; auto. intros b _ _. cbn [real_of]. unfold Rminus. rewrite Rplus_opp_r, Rabs_R0. apply Rabs_pos.
  - apply closest_float, (rounded_nearest 24 128); auto. pose proof (down_spec 24 128 53 1024 x Fa) as A.
    destruct (Rlt_bool _ _); [apply A|]. apply (overflow_not_finite 24 128) in A. unfold narrow in Fr. congruence.
  - apply closest_double, of_int_nearest. auto.
  - destruct (widen_spec x) as (A & _). split; auto. intros b _ _. cbn [real_of]. rewrite A. unfold Rminus. rewrite Rplus_opp_r, Rabs_R0. apply Rabs_pos.
  - split; auto. intros b _ _. cbn [real_of]. unfold Rminus. rewrite Rplus_opp_r, Rabs_R0. apply Rabs_pos.
Qed.
(** integers of at most 24 (53) bits keep their value as float (double); so every int in a double *)
Theorem int_to_floating_exact : forall t s z, t = TFloat \/ t = TDouble -> converts_exactly t (NI s z) -> exists r, cast t (NI s z) = Some r /\ finite_num r /\ real_of r = IZR z.
Proof.
  intros t s z [->| ->] H; eexists; (split; [reflexivity|]); cbn [finite_num real_of converts_exactly] in *.
  - destruct (of_int_exact 24 128 z) as (A & B & _); auto; lia.
  - destruct (of_int_exact 53 1024 z) as (A & B & _); auto; lia.
Qed.
(** to an integer type: the fraction is dropped; defined exactly when the result is in range *)
Theorem to_integer_truncates : forall t a r, type_of a = TFloat \/ type_of a = TDouble ->
  (cast (TInt t) a = Some r <-> finite_num a /\ r = NI t (Ztrunc (real_of a)) /\ in_range t (Ztrunc (real_of a)) = true).
Proof.
  intros t a r Ta. destruct a as [i z|x|x]; [destruct Ta; discriminate| |]; cbn [cast finite_num real_of].
  - destruct (Bto_int 24 128 t x) as [z|] eqn:Q.
    + apply (to_int_spec 24 128) in Q. destruct Q as (A & -> & B). split; [intros H; injection H as <-; auto|intros (_ & -> & _); auto].
    + split; [discriminate|]. intros (A & -> & B). assert (Bto_int 24 128 t x = Some (Ztrunc (B2R x))) by (apply (to_int_spec 24 128); auto). congruence.
  - destruct (Bto_int 53 1024 t x) as [z|] eqn:Q.
    + apply (to_int_spec 53 1024) in Q. destruct Q as (A & -> & B). split; [intros H; injection H as <-; auto|intros (_ & -> & _); auto].
    + split; [discriminate|]. intros (A & -> & B). assert (Bto_int 53 1024 t x = Some (Ztrunc (B2R x))) by (apply (to_int_spec 53 1024); auto). congruence.
Qed.
(** an integer type of at most 53 bits survives the way through double *)
Theorem int_double_round_trip : forall t z, in_range t z = true -> (Z.abs z <= 2 ^ 53)%Z -> bindo (cast TDouble (NI t z)) (cast (TInt t)) = Some (NI t z).
Proof.
  intros t z R H. cbn [cast bindo]. destruct (of_int_exact 53 1024 z) as (A & B & _); [lia|lia|auto|].
  assert (Q : Bto_int 53 1024 t (Bof_int 53 1024 z) = Some z); [|rewrite Q; auto].
  apply (to_int_spec 53 1024). rewrite A, Ztrunc_IZR. auto.
Qed.
(** a 64-bit integer does not: it may change, and may even lead to undefined behaviour *)
Theorem long_double_round_trip_refuted : exists z w, in_range long_t z = true /\ in_range long_t w = true /\
  bindo (cast TDouble (NI long_t z)) (cast (TInt long_t)) = Some (NI long_t (z - 1)) /\ bindo (cast TDouble (NI long_t w)) (cast (TInt long_t)) = None.
Proof. exists (2 ^ 53 + 1)%Z, (2 ^ 63 - 1)%Z. vm_compute. repeat split. Qed.

(** ** Operations *)
(** operands of one type: the operation of that type (FloatModel.v, IntModel.v) *)
Theorem same_type_float : forall o x y, apply2 o (NF x) (NF y) = Some (NF (fop o x y)).
Proof. intros. reflexivity. Qed.
Theorem same_type_double : forall o x y, apply2 o (ND x) (ND y) = Some (ND (fop o x y)).
Proof. intros. reflexivity. Qed.
Lemma cv_id t z : (0 < bits t)%Z -> in_range t z = true -> convert t z = z.
Proof.
  intros B R. unfold in_range in R. apply andb_prop in R. destruct R as [R1 R2]. apply Z.leb_le in R1. apply Z.leb_le in R2. unfold convert.
  rewrite Z.mod_small; [lia|]. unfold lo, hi in *. destruct (signed t); [|lia].
  assert (2 ^ bits t = 2 * 2 ^ (bits t - 1))%Z by (replace (bits t) with (1 + (bits t - 1))%Z at 1 by lia; rewrite Z.pow_add_r by lia; lia). lia.
Qed.
Lemma promoted_range t z : (8 <= bits t)%Z -> in_range t z = true -> in_range (promoted t) z = true.
Proof.
  intros B R. unfold promoted. change (bits int_t) with 32%Z. destruct (Z.ltb_spec (bits t) 32); auto.
  unfold in_range, lo, hi in *. apply andb_prop in R. destruct R as [R1 R2]. apply Z.leb_le in R1. apply Z.leb_le in R2. apply andb_true_intro.
  cbn [int_t bits signed]. destruct (signed t).
  - assert (2 ^ (bits t - 1) <= 2 ^ (32 - 1))%Z by (apply Z.pow_le_mono_r; lia). split; apply Z.leb_le; lia.
  - assert (2 ^ bits t <= 2 ^ (32 - 1))%Z by (apply Z.pow_le_mono_r; lia). split; apply Z.leb_le; lia.
Qed.
Lemma convert_congr t z : (0 < bits t)%Z -> (convert t z mod 2 ^ bits t = z mod 2 ^ bits t)%Z.
Proof.
  intros B. unfold convert. assert (0 < 2 ^ bits t)%Z by (apply Z.pow_pos_nonneg; lia). rewrite Z.add_mod_idemp_l by lia. f_equal. lia.
Qed.
Lemma compute_twice t z : (8 <= bits t)%Z -> match compute (promoted t) z with Some y => Some (convert t y) | None => None end = compute t z.
Proof.
  intros B. unfold compute. rewrite (promoted_id (promoted t)) by apply promoted_wide.
  destruct (signed (promoted t)) eqn:S0.
  - destruct (in_range (promoted t) z) eqn:R; cbn [andb negb]; auto. rewrite (cv_id (promoted t)); auto. pose proof (promoted_wide t). lia.
  - cbn [andb]. f_equal. assert (promoted t = t) as ->. { unfold promoted in *. destruct (bits t <? bits int_t)%Z; auto. discriminate. }
    unfold convert at 1 3. f_equal. rewrite <- Zminus_mod_idemp_l, convert_congr by lia. apply Zminus_mod_idemp_l.
Qed.
Theorem same_type_int : forall o t x y, (8 <= bits t)%Z -> in_range t x = true -> in_range t y = true ->
  apply2 o (NI t x) (NI t y) = option_map (NI t) (fop (Op := int_ops t) o (Some x) (Some y)).
Proof.
  intros o t x y B Rx Ry. unfold apply2, builtin. cbn [type_of arith_type cast bindo].
  assert (C : common (TInt t) (TInt t) = TInt t) by apply common_type_laws.
  assert (I : int_common t t = promoted t). { apply weight_inj. rewrite (proj1 (int_common_max t t)). lia. }
  rewrite C, I. pose proof (promoted_wide t) as W. rewrite !cv_id by (try lia; apply promoted_range; auto).
  cbn [same_type_op]. assert (G : forall z, bindo (match compute (promoted t) z with Some w => Some (NI (promoted t) w) | None => None end) (cast (TInt t)) = option_map (NI t) (compute t z)).
  { intros z. rewrite <- (compute_twice t z B). destruct (compute (promoted t) z); reflexivity. }
  destruct o; cbn [fop add sub mul div int_ops lift2 zop]; try apply G. destruct y; cbn [bindo option_map]; auto; apply G.
Qed.

Definition floating (t : sty) : Prop := t = TFloat \/ t = TDouble.
Lemma common_floating_arith a b : floating (common a b) -> common a b = arith_type a b.
Proof. unfold common, floating. destruct (sty_eqb a b) eqn:Q; auto. apply sty_eqb_eq in Q. subst. destruct b; auto. intros [H|H]; discriminate. Qed.
Lemma cast_exact_left a b : floating (common (type_of a) (type_of b)) -> finite_num a -> converts_exactly (common (type_of a) (type_of b)) a ->
  exists r, cast (common (type_of a) (type_of b)) a = Some r /\ finite_num r /\ real_of r = real_of a /\ type_of r = common (type_of a) (type_of b).
Proof.
  intros T Fa C. pose proof (common_floating_arith _ _ T) as Q. rewrite Q in *. clear Q. assert (A : exists r, cast (arith_type (type_of a) (type_of b)) a = Some r /\ finite_num r /\ real_of r = real_of a).
  { destruct a as [s z|x|x].
    - apply (int_to_floating_exact (arith_type (TInt s) (type_of b)) s z T C).
    - destruct b; cbn [type_of arith_type cast]; eexists; (split; [reflexivity|]); cbn [finite_num real_of] in *; auto.
      destruct (widen_spec x) as (A & B & _). rewrite A, B. auto.
    - destruct b; cbn [type_of arith_type cast]; eexists; (split; [reflexivity|]); auto. }
  destruct A as (r & A & B & D). exists r. repeat split; auto. eapply cast_type; eauto.
Qed.
Lemma common_comm a b : common a b = common b a. Proof. apply common_type_laws. Qed.
(** mixed operands: one rounding of the exact result, in the wider type *)
Theorem mixed_operation_rounds_once : forall o a b, floating (common (type_of a) (type_of b)) -> finite_num a -> finite_num b ->
  converts_exactly (common (type_of a) (type_of b)) a -> converts_exactly (common (type_of a) (type_of b)) b ->
  exists r, apply2 o a b = Some r /\ type_of r = common (type_of a) (type_of b) /\
    (finite_num r -> (o = ODiv -> real_of b <> 0%R) -> closest r (exact o (real_of a) (real_of b))).
Proof.
  intros o a b T Fa Fb Ca Cb.
  destruct (cast_exact_left a b T Fa Ca) as (x & X1 & X2 & X3 & X4).
  pose proof (cast_exact_left b a) as Y0. rewrite (common_comm (type_of b)) in Y0. destruct (Y0 T Fb Cb) as (y & Y1 & Y2 & Y3 & Y4).
  assert (Q : apply2 o a b = bindo (same_type_op o x y) (cast (common (type_of a) (type_of b)))).
  { unfold apply2, builtin. rewrite <- (common_floating_arith _ _ T), X1. cbn [bindo]. rewrite Y1. reflexivity. }
  rewrite Q, <- X3, <- Y3. clear Q X1 Y1 Y0 X3 Y3 Ca Cb Fa Fb. rewrite <- Y4 in X4. rewrite <- Y4 in *. clear Y4.
  destruct y as [s z|y|y]; [destruct T; discriminate| |]; destruct x as [|x|x]; try discriminate; cbn [same_type_op bindo cast type_of real_of finite_num] in *.
  - eexists. split; [reflexivity|]. split; [reflexivity|]. cbn [finite_num]. intros Fr Nz. apply closest_float, (rounded_nearest 24 128); auto.
    destruct o; cbn [fop add sub mul div BOps exact] in *; [apply add_rounded|apply sub_rounded|apply mul_rounded|apply div_rounded]; auto.
  - eexists. split; [reflexivity|]. split; [reflexivity|]. cbn [finite_num]. intros Fr Nz. apply closest_double, (rounded_nearest 53 1024); auto.
    destruct o; cbn [fop add sub mul div BOps exact] in *; [apply add_rounded|apply sub_rounded|apply mul_rounded|apply div_rounded]; auto.
Qed.

(** ** Whole vectors *)
Lemma collect_map {A : Type} (f : A -> option num) (g : A -> num) l : (forall x, In x l -> f x = Some (g x)) -> collect (map f l) = Some (map g l).
Proof. induction l as [|x l IH]; intros H; cbn; auto. rewrite (H x) by (left; auto). cbn [bindo]. rewrite IH; auto. intros y Hy. apply H. right; auto. Qed.
Lemma elements {B : Type} (f : nat -> option num) (g : B -> num) (l : list B) n : n = length l -> (forall i x, nth_error l i = Some x -> f i = Some (g x)) -> collect (map f (seq 0 n)) = Some (map g l).
Proof.
  intros -> H. revert f H. induction l as [|x l IH]; intros f H; auto. cbn [length seq map collect].
  rewrite (H 0%nat x eq_refl). cbn [bindo]. rewrite <- seq_shift, map_map, (IH (fun i => f (S i))); auto.
Qed.
(** an assignment, += or *= is defined exactly when every element is, and then holds the converted results *)
Lemma collect_some l r : collect l = Some r <-> length r = length l /\ forall i, (i < length l)%nat -> nth_error l i = Some (nth_error r i).
Proof.
  revert r. induction l as [|x l IH]; intros r; cbn [collect length].
  - split; [intros H; injection H as <-; split; auto; intros; lia|]. intros [L _]. destruct r; auto; discriminate.
  - split.
    + intros H. destruct x as [a|]; [|discriminate]. cbn [bindo] in H. destruct (collect l) as [q|] eqn:Q; [|discriminate]. cbn [bindo] in H. injection H as <-.
      destruct (proj1 (IH q) eq_refl) as [L A]. split; [cbn; lia|]. intros [|i] Hi; auto. cbn. apply A. lia.
    + intros [L A]. destruct r as [|a r]; [discriminate|]. specialize (A 0%nat) as A0. cbn in A0. specialize (A0 ltac:(lia)). injection A0 as ->. cbn [bindo].
      assert (Q : collect l = Some r); [|rewrite Q; auto]. apply IH. split; [cbn in L; lia|]. intros i Hi. apply (A (S i)). lia.
Qed.

Theorem scaling_elementwise : forall o t v s r, mscale o t v s = Some r <-> Forall2 (fun a b => exists c, apply2 o a s = Some c /\ cast t c = Some b) v r.
Proof.
  intros o t v s r. unfold mscale. rewrite collect_some, map_length, seq_length. split.
  - intros [L A]. revert r L A. induction v as [|a v IH]; intros [|b r] L A; try discriminate; constructor.
    + specialize (A 0%nat ltac:(cbn; lia)). cbn in A. injection A as A. destruct (apply2 o a s) as [c|]; [|discriminate]. exists c. auto.
    + apply IH; [cbn in L; lia|]. intros i Hi. specialize (A (S i) ltac:(cbn; lia)). cbn [length seq map nth_error] in A. rewrite <- seq_shift, map_map in A. exact A.
  - intros H. induction H as [|a b v r (c & C1 & C2) H [L A]]; [split; auto; cbn; intros; lia|]. split; [cbn; lia|]. intros [|i] Hi.
    + cbn. rewrite C1. cbn. rewrite C2. auto.
    + cbn [length seq map nth_error]. rewrite <- seq_shift, map_map. apply (A i). cbn in Hi. lia.
Qed.
Theorem assignment_elementwise : forall t x r, massign t x = Some r <-> length r = msize x /\ forall i, (i < msize x)%nat -> exists c, mget x i = Some c /\ nth_error r i = cast t c /\ cast t c <> None.
Proof.
  intros t x r. unfold massign. rewrite collect_some, map_length, seq_length.
  assert (N : forall i, (i < msize x)%nat -> nth_error (map (fun i => bindo (mget x i) (cast t)) (seq 0 (msize x))) i = Some (bindo (mget x i) (cast t))).
  { intros i Hi. rewrite (map_nth_error _ _ _ (d := i)); auto. rewrite (nth_error_nth' _ 0%nat) by (rewrite seq_length; auto). rewrite seq_nth by auto. auto. }
  split; intros [L A]; split; auto; intros i Hi.
  - specialize (A i Hi). rewrite (N i Hi) in A. injection A as A. assert (R : nth_error r i <> None) by (apply nth_error_Some; lia).
    destruct (mget x i) as [c|]; cbn in A; [|congruence]. exists c. repeat split; congruence.
  - rewrite (N i Hi). destruct (A i Hi) as (c & -> & -> & _). reflexivity.
Qed.

Theorem compound_elementwise : forall o t v x r, mcompound o t v x = Some r <-> length r = length v /\
  forall i a, nth_error v i = Some a -> exists b c d, mget x i = Some b /\ apply2 o a b = Some c /\ cast t c = Some d /\ nth_error r i = Some d.
Proof.
  intros o t v x r. unfold mcompound. rewrite collect_some, map_length, seq_length.
  set (f := fun i => bindo (nth_error v i) (fun a => bindo (mget x i) (fun b => bindo (apply2 o a b) (cast t)))).
  assert (N : forall i, (i < length v)%nat -> nth_error (map f (seq 0 (length v))) i = Some (f i)).
  { intros i Hi. rewrite (map_nth_error _ _ _ (d := i)); auto. rewrite (nth_error_nth' _ 0%nat) by (rewrite seq_length; auto). rewrite seq_nth by auto. auto. }
  split; intros [L A]; split; auto.
  - intros i a Ha. assert (Hi : (i < length v)%nat) by (apply nth_error_Some; congruence). specialize (A i Hi). rewrite (N i Hi) in A. injection A as A.
    assert (R : nth_error r i <> None) by (apply nth_error_Some; lia). unfold f in A. rewrite Ha in A. cbn [bindo] in A.
    destruct (mget x i) as [b|]; cbn [bindo] in A; [|congruence]. destruct (apply2 o a b) as [c|] eqn:C; cbn [bindo] in A; [|congruence]. destruct (cast t c) as [d|] eqn:D; [|congruence].
    exists b, c, d. auto.
  - intros i Hi. rewrite (N i Hi). destruct (nth_error v i) as [a|] eqn:Ha; [|apply nth_error_None in Ha; lia].
    destruct (A i a Ha) as (b & c & d & B1 & B2 & B3 & B4). unfold f. rewrite Ha. cbn [bindo]. rewrite B1. cbn [bindo]. rewrite B2. cbn [bindo]. rewrite B3, B4. auto.
Qed.
Open Scope Z_scope.
(** unary minus: small integer types give int; undefined exactly for the least value of a signed type *)
Theorem negation : forall a, proper a ->
  match negate a with
  | Some r => type_of r = unary_type (type_of a) /\ proper r /\
      match a, r with
      | NI t z, NI _ y => if signed (promoted t) then y = - z else y = (- z) mod 2 ^ bits t
      | NF x, NF y => y = Bopp x
      | ND x, ND y => y = Bopp x
      | _, _ => False
      end
  | None => exists t, a = NI t (lo t) /\ signed t = true /\ bits int_t <= bits t
  end.
Proof.
  intros [t z|x|x] H; cbn [negate]; auto; [|repeat split..]. destruct H as [B R]. pose proof (promoted_wide t) as W. unfold compute. rewrite (promoted_id (promoted t)) by auto.
  pose proof (promoted_range t z B R) as Rp. destruct (signed (promoted t)) eqn:Sg; cbn [andb].
  - destruct (in_range (promoted t) (- z)) eqn:Rn; cbn [negb].
    + repeat split; auto; [cbn; lia|apply (convert_range (promoted t)); lia|]. apply cv_id; auto. lia.
    + unfold promoted in *. change (bits int_t) with 32 in *. destruct (Z.ltb_spec (bits t) 32) as [L|L].
      * exfalso. apply in_range_spec in R. assert (2 ^ (bits t - 1) <= 2 ^ 30) by (apply Z.pow_le_mono_r; lia). assert (2 ^ bits t <= 2 ^ 31) by (apply Z.pow_le_mono_r; lia).
        assert (in_range int_t (- z) = true); [|congruence]. apply in_range_spec. unfold lo, hi in *. cbn [int_t bits signed]. destruct (signed t); lia.
      * exists t. split; auto. f_equal. apply in_range_spec in R. unfold in_range in Rn. unfold lo, hi in *. rewrite Sg in *.
        destruct (Z.leb_spec (- 2 ^ (bits t - 1)) (- z)), (Z.leb_spec (- z) (2 ^ (bits t - 1) - 1)); try discriminate; lia.
  - assert (P : promoted t = t). { unfold promoted in *. destruct (bits t <? bits int_t); auto. discriminate. }
    repeat split; auto; [cbn; lia|apply (convert_range (promoted t)); lia|]. rewrite P in *. unfold convert, lo. rewrite Sg, Z.sub_0_r, Z.add_0_r. auto.
Qed.
Close Scope Z_scope.

(** a double scalar (or vector) whose values are floats changes nothing: one operation done in double and
    stored in a float vector is the float operation, in every bit *)
Lemma mixed_float_double o x s : bindo (apply2 o (NF x) (ND (widen s))) (cast TFloat) = Some (NF (fop o x s)).
Proof. cbn. rewrite single_in_double. reflexivity. Qed.
Lemma cast_widen s d : cast TDouble (NF s) = Some (ND d) -> d = widen s.
Proof. cbn. intros H. injection H as <-. auto. Qed.
Theorem double_scalar_on_floats : forall o (v : list single) s d, cast TDouble (NF s) = Some (ND d) ->
  let w := map (fun x => NF (fop o x s)) v in
  massign TFloat (MScalar o (MVec (map NF v)) (NF s)) = Some w /\ massign TFloat (MScalar o (MVec (map NF v)) (ND d)) = Some w /\
  mscale o TFloat (map NF v) (NF s) = Some w /\ mscale o TFloat (map NF v) (ND d) = Some w.
Proof.
  intros o v s d D w. apply cast_widen in D. subst d.
  assert (G : forall i x, nth_error v i = Some x -> nth_error (map NF v) i = Some (NF x)) by (intros i x H; apply map_nth_error; auto).
  repeat split; (apply (elements _ (fun x => NF (fop o x s))); [cbn [msize]; apply map_length|]); intros i x H; cbn [mget]; rewrite (G _ _ H); cbn [bindo]; try reflexivity; apply mixed_float_double.
Qed.
Theorem double_vector_on_floats : forall o (v u : list single) (du : list double), Forall2 (fun x d => cast TDouble (NF x) = Some (ND d)) u du -> length v = length u ->
  let w := map (fun q => NF (fop o (fst q) (snd q))) (combine v u) in
  massign TFloat (MPair o (MVec (map NF v)) (MVec (map NF u))) = Some w /\ massign TFloat (MPair o (MVec (map NF v)) (MVec (map ND du))) = Some w /\
  mcompound o TFloat (map NF v) (MVec (map NF u)) = Some w /\ mcompound o TFloat (map NF v) (MVec (map ND du)) = Some w.
Proof.
  intros o v u du D L w.
  assert (E : du = map widen u). { clear L w. induction D as [|x d u du H D IH]; auto. cbn. apply cast_widen in H. congruence. } subst du.
  assert (N : forall i q, nth_error (combine v u) i = Some q -> nth_error v i = Some (fst q) /\ nth_error u i = Some (snd q)).
  { clear. revert u. induction v as [|a v IH]; intros [|b u] [|i] q; cbn; try discriminate; auto. intros H. injection H as <-. auto. }
  assert (Lc : length v = length (combine v u)) by (rewrite combine_length; lia).
  repeat split; (apply (elements _ (fun q => NF (fop o (fst q) (snd q)))); [cbn [msize]; rewrite map_length; exact Lc|]); intros i q H; destruct (N i q H) as [H1 H2];
    cbn [mget]; rewrite ?(map_nth_error NF _ _ H1), ?(map_nth_error NF _ _ H2); cbn [bindo]; rewrite ?map_map, ?(map_nth_error (fun x => ND (widen x)) _ _ H2); cbn [bindo]; try reflexivity; apply mixed_float_double.
Qed.
(** with two operations it is not so: (v * s) + w keeps more digits when s is a double *)
Definition sf (z e : Z) : single := binary_normalize 24 128 _ _ mode_NE z e false.
Definition df (z e : Z) : double := binary_normalize 53 1024 _ _ mode_NE z e false.
Theorem double_intermediate_refuted : exists v s w d, cast TDouble (NF s) = Some (ND d) /\
  massign TFloat (MPair OAdd (MScalar OMul (MVec [NF v]) (NF s)) (MVec [NF w])) = Some [NF (B754_zero false)] /\
  exists y, massign TFloat (MPair OAdd (MScalar OMul (MVec [NF v]) (ND d)) (MVec [NF w])) = Some [NF y] /\ B2R y = bpow radix2 (-46).
Proof.
  exists (sf (2 ^ 23 + 1) (-23)), (sf (2 ^ 23 + 1) (-23)), (sf (- (2 ^ 22 + 1)) (-22)), (df (2 ^ 23 + 1) (-23)).
  set (v := sf (2 ^ 23 + 1) (-23)). set (w := sf (- (2 ^ 22 + 1)) (-22)). set (d := df (2 ^ 23 + 1) (-23)).
  split; [cbn; do 2 f_equal; apply B2SF_inj; vm_compute; reflexivity|]. split.
  - change (Some [NF (fop OAdd (fop OMul v v) w)] = Some [NF (B754_zero false)]). do 3 f_equal; apply B2SF_inj; vm_compute; reflexivity.
  - exists (sf 1 (-46)). split.
    + change (Some [NF (narrow (fop OAdd (fop OMul (widen v) d) (widen w)))] = Some [NF (sf 1 (-46))]). do 3 f_equal; apply B2SF_inj; vm_compute; reflexivity.
    + assert (Fs : is_finite (sf 1 (-46)) = true) by (vm_compute; reflexivity). unfold sf in *. rewrite (normalize_finite 24 128 _ _ _ Fs). unfold F2R. cbn [Fnum Fexp]. rewrite Rmult_1_l. apply round_generic; [typeclasses eauto|].
      apply generic_format_bpow. unfold FLT_exp. lia.
Qed.
(** nor with a double that is not a float: v *= 0.1 and v *= 0.1f differ *)
Theorem double_constant_refuted : exists x s d, narrow d = s /\ mscale OMul TFloat [NF x] (NF s) <> mscale OMul TFloat [NF x] (ND d).
Proof. exists (sf 9 0), (narrow (Bdiv mode_NE (df 1 0) (df 10 0))), (Bdiv mode_NE (df 1 0) (df 10 0)). split; auto.
  intros H. assert (Q : forall x s d, mscale OMul TFloat [NF x] (NF s) = mscale OMul TFloat [NF x] (ND d) -> fop OMul x s = narrow (fop OMul (widen x) d)) by (intros x s d E; cbn in E; injection E as E; exact E).
  apply Q in H. apply (f_equal B2SF) in H. vm_compute in H. discriminate.
Qed.

(** ** Dot products *)
Lemma dot_fold {T : Type} {Op : Ops T} (inj : T -> num) (r : sty) (term : nat -> option num) (x : nat -> T) n :
  (forall a b, bindo (builtin OAdd (inj a) (inj b)) (cast r) = Some (inj (add a b))) ->
  (0 < n)%nat -> (forall i, (i < n)%nat -> term i = Some (inj (x i))) ->
  fold_left (fun acc i => bindo acc (fun s => bindo (term i) (fun y => bindo (builtin OAdd s y) (cast r)))) (seq 1 (n - 1)) (term 0%nat) = Some (inj (accumulate n x)).
Proof.
  intros HA Hn Ht. unfold accumulate. rewrite (Ht 0%nat Hn).
  assert (G : forall l a, (forall i, In i l -> (i < n)%nat) -> fold_left (fun acc i => bindo acc (fun s => bindo (term i) (fun y => bindo (builtin OAdd s y) (cast r)))) l (Some (inj a)) = Some (inj (fold_left (fun a i => add a (x i)) l a))).
  { induction l as [|i l IH]; intros a Hl; auto. cbn [fold_left]. cbn [bindo]. rewrite (Ht i) by (apply Hl; left; auto). cbn [bindo]. rewrite HA. apply IH. intros j Hj. apply Hl. right; auto. }
  apply G. intros i Hi. apply in_seq in Hi. lia.
Qed.
(** the result has the common type of the two element types, whatever is computed inside *)
Theorem dot_result_type : forall ta tb a b r, mdot ta tb a b = Some r -> type_of r = common ta tb.
Proof.
  intros ta tb a b r. unfold mdot.
  set (term := fun i => bindo (mget a i) (fun p => bindo (mget b i) (fun q => bindo (builtin OMul p q) (cast (common ta tb))))).
  assert (T0 : forall x, term 0%nat = Some x -> type_of x = common ta tb).
  { intros x. unfold term. destruct (mget a 0); [|discriminate]. cbn [bindo]. destruct (mget b 0); [|discriminate]. cbn [bindo]. destruct (builtin OMul n n0); [|discriminate]. apply cast_type. }
  change (fold_left (fun acc i => bindo acc (fun s => bindo (term i) (fun x => bindo (builtin OAdd s x) (cast (common ta tb))))) (seq 1 (msize a - 1)) (term 0%nat) = Some r -> type_of r = common ta tb).
  revert T0. generalize (term 0%nat). generalize (seq 1 (msize a - 1)). induction l as [|i l IH]; intros acc H0; cbn [fold_left]; [apply H0|].
  apply IH. intros x. destruct acc as [s|]; [|discriminate]. cbn [bindo]. destruct (term i); [|discriminate]. cbn [bindo]. destruct (builtin OAdd s n); [|discriminate]. apply cast_type.
Qed.
Lemma compute_range t z w : (8 <= bits t)%Z -> compute t z = Some w -> in_range t w = true.
Proof. intros B. unfold compute. destruct (_ && _); [discriminate|]. intros H. injection H as <-. apply convert_range. exact B. Qed.
(** an integer type with itself: every product and every partial sum is brought back to that type, so the
    dot product of narrow integers is computed by their own arithmetic (C67), not by that of int *)
Theorem dot_int_int : forall t (v w : list Z) o, (8 <= bits t)%Z -> all_in t v -> all_in t w -> vdot (Op := int_ops t) (map Some v) (map Some w) = Ok o ->
  mdot (TInt t) (TInt t) (MVec (map (NI t) v)) (MVec (map (NI t) w)) = option_map (NI t) o.
Proof.
  intros t v w o B Iv Iw H. unfold vdot, check_vmin, check_vsame, require in H. rewrite !map_length in H. destruct (Nat.leb_spec 1 (length v)); [|discriminate]. destruct (Nat.leb_spec 1 (length w)); [|discriminate].
  destruct (Nat.eqb_spec (length v) (length w)) as [L|]; [|discriminate]. cbn [bind] in H. injection H as <-.
  assert (C : common (TInt t) (TInt t) = TInt t) by apply common_type_laws.
  assert (S2 : forall o x y, in_range t x = true -> in_range t y = true -> bindo (builtin o (NI t x) (NI t y)) (cast (TInt t)) = option_map (NI t) (fop (Op := int_ops t) o (Some x) (Some y))).
  { intros o x y Rx Ry. rewrite <- (same_type_int o t x y B Rx Ry). unfold apply2. cbn [type_of]. rewrite C. reflexivity. }
  unfold mdot. cbn [msize]. rewrite map_length, C. unfold accumulate.
  set (x := fun i : nat => mul (Ops := int_ops t) (nth i (map Some v) (Some 0%Z)) (nth i (map Some w) (Some 0%Z))).
  set (term := fun i => bindo (mget (MVec (map (NI t) v)) i) (fun p => bindo (mget (MVec (map (NI t) w)) i) (fun q => bindo (builtin OMul p q) (cast (TInt t))))).
  assert (Ht : forall i, (i < length v)%nat -> term i = option_map (NI t) (x i) /\ forall z, x i = Some z -> in_range t z = true).
  { intros i Hi. unfold term, x. cbn [mget]. rewrite (map_nth_error (NI t) _ _ (nth_error_nth' v 0%Z Hi)), (map_nth_error (NI t) _ _ (nth_error_nth' (n := i) w 0%Z ltac:(lia))). cbn [bindo].
    rewrite !map_nth.
    assert (R1 : in_range t (nth i v 0%Z) = true) by (apply Iv, nth_In; lia). assert (R2 : in_range t (nth i w 0%Z) = true) by (apply Iw, nth_In; lia).
    split; [apply S2; auto|]. cbn [mul int_ops lift2]. intros z. apply compute_range. lia. }
  assert (G : forall l acc, (forall i, In i l -> (i < length v)%nat) -> (forall z, acc = Some z -> in_range t z = true) ->
    fold_left (fun acc i => bindo acc (fun s => bindo (term i) (fun y => bindo (builtin OAdd s y) (cast (TInt t))))) l (option_map (NI t) acc) = option_map (NI t) (fold_left (fun a i => add (Ops := int_ops t) a (x i)) l acc)).
  { induction l as [|i l IH]; intros acc Hl Ha; auto. cbn [fold_left]. destruct (Ht i (Hl i (or_introl eq_refl))) as [E R]. rewrite E.
    assert (Q : bindo (option_map (NI t) acc) (fun s => bindo (option_map (NI t) (x i)) (fun y => bindo (builtin OAdd s y) (cast (TInt t)))) = option_map (NI t) (add (Ops := int_ops t) acc (x i))).
    { destruct acc as [a|]; [|reflexivity]. cbn [option_map bindo]. destruct (x i) as [y|]; [|reflexivity]. cbn [option_map bindo]. rewrite S2; auto. }
    rewrite Q. apply IH; [intros j Hj; apply Hl; right; auto|]. intros z. destruct acc as [a|]; [|discriminate]. destruct (x i) as [y|]; [|discriminate]. cbn [add int_ops lift2]. apply compute_range. lia. }
  change (fold_left (fun acc i => bindo acc (fun s => bindo (term i) (fun y => bindo (builtin OAdd s y) (cast (TInt t))))) (seq 1 (length v - 1)) (term 0%nat) = option_map (NI t) (fold_left (fun a i => add (Ops := int_ops t) a (x i)) (seq 1 (length v - 1)) (x 0%nat))).
  rewrite (proj1 (Ht 0%nat ltac:(lia))). apply G; [intros i Hi; apply in_seq in Hi; lia|]. apply Ht. lia.
Qed.
Example dot_chars_case : mdot (TInt {| bits := 8; signed := true |}) (TInt {| bits := 8; signed := true |}) (MVec [NI {| bits := 8; signed := true |} 100]) (MVec [NI {| bits := 8; signed := true |} 2]) = Some (NI {| bits := 8; signed := true |} (-56)).
Proof. reflexivity. Qed.
(** float with float: computed and accumulated in float *)
Theorem dot_float_float : forall (v w : list single) d, vdot v w = Ok d -> mdot TFloat TFloat (MVec (map NF v)) (MVec (map NF w)) = Some (NF d).
Proof.
  intros v w d H. unfold vdot, check_vmin, check_vsame, require in H. destruct (Nat.leb_spec 1 (length v)); [|discriminate]. destruct (Nat.leb_spec 1 (length w)); [|discriminate].
  destruct (Nat.eqb_spec (length v) (length w)) as [L|]; [|discriminate]. cbn [bind] in H. injection H as <-.
  unfold mdot. cbn [msize]. rewrite map_length. change (common TFloat TFloat) with TFloat. apply (dot_fold NF); [reflexivity|lia|]. intros i Hi. cbn [mget].
  rewrite (map_nth_error NF _ _ (nth_error_nth' v zero Hi)), (map_nth_error NF _ _ (nth_error_nth' (n := i) w zero ltac:(lia))). reflexivity.
Qed.
(** float with double: the floats are converted first, and everything is done in double *)
Lemma accumulate_ext {T : Type} {Op : Ops T} n (f g : nat -> T) : (0 < n)%nat -> (forall i, (i < n)%nat -> f i = g i) -> accumulate n f = accumulate n g.
Proof.
  intros Hn H. unfold accumulate. rewrite (H 0%nat Hn). assert (G : forall l a, (forall i, In i l -> (i < n)%nat) -> fold_left (fun a i => add a (f i)) l a = fold_left (fun a i => add a (g i)) l a).
  { induction l as [|i l IH]; intros a Hl; auto. cbn [fold_left]. rewrite (H i) by (apply Hl; left; auto). apply IH. intros j Hj. apply Hl. right; auto. }
  apply G. intros i Hi. apply in_seq in Hi. lia.
Qed.
Lemma widen_nth k (v : list single) : nth k (map widen v) zero = widen (nth k v zero).
Proof. exact (map_nth widen v zero k). Qed.
Lemma dot_widened (v : list single) (w : list double) : v <> [] -> length v = length w ->
  let d := accumulate (length v) (fun i => mul (widen (nth i v zero)) (nth i w zero)) in
  vdot (map widen v) w = Ok d /\ mdot TFloat TDouble (MVec (map NF v)) (MVec (map ND w)) = Some (ND d) /\ mdot TDouble TFloat (MVec (map ND w)) (MVec (map NF v)) = Some (ND d).
Proof.
  intros Nv L d. assert (Hn : (0 < length v)%nat) by (destruct v; [congruence|cbn; lia]). repeat split.
  - unfold vdot, check_vmin, check_vsame, require. rewrite map_length. destruct (Nat.leb_spec 1 (length v)); [|lia]. destruct (Nat.leb_spec 1 (length w)); [|lia].
    destruct (Nat.eqb_spec (length v) (length w)); [|lia]. cbn [bind]. f_equal. apply accumulate_ext; auto. intros i Hi. unfold RotModel.el.
    rewrite widen_nth. reflexivity.
  - unfold mdot. cbn [msize]. rewrite map_length. change (common TFloat TDouble) with TDouble. apply (dot_fold ND); [reflexivity|auto|]. intros i Hi. cbn [mget].
    rewrite (map_nth_error NF _ _ (nth_error_nth' v zero Hi)), (map_nth_error ND _ _ (nth_error_nth' (n := i) w zero ltac:(lia))). reflexivity.
  - unfold mdot. cbn [msize]. rewrite map_length, <- L. change (common TDouble TFloat) with TDouble. apply (dot_fold ND); [reflexivity|auto|]. intros i Hi. cbn [mget].
    rewrite (map_nth_error NF _ _ (nth_error_nth' v zero Hi)), (map_nth_error ND _ _ (nth_error_nth' (n := i) w zero ltac:(lia))). cbn [bindo]. unfold builtin. cbn [type_of arith_type cast bindo same_type_op fop].
    rewrite (FloatExact.mul_comm 53 1024). reflexivity.
Qed.
Open Scope R_scope.
Theorem dot_float_double : forall (v : list single) (w : list double), v <> [] -> length v = length w ->
  exists d, mdot TFloat TDouble (MVec (map NF v)) (MVec (map ND w)) = Some (ND d) /\ mdot TDouble TFloat (MVec (map ND w)) (MVec (map NF v)) = Some (ND d) /\
    (is_finite d = true -> Rabs (B2R d - rsum (length v) (fun k => B2R (nth k v zero) * B2R (nth k w zero))) <=
       ((1 + u_round 53) ^ length v - 1) * rsum (length v) (fun k => Rabs (B2R (nth k v zero) * B2R (nth k w zero))) + INR (length v) * (1 + u_round 53) ^ length v * eta_min 53 1024).
Proof.
  intros v w Nv L. destruct (dot_widened v w Nv L) as (A & B & C). eexists. split; [exact B|]. split; [exact C|]. intros Fd.
  destruct (dot_accuracy 53 1024 _ _ _ A Fd) as [_ D]. unfold accurate in D. rewrite map_length in D.
  assert (V : forall k, vals 53 1024 (map widen v) k = B2R (nth k v zero)).
  { intros k. unfold vals. transitivity (B2R (widen (nth k v zero))); [apply (f_equal B2R), widen_nth|apply widen_spec]. }
  erewrite (rsum_ext _ (fun k => vals 53 1024 (map widen v) k * _)) in D by (intros k Hk; rewrite V; reflexivity).
  erewrite (rsum_ext _ (fun k => Rabs (vals 53 1024 (map widen v) k * _))) in D by (intros k Hk; rewrite V; reflexivity).
  exact D.
Qed.
(** when the doubles are floats too, the products are exact: only the n - 1 additions round, nothing underflows
    (a float vector with a float vector converted to double) *)
Theorem dot_float_double_exact_products : forall (v u : list single), v <> [] -> length v = length u ->
  exists d, mdot TFloat TDouble (MVec (map NF v)) (MVec (map ND (map widen u))) = Some (ND d) /\
    (is_finite d = true -> Rabs (B2R d - rsum (length v) (fun k => B2R (nth k v zero) * B2R (nth k u zero))) <=
       ((1 + u_round 53) ^ (length v - 1) - 1) * rsum (length v) (fun k => Rabs (B2R (nth k v zero) * B2R (nth k u zero)))).
Proof.
  intros v u Nv L. destruct (dot_widened v (map widen u) Nv ltac:(rewrite map_length; auto)) as (_ & B & _). eexists. split; [exact B|]. intros Fd.
  destruct (length v) as [|n] eqn:Ln; [destruct v; [congruence|discriminate]|]. replace (S n - 1)%nat with n by lia.
  pose proof (accumulate_err 53 1024 n _ Fd) as D. cbv beta in D.
  assert (V : forall k, (k < S n)%nat -> B2R (mul (widen (nth k v zero)) (nth k (map widen u) zero)) = B2R (nth k v zero) * B2R (nth k u zero)).
  { intros k Hk. pose proof (accumulate_fin 53 1024 n _ Fd k Hk) as Fk. cbv beta in Fk. rewrite widen_nth in *.
    apply mul_rounded in Fk. destruct Fk as (F1 & F2 & _). destruct (widen_spec (nth k v zero)) as (_ & W1 & _), (widen_spec (nth k u zero)) as (_ & W2 & _).
    apply double_product_exact; congruence. }
  assert (S1 := rsum_ext (S n) _ _ V). assert (S2 := rsum_ext (S n) _ _ (fun k Hk => f_equal Rabs (V k Hk))).
  eapply Rle_trans; [|eapply Rle_trans; [exact D|]]; right.
  - apply f_equal. unfold Rminus. apply f_equal, f_equal. symmetry. exact S1.
  - apply f_equal. exact S2.
Qed.
Close Scope R_scope.

(** ** Integers *)
Open Scope Z_scope.
(** int with unsigned: the unsigned result modulo 2^32, never undefined *)
Theorem int_with_unsigned : forall o x y, o <> ODiv -> in_range int_t x = true -> in_range unsigned_t y = true ->
  apply2 o (NI int_t x) (NI unsigned_t y) = Some (NI unsigned_t (zop o x y mod 2 ^ 32)) /\ apply2 o (NI unsigned_t y) (NI int_t x) = Some (NI unsigned_t (zop o y x mod 2 ^ 32)).
Proof.
  intros o x y No Rx Ry. assert (U : forall z, convert unsigned_t z = z mod 2 ^ 32) by (intros z; unfold convert, lo; cbn [unsigned_t signed bits]; rewrite Z.sub_0_r, Z.add_0_r; auto).
  assert (Cy : y mod 2 ^ 32 = y). { rewrite <- U. apply cv_id; auto. reflexivity. }
  unfold apply2, builtin. cbn [type_of]. change (common (TInt int_t) (TInt unsigned_t)) with (TInt unsigned_t). change (common (TInt unsigned_t) (TInt int_t)) with (TInt unsigned_t).
  change (arith_type (TInt int_t) (TInt unsigned_t)) with (TInt unsigned_t). change (arith_type (TInt unsigned_t) (TInt int_t)) with (TInt unsigned_t).
  cbn [cast bindo]. rewrite !U, Cy. unfold same_type_op, compute.
  change (signed (promoted unsigned_t)) with false. cbn [andb].
  destruct o; try congruence; cbn [bindo cast zop]; rewrite !U, !Z.mod_mod by (cbn; lia); split; do 2 f_equal.
  - apply Z.add_mod_idemp_l. cbn; lia.
  - apply Z.add_mod_idemp_r. cbn; lia.
  - apply Zminus_mod_idemp_l.
  - apply Zminus_mod_idemp_r.
  - apply Z.mul_mod_idemp_l. cbn; lia.
  - apply Z.mul_mod_idemp_r. cbn; lia.
Qed.
(** so the value can be wrong although it fits int: -1 + 0u *)
Theorem int_with_unsigned_refuted : exists x y r, in_range int_t x = true /\ in_range unsigned_t y = true /\ in_range int_t (x + y) = true /\
  apply2 OAdd (NI int_t x) (NI unsigned_t y) = Some (NI unsigned_t r) /\ r <> x + y /\
  (* stored in a double vector the difference shows *)
  exists f, massign TDouble (MPair OAdd (MVec [NI int_t x]) (MVec [NI unsigned_t y])) = Some [ND f] /\ Btrunc f = 4294967295.
Proof.
  exists (-1), 0, 4294967295. repeat (split; [vm_compute; (reflexivity || discriminate)|]). exists (Bof_int 53 1024 4294967295). split; [reflexivity|vm_compute; reflexivity].
Qed.

(** an integer vector scaled in place by a double: each element is the rounded product, truncated; undefined exactly when
    that is out of range (or infinite, or NaN) *)
Open Scope R_scope.
Theorem integer_vector_by_double : forall t zs s r, (forall z, In z zs -> in_range t z = true /\ (Z.abs z <= 2 ^ 53)%Z) -> is_finite s = true ->
  (mscale OMul (TInt t) (map (NI t) zs) (ND s) = Some r <->
   Forall2 (fun z b => exists y, apply2 OMul (NI t z) (ND s) = Some (ND y) /\ closest (ND y) (IZR z * B2R s) /\ in_range t (Ztrunc (B2R y)) = true /\ b = NI t (Ztrunc (B2R y))) zs r).
Proof.
  intros t zs s r Hz Fs. rewrite scaling_elementwise. revert r. induction zs as [|z zs IH]; intros r; cbn [map].
  - split; intros H; inversion H; constructor.
  - assert (Hz' : forall x, In x zs -> in_range t x = true /\ (Z.abs x <= 2 ^ 53)%Z) by (intros x Hx; apply Hz; right; auto). destruct (Hz z (or_introl eq_refl)) as [R B].
    destruct (mixed_operation_rounds_once OMul (NI t z) (ND s)) as (q & A1 & A2 & A3); [right; reflexivity|cbn; auto..|].
    destruct q as [|y|y]; try discriminate. split; intros H.
    + inversion H as [|a b l l' (c & C1 & C2) C3 Q1 Q2]; subst. constructor; [|apply IH; auto]. rewrite A1 in C1. injection C1 as <-.
      apply (to_integer_truncates t (ND y)) in C2; [|right; reflexivity]. destruct C2 as (D1 & -> & D2). exists y. split; [exact A1|]. split; [|auto]. apply A3; auto. discriminate.
    + inversion H as [|a b l l' (w & C1 & C2 & C3 & C4) C5 Q1 Q2]; subst. constructor; [|apply IH; auto]. rewrite A1 in C1. injection C1 as <-.
      exists (ND y). split; auto. apply to_integer_truncates; [right; reflexivity|]. split; [apply C2|auto].
Qed.
Close Scope R_scope.
(** w = v / n with integer v and n has lost the fraction before w, a vector of doubles, sees it *)
Theorem integer_quotient_refuted : exists v n, massign TDouble (MScalar ODiv (MVec [NI int_t v]) (NI int_t n)) = Some [ND (B754_zero false)] /\ Z.rem v n <> 0.
Proof. exists 1, 2. vm_compute. split; [reflexivity|discriminate]. Qed.

(** ** Lengths of integer vectors: through double and back *)
Theorem int_sqrt_floor : forall t z, 0 <= z < 2 ^ 52 -> in_range t (Z.sqrt z) = true -> int_sqrt t z = Some (Z.sqrt z).
Proof.
  intros t z Hz R. unfold int_sqrt. destruct (of_int_exact 53 1024 z) as (A & B & C); [lia|lia|lia|].
  apply (to_int_spec 53 1024). destruct (Bsqrt_correct 53 1024 _ _ mode_NE (Bof_int 53 1024 z)) as (D1 & D2 & _). cbn [round_mode] in D1.
  change (SpecFloat.fexp 53 1024) with (FLT_exp (3 - 1024 - 53) 53) in D1. rewrite A in D1. rewrite D1, root_trunc by auto. repeat split; auto.
  rewrite D2. assert (S0 : Bsign (Bof_int 53 1024 z) = false) by (rewrite C; apply Z.ltb_ge; lia). destruct (Bof_int 53 1024 z) as [|[]| |[]]; auto; discriminate.
Qed.
(** length() of a vector of int (or a wider signed type): the exact sum of squares, its root rounded down *)
Theorem integer_length : forall t v, trapping t = true -> v <> [] -> all_in t v -> zsum (length v) (fun k => values v k * values v k) <= hi t ->
  zsum (length v) (fun k => values v k * values v k) < 2 ^ 52 -> int_length t v = Ok (Some (Z.sqrt (zsum (length v) (fun k => values v k * values v k)))).
Proof.
  intros t v T N R H1 H2. assert (B : 32 <= bits t) by (unfold trapping in T; apply andb_prop in T; destruct T as [T _]; apply Z.leb_le in T; exact T).
  destruct (dot_integer t ltac:(lia) v v N eq_refl R R) as (d & A1 & A2 & A3).
  assert (Sq : forall n, zsum n (fun k => Z.abs (values v k * values v k)) = zsum n (fun k => values v k * values v k) /\ 0 <= zsum n (fun k => values v k * values v k)).
  { induction n as [|n [IH1 IH2]]; cbn [zsum]; [lia|]. pose proof (Z.square_nonneg (values v n)). rewrite IH1. rewrite Z.abs_eq; lia. }
  destruct (Sq (length v)) as [Sq1 Sq2]. specialize (A3 T ltac:(rewrite Sq1; auto)). destruct d as [z|]; [|congruence]. destruct A2 as (_ & _ & A2). specialize (A2 T).
  assert (Q : vlength_squared (Op := int_ops t) (map Some v) = Ok (Some z)).
  { unfold vdot, vlength_squared, check_vsame, require in *. rewrite Nat.eqb_refl in A1. destruct (check_vmin (map Some v) 1); cbn [bind] in *; [exact A1|discriminate|discriminate]. }
  unfold int_length. rewrite Q. f_equal. rewrite A2. apply int_sqrt_floor; [lia|].
  assert (Z.sqrt z <= z) by (apply Z.sqrt_le_lin; lia). pose proof (Z.sqrt_nonneg z). apply in_range_spec. rewrite <- A2. unfold lo. unfold trapping in T. apply andb_prop in T. destruct T as [_ ->].
  assert (0 < 2 ^ (bits t - 1)) by (apply Z.pow_pos_nonneg; lia). lia.
Qed.
Theorem long_length_refuted : exists z, in_range long_t z = true /\ 0 <= z /\ int_sqrt long_t z = Some (Z.sqrt z + 1).
Proof. exists ((2 ^ 31 + 1) * (2 ^ 31 + 1) - 1). vm_compute. repeat split; discriminate. Qed.
Theorem int_fabs_exact : forall t z, Z.abs z <= 2 ^ 53 -> int_fabs t z = if in_range t (Z.abs z) then Some (Z.abs z) else None.
Proof.
  intros t z H. unfold int_fabs. destruct (of_int_exact 53 1024 z) as (A & B & C); [lia|lia|lia|].
  assert (T : Ztrunc (B2R (Babs (Bof_int 53 1024 z))) = Z.abs z) by (rewrite B2R_Babs, A, <- abs_IZR; apply Ztrunc_IZR).
  destruct (in_range t (Z.abs z)) eqn:R.
  - apply (to_int_spec 53 1024). rewrite T, is_finite_Babs. auto.
  - destruct (Bto_int 53 1024 t (Babs (Bof_int 53 1024 z))) as [y|] eqn:Q; auto. apply (to_int_spec 53 1024) in Q. rewrite T in Q. destruct Q as (_ & -> & Q). congruence.
Qed.
Theorem long_fabs_refuted : exists z, in_range long_t z = true /\ 0 <= z /\ int_fabs long_t z <> Some z.
Proof. exists (2 ^ 53 + 1). vm_compute. repeat split; discriminate. Qed.
(** normalize() of an integer vector is not a unit vector: the length and the quotients are truncated *)
Theorem integer_normalize_refuted : exists v l, int_length int_t v = Ok (Some l) /\
  mscale ODiv (TInt int_t) (map (NI int_t) v) (NI int_t l) = Some (map (NI int_t) v) /\ zsum (length v) (fun k => values v k * values v k) = 2.
Proof. exists [1; 1], 1. vm_compute. repeat split. Qed.

(** ** Concrete cases *)
Example mixed_types : common (TInt short_t) (TInt short_t) = TInt short_t /\ common (TInt short_t) (TInt uchar_t) = TInt int_t /\ common (TInt int_t) (TInt unsigned_t) = TInt unsigned_t /\
  common (TInt unsigned_t) (TInt long_t) = TInt long_t /\ common (TInt long_t) TFloat = TFloat /\ common TFloat TDouble = TDouble.
Proof. vm_compute. repeat split. Qed.
Example mixed_case : exists v s w d, v <> [] /\ cast TDouble (NF s) = Some (ND d) /\ is_finite d = true /\ massign TFloat (MScalar OMul (MVec (map NF v)) (ND d)) = Some (map NF w) /\
  map B2SF w = [SpecFloat.S754_finite false 12582912 (-21); SpecFloat.S754_finite true 12582912 (-24)].
Proof.
  exists [sf 4 0; sf (-1) (-1)], (sf 3 (-1)), (map (fun x => fop OMul x (sf 3 (-1))) [sf 4 0; sf (-1) (-1)]), (widen (sf 3 (-1))). split; [discriminate|]. split; [reflexivity|]. split; [vm_compute; reflexivity|].
  split; [|vm_compute; reflexivity]. rewrite map_map. apply (double_scalar_on_floats OMul); reflexivity.
Qed.
Example integer_case : in_range int_t 7 = true /\ mscale OMul (TInt int_t) [NI int_t 7; NI int_t (-7)] (ND (df 5 (-1))) = Some [NI int_t 17; NI int_t (-17)] /\
  mscale OMul (TInt int_t) [NI int_t 7] (ND (df 1 40)) = None /\ int_length int_t [3; -4; 1] = Ok (Some 5) /\ trapping int_t = true.
Proof. vm_compute. repeat split. Qed.

Print Assumptions result_type.
Print Assumptions common_type_laws.
Print Assumptions common_type_range.
Print Assumptions float_to_double_exact.
Print Assumptions to_floating_nearest.
Print Assumptions int_to_floating_exact.
Print Assumptions to_integer_truncates.
Print Assumptions int_double_round_trip.
Print Assumptions long_double_round_trip_refuted.
Print Assumptions same_type_float.
Print Assumptions same_type_double.
Print Assumptions same_type_int.
Print Assumptions mixed_operation_rounds_once.
Print Assumptions scaling_elementwise.
Print Assumptions assignment_elementwise.
Print Assumptions compound_elementwise.
Print Assumptions negation.
Print Assumptions double_scalar_on_floats.
Print Assumptions double_vector_on_floats.
Print Assumptions double_intermediate_refuted.
Print Assumptions double_constant_refuted.
Print Assumptions dot_float_float.
Print Assumptions dot_float_double.
Print Assumptions dot_float_double_exact_products.
Print Assumptions int_with_unsigned.
Print Assumptions int_with_unsigned_refuted.
Print Assumptions integer_vector_by_double.
Print Assumptions integer_quotient_refuted.
Print Assumptions int_sqrt_floor.
Print Assumptions integer_length.
Print Assumptions long_length_refuted.
Print Assumptions int_fabs_exact.
Print Assumptions long_fabs_refuted.
Print Assumptions integer_normalize_refuted.
