(** Quaternion properties: C12, C14, C15, C16, and the quaternion part of C01, C03. *)
From Coq Require Import List Bool Arith Lia Ring Field ZArith QArith Reals.
From Verif Require Import Base ZInst RInst QuatModel QuatSpec QuatProofs MiscModel MiscSpec MiscProofs.
Import ListNotations.
Open Scope nat_scope.

(** Two expressions give the target the same value, whatever it holds. *)
Definition same_value {T} `{Ops T} `{MathOps T} (o : order) (c : crossing) (a b : qexpr) : Prop :=
  forall t : quat T, q_assign o c a t = q_assign o c b t.

Lemma R_field : is_field R.
Proof.
  constructor; try apply Rfield; simpl; intros; try (unfold Rdiv; ring).
  unfold Rdiv. field. auto.
Qed.
Lemma Z_ring : is_ring Z.
Proof. exact Zring. Qed.
Lemma is_field_ring {T} `{Ops T} : is_field T -> is_ring T.
Proof. intros []; auto. Qed.

(** *** C01 for quaternions: the target may appear anywhere in the expression *)
Theorem quaternion_assign : forall (T : Type) (Op : Ops T) (MO : MathOps T) o c e (q : quat T), is_ring T ->
  parts o (q_assign o c e q) = denote c (parts o q) (parts o) e.
Proof.
  intros T Op MO o c e q RT. rewrite <- (denote_ok RT). apply parts_ext. intros i Hi. now apply assign_old.
Qed.
(** Without any law: the elements are those the expression had before the assignment. *)
Theorem quaternion_assign_old_values : forall (T : Type) (Op : Ops T) (MO : MathOps T) o c e (q : quat T) i, i < 4 ->
  qget (q_assign o c e q) i = nget o q (build o c q e) i /\
  qget (q_compound o c QAdd e q) i = add (qget q i) (nget o q (build o c q e) i) /\
  qget (q_compound o c QSub e q) i = sub (qget q i) (nget o q (build o c q e) i).
Proof.
  intros. split; [now apply assign_old|]. split; [now apply (compound_old o c QAdd)|now apply (compound_old o c QSub)].
Qed.
Theorem quaternion_compound : forall (T : Type) (Op : Ops T) (MO : MathOps T) o c e (q : quat T), is_ring T ->
  parts o (q_compound o c QAdd e q) = hmap2 add (parts o q) (denote c (parts o q) (parts o) e) /\
  parts o (q_compound o c QSub e q) = hmap2 sub (parts o q) (denote c (parts o q) (parts o) e).
Proof.
  intros T Op MO o c e q RT. rewrite <- (denote_ok RT).
  split; unfold parts, parts_of, hmap2; simpl; rewrite !compound_old by (destruct o; simpl; lia); reflexivity.
Qed.

(** *** C03 for quaternions *)
Theorem quaternion_scale : forall (T : Type) (Op : Ops T) op s (q : quat T) i, i < 4 ->
  qget (q_scale op (RVal s) q) i = aps op (qget q i) s.
Proof. intros. now apply scale_val. Qed.
Theorem quaternion_scale_by_own_element : forall (T : Type) (Op : Ops T) op k (q : quat T) i, i < 4 -> k < 4 ->
  qget (q_scale op (ROwn k) q) i =
  aps op (qget q i) (if Nat.leb i k then qget q k else aps op (qget q k) (qget q k)).
Proof. intros. now apply scale_own. Qed.
Example quaternion_scale_ex :
  q_scale QTimes (RVal 3%Z) (Quat 1 2 3 4)%Z = (Quat 3 6 9 12)%Z /\
  q_scale QTimes (ROwn 1) (Quat 1 2 3 4)%Z = (Quat 2 4 12 16)%Z.
Proof. split; reflexivity. Qed.

(** *** C14: the algebra *)
Theorem quaternion_product_table : forall (T : Type) (Op : Ops T) o (p q : quat T), is_ring T ->
  parts o (q_mul o positive_cross (qget p) (qget q)) = hmul (parts o p) (parts o q) /\
  parts o (q_mul o negative_cross (qget p) (qget q)) = hmul (parts o q) (parts o p) /\
  q_mul o negative_cross (qget p) (qget q) = q_mul o positive_cross (qget q) (qget p).
Proof.
  intros T Op o p q RT. assert (A := q_mul_ok RT o). repeat split; try apply A.
  apply (parts_inj o). now rewrite !A.
Qed.
(** All expressions, of either order and cross type. *)
Theorem quaternion_algebra : forall (T : Type) (Op : Ops T) (MO : MathOps T) o c (a b d : @qexpr T), is_ring T ->
  let one_ := XQuat (q_identity o (q_zero (Quat zero zero zero zero))) in
  same_value o c (XProd (XProd a b) d) (XProd a (XProd b d)) /\
  same_value o c (XProd a (XBin QAdd b d)) (XBin QAdd (XProd a b) (XProd a d)) /\
  same_value o c (XProd (XBin QAdd a b) d) (XBin QAdd (XProd a d) (XProd b d)) /\
  same_value o c (XProd one_ a) a /\ same_value o c (XProd a one_) a /\
  same_value o c (XConj (XProd a b)) (XProd (XConj b) (XConj a)) /\
  same_value o c (XConj (XConj a)) a /\
  (forall t, norm_of (qget (q_assign o c (XProd a b) t)) =
             mul (norm_of (qget (q_assign o c a t))) (norm_of (qget (q_assign o c b t)))).
Proof.
  intros T Op MO o c a b d RT one_.
  assert (V := fun e t => quaternion_assign T Op MO o c e t RT).
  assert (One : forall p : quat T -> ham T, p = parts o -> p (q_identity o (q_zero (Quat zero zero zero zero))) = hone).
  { intros p ->. destruct o; reflexivity. }
  assert (Eq : forall x y : @qexpr T, (forall s, denote c s (parts o) x = denote c s (parts o) y) -> same_value o c x y).
  { intros x y H t. apply (parts_inj o). now rewrite !V, H. }
  repeat split; try (apply Eq; intros s; cbn [denote]; generalize (denote c s (parts o) a), (denote c s (parts o) b), (denote c s (parts o) d);
    intros A B D); rewrite ?(One _ eq_refl).
  - destruct c; simpl; [now apply hmul_assoc|symmetry; now apply hmul_assoc].
  - destruct c; simpl; [now apply hmul_add_r|now apply hmul_add_l].
  - destruct c; simpl; [now apply hmul_add_l|now apply hmul_add_r].
  - unfold one_. cbn [denote]. rewrite (One _ eq_refl).
    destruct c; simpl; [now apply hmul_one_l|now apply hmul_one_r].
  - unfold one_. cbn [denote]. rewrite (One _ eq_refl).
    destruct c; simpl; [now apply hmul_one_r|now apply hmul_one_l].
  - destruct c; simpl; now apply hconj_mul.
  - destruct A; unfold hconj; simpl. f_equal; apply (Ropp_opp (Eqsth T) (Eq_ext _ _ _) RT).
  - intros t. rewrite !(norm_ok RT o). fold (parts o (q_assign o c (XProd a b) t)).
    fold (parts o (q_assign o c a t)). fold (parts o (q_assign o c b t)). rewrite !V. cbn [denote].
    destruct c; simpl hprod; rewrite (hnorm_mul RT); auto. apply (Rmul_comm RT).
Qed.
Theorem quaternion_inverse : forall (T : Type) (Op : Ops T) (MO : MathOps T) o c (a : @qexpr T) (t : quat T), is_field T ->
  norm_of (qget (q_assign o c a t)) <> zero ->
  parts o (q_assign o c (XProd a (XInv a)) t) = hone /\ parts o (q_assign o c (XProd (XInv a) a) t) = hone.
Proof.
  intros T Op MO o c a t FT Hn. assert (RT := is_field_ring FT). assert (V := fun e => quaternion_assign T Op MO o c e t RT).
  rewrite (norm_ok RT o) in Hn. fold (parts o (q_assign o c a t)) in Hn.
  rewrite !V in *. cbn [denote]. set (A := denote c (parts o t) (parts o) a) in *.
  assert (I : forall x : T, x <> zero -> mul (div one x) x = one).
  { intros x Hx. now apply (Finv_l FT). }
  destruct c; simpl hprod; rewrite ?(hmul_scale_r RT), ?(hmul_scale_l RT), ?(hmul_conj_r RT), ?(hmul_conj_l RT);
    rewrite !(hscale_scale RT), I, (hscale_1 RT) by exact Hn; auto.
Qed.
Example quaternion_algebra_ex :
  is_field R /\ is_ring Z /\
  q_mul imaginary_first positive_cross (qget (Quat 1 2 3 4)%Z) (qget (Quat 5 6 7 8)%Z) = (Quat 24 48 48 (-6))%Z /\
  norm_of (qget (Quat 1 2 3 4)%Z) = 30%Z /\ norm_of (qget (Quat 24 48 48 (-6))%Z) = (30 * 174)%Z.
Proof. split; [apply R_field|]. split; [apply Z_ring|]. repeat split. Qed.

(** *** C15: order of storage *)
Theorem storage_order_unobservable : forall (T : Type) (Op : Ops T) (MO : MathOps T) c e (q : quat T), is_ring T ->
  let e' := in_imaginary_first e in
  let q' := to_imaginary_first q in
  parts imaginary_first q' = parts real_first q /\
  parts imaginary_first (q_assign imaginary_first c e' q') = parts real_first (q_assign real_first c e q) /\
  (forall op, parts imaginary_first (q_compound imaginary_first c op e' q') =
              parts real_first (q_compound real_first c op e q)) /\
  parts imaginary_first (q_mul_eq imaginary_first c e' q') = parts real_first (q_mul_eq real_first c e q) /\
  (forall op s, parts imaginary_first (q_scale op (RVal s) q') = parts real_first (q_scale op (RVal s) q)) /\
  parts imaginary_first (q_normalize q') = parts real_first (q_normalize q) /\
  parts imaginary_first (q_conjugate imaginary_first q') = parts real_first (q_conjugate real_first q) /\
  parts imaginary_first (q_inverse imaginary_first q') = parts real_first (q_inverse real_first q).
Proof.
  intros T Op MO c e q RT e' q'.
  assert (D : forall e, denote c (parts imaginary_first q') (parts imaginary_first) (in_imaginary_first e) =
                        denote c (parts real_first q) (parts real_first) e).
  { induction e0; simpl; try reflexivity; try (destruct op); rewrite ?IHe0, ?IHe0_1, ?IHe0_2; reflexivity. }
  assert (N : norm_of (qget q') = norm_of (qget q)).
  { rewrite (norm_ok RT imaginary_first), (norm_ok RT real_first). reflexivity. }
  split; [reflexivity|]. split; [rewrite !(quaternion_assign _ _ _ _ _ _ _ RT); apply D|].
  split.
  { intros op. destruct op.
    - rewrite !(proj1 (quaternion_compound _ _ _ _ _ _ _ RT)). unfold e'. now rewrite D.
    - rewrite !(proj2 (quaternion_compound _ _ _ _ _ _ _ RT)). unfold e'. now rewrite D. }
  split.
  { rewrite !mul_eq_old, !(q_mul_ok RT), !(denote_ok RT). unfold e'. now rewrite D. }
  split; [intros op s; reflexivity|].
  split; [unfold q_normalize, length_of; rewrite N; reflexivity|].
  split; [reflexivity|].
  unfold q_inverse. rewrite N. reflexivity.
Qed.
(** But assignment and += between quaternions of different orders copy slots: the
    real part of the source ends up in an imaginary part of the target. *)
Theorem assign_between_orders_refuted :
  exists q : quat Z,
    (* q holds 1 + 2i + 3j + 4k imaginary_first; r is real_first *)
    parts imaginary_first q = (Ham 1 2 3 4)%Z /\
    let r := assign_get real_first (fun _ => qget q) (Quat 0 0 0 0)%Z in
    parts real_first r = (Ham 2 3 4 1)%Z /\ parts real_first r <> parts imaginary_first q /\
    let s := compound_get QAdd (fun _ => qget q) (Quat 0 0 0 0)%Z in
    parts real_first s = (Ham 2 3 4 1)%Z.
Proof. exists (Quat 2 3 4 1)%Z. repeat split. discriminate. Qed.

(** *** C16: in-place forms *)
Theorem in_place_operations : forall (T : Type) (Op : Ops T) (MO : MathOps T) o c e (q : quat T),
  q_conjugate o q = q_assign o c (XConj XSelf) q /\
  q_normalize q = q_assign o c (XNormalize XSelf) q /\
  q_mul_eq o c e q = q_assign o c (XProd XSelf e) q /\
  q_mul_eq o c XSelf q = q_assign o c (XProd XSelf XSelf) q /\
  parts o (q_identity o q) = hone /\
  parts o (q_zero q) = Ham zero zero zero zero.
Proof.
  intros T Op MO o c e q.
  assert (M : forall e, q_mul_eq o c e q = q_assign o c (XProd XSelf e) q).
  { intros e'. rewrite mul_eq_old. apply quat_ext. intros i Hi. rewrite assign_old by auto. reflexivity. }
  repeat split; auto.
  - apply quat_ext. intros i Hi. rewrite assign_old, conj_in_place by auto. reflexivity.
  - apply quat_ext. intros i Hi. rewrite assign_old by auto. unfold q_normalize. rewrite scale_val by auto. reflexivity.
  - destruct o; reflexivity.
  - destruct o; reflexivity.
Qed.
Theorem in_place_inverse : forall (T : Type) (Op : Ops T) (MO : MathOps T) o c (q : quat T), is_field T ->
  q_inverse o q = q_assign o c (XInv XSelf) q.
Proof.
  intros T Op MO o c q FT. apply quat_ext. intros i Hi. rewrite assign_old by auto.
  assert (Q : forall a b : T, div a b = mul (div one b) a).
  { intros a b. rewrite (Fdiv_def FT). apply (Rmul_comm (F_R FT)). }
  destruct o; cases4 i; simpl; unfold norm_of; simpl; apply Q.
Qed.
(** A normalized quaternion has norm 1. *)
Theorem quaternion_normalize_unit : forall o c (e : @qexpr R) q,
  norm_of (qget (q_assign o c e q)) <> 0%R ->
  norm_of (qget (q_normalize (q_assign o c e q))) = 1%R /\
  norm_of (qget (q_assign o c (XNormalize e) q)) = 1%R.
Proof.
  intros o c e q Hn.
  assert (G : forall p : quat R, norm_of (qget p) <> 0%R -> norm_of (qget (q_normalize p)) = 1%R).
  { intros p Hp. unfold q_normalize. unfold norm_of. rewrite !scale_val by lia. unfold length_of, aps.
    set (n := norm_of (qget p)) in *. simpl.
    assert (0 < n)%R.
    { assert (0 <= n)%R; [unfold n, norm_of; simpl; repeat apply Rplus_le_le_0_compat; apply Rle_0_sqr|].
      destruct H; auto. exfalso; auto. }
    replace (_ + _)%R with (n / (sqrt n * sqrt n))%R.
    - rewrite sqrt_sqrt by (apply Rlt_le; auto). field. auto.
    - unfold n at 1, norm_of. simpl. field. apply Rgt_not_eq, sqrt_lt_R0; auto. }
  split; [now apply G|].
  rewrite <- (G _ Hn). f_equal. f_equal. apply quat_ext. intros i Hi.
  rewrite assign_old by auto. unfold q_normalize. rewrite scale_val, assign_old by auto. cbn [nget build aps]. f_equal.
  unfold length_of, norm_of. now rewrite !assign_old by lia.
Qed.

(** *** C12: comparison *)
Theorem quaternion_order : forall (T : Type) (Op : Ops T), total_order T -> (forall x y : T, eqb x y = true <-> x = y) ->
  forall p q : quat T,
  (q_lt p q = true <-> lex_lt [q0 p; q1 p; q2 p; q3 p] [q0 q; q1 q; q2 q; q3 q]) /\
  q_gt p q = q_lt q p /\ (q_eq p q = true <-> p = q) /\
  q_le p q = negb (q_gt p q) /\ q_ge p q = negb (q_lt p q) /\ q_ne p q = negb (q_eq p q) /\
  ((q_lt p q = true /\ q_eq p q = false /\ q_gt p q = false) \/
   (q_lt p q = false /\ q_eq p q = true /\ q_gt p q = false) \/
   (q_lt p q = false /\ q_eq p q = false /\ q_gt p q = true)).
Proof.
  intros T Op TO E p q. assert (L1 := q_lt_lex TO p q). assert (L2 := q_lt_lex TO q p). assert (Q := q_eq_l p q E).
  assert (G := q_gt_flip TO p q). do 6 (split; auto). rewrite G.
  assert (T1 := lex_total TO (els p) (els q)). assert (I1 := lex_irr TO (els p)).
  assert (C : lex_lt (els p) (els q) -> lex_lt (els q) (els p) -> False).
  { intros A B. apply I1. eapply lex_trans; eauto. }
  assert (X : els p = els q -> p = q) by apply els_inj.
  destruct (q_lt p q), (q_lt q p), (q_eq p q); auto; exfalso;
    try (assert (p = q) by tauto; subst; tauto); intuition congruence.
Qed.
Theorem quaternion_order_transitive : forall (T : Type) (Op : Ops T), total_order T ->
  forall p q r : quat T, q_lt p p = false /\ (q_lt p q = true -> q_lt q r = true -> q_lt p r = true).
Proof.
  intros T Op TO p q r. split.
  - destruct (q_lt p p) eqn:A; auto. apply (q_lt_lex TO) in A. now apply (lex_irr TO) in A.
  - rewrite !(q_lt_lex TO). apply (lex_trans TO).
Qed.
Example quaternion_order_ex : q_lt (Quat 1 2 3 4)%Z (Quat 1 2 4 0)%Z = true /\ q_gt (Quat 1 2 3 4)%Z (Quat 1 2 4 0)%Z = false.
Proof. split; reflexivity. Qed.

(** Wrong sizes *)
Theorem quaternion_wrong_sizes : forall (T : Type) (Op : Ops T) o s v l (q : quat T),
  (length v <> 3 -> q_set o s v q = Throw EVectorSize) /\
  (length l <> 4 -> q_set_list o l q = Throw EQuaternionSize) /\
  (forall x y z, q_set o s [x; y; z] q = Ok (match o with real_first => Quat s x y z | imaginary_first => Quat x y z s end)) /\
  (forall a b c d, q_set_list o [a; b; c; d] q = Ok (Quat a b c d)).
Proof.
  intros. split; [|split; [|split]].
  - intros H. unfold q_set, assign_parts. apply Nat.eqb_neq in H. now rewrite H.
  - intros H. unfold q_set_list. apply Nat.eqb_neq in H. now rewrite H.
  - intros. destruct o; reflexivity.
  - intros. destruct o; reflexivity.
Qed.

Print Assumptions quaternion_assign. Print Assumptions quaternion_assign_old_values. Print Assumptions quaternion_compound.
Print Assumptions quaternion_scale. Print Assumptions quaternion_scale_by_own_element.
Print Assumptions quaternion_product_table. Print Assumptions quaternion_algebra. Print Assumptions quaternion_inverse.
Print Assumptions storage_order_unobservable. Print Assumptions assign_between_orders_refuted.
Print Assumptions in_place_operations. Print Assumptions in_place_inverse. Print Assumptions quaternion_normalize_unit.
Print Assumptions quaternion_order. Print Assumptions quaternion_order_transitive. Print Assumptions quaternion_wrong_sizes.
