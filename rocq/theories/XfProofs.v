(** Lemmas about affine maps over any commutative ring. *)
From Coq Require Import List Bool Arith Lia Ring ZArith.
From Verif Require Import Base MiscModel QuatModel RotModel VecModel VecSpec VecProofs XfModel XfSpec.
Import ListNotations.
Open Scope nat_scope.

Section NoLaws.
Context {T : Type} {Op : Ops T}.
Lemma coef_be (m : mx T) i k : coef m i k = be m k i.
Proof. unfold coef, be. destruct (mbasis m); auto. Qed.
Lemma be_setg (m : mx T) i j v a b : be (set_be m i j v) a b = if Nat.eqb a i && Nat.eqb b j then v else be m a b.
Proof. unfold be, set_be. destruct (mbasis m) eqn:E; simpl; rewrite E; auto. rewrite andb_comm. auto. Qed.
Lemma coef_set (m : mx T) i j v a b : coef (set_be m i j v) a b = if Nat.eqb b i && Nat.eqb a j then v else coef m a b.
Proof. rewrite !coef_be. apply be_setg. Qed.
Lemma coef_identity (m : mx T) a b : coef (mx_identity m) a b = kron a b.
Proof. unfold coef, kron. simpl. destruct (mbasis m); auto. rewrite Nat.eqb_sym. auto. Qed.
Lemma shape_refl (m : mx T) : same_shape m m. Proof. repeat split. Qed.
Lemma shape_trans (a b c : mx T) : same_shape a b -> same_shape b c -> same_shape a c.
Proof. intros (A & B & C) (D & E & F). repeat split; congruence. Qed.
Lemma shape_set (m : mx T) i j v : same_shape m (set_be m i j v).
Proof. unfold set_be. destruct (mbasis m) eqn:E; repeat split; simpl; auto. Qed.
Lemma shape_identity (m : mx T) : same_shape m (mx_identity m). Proof. repeat split. Qed.
Lemma shape_affine n (m m' : mx T) : same_shape m m' -> holds_affine n m -> holds_affine n m'.
Proof. intros (A & B & C). unfold holds_affine. rewrite A, B, C. auto. Qed.
Lemma shape_linear n (m m' : mx T) : same_shape m m' -> holds_linear n m -> holds_linear n m'.
Proof. intros (A & B & C). unfold holds_linear. rewrite A, B. auto. Qed.
Lemma affine_linear n (m : mx T) : holds_affine n m -> holds_linear n m.
Proof. unfold holds_affine, holds_linear. destruct (mbasis m); lia. Qed.
Lemma min_okg (m : mx T) r c : r <= mrows m -> c <= mcols m -> check_minimum_size m r c = Ok tt.
Proof. intros A B. unfold check_minimum_size, require. apply Nat.leb_le in A, B. rewrite A, B. auto. Qed.
Lemma linear_ok2 (m : mx T) : holds_linear 2 m -> check_linear_2D m = Ok tt.
Proof. intros [A B]. apply min_okg; auto. Qed.
Lemma linear_ok3 (m : mx T) : holds_linear 3 m -> check_linear_3D m = Ok tt.
Proof. intros [A B]. apply min_okg; auto. Qed.
Lemma affine_ok2 (m : mx T) : holds_affine 2 m -> check_affine_2D m = Ok tt.
Proof. unfold holds_affine, check_affine_2D. destruct (mbasis m); intros [A B]; apply min_okg; lia. Qed.
Lemma affine_ok3 (m : mx T) : holds_affine 3 m -> check_affine_3D m = Ok tt.
Proof. unfold holds_affine, check_affine_3D. destruct (mbasis m); intros [A B]; apply min_okg; lia. Qed.
Lemma linear_bad n (m : mx T) : ~ holds_linear n m -> check_minimum_size m n n = Throw EMinimumMatrixSize.
Proof.
  unfold holds_linear, check_minimum_size, require. intros H.
  destruct (Nat.leb_spec n (mrows m)), (Nat.leb_spec n (mcols m)); auto. exfalso; apply H; lia.
Qed.
Lemma affine_bad2 (m : mx T) : ~ holds_affine 2 m -> check_affine_2D m = Throw EMinimumMatrixSize.
Proof.
  unfold holds_affine, check_affine_2D, check_minimum_size, require. intros H. destruct (mbasis m).
  - destruct (Nat.leb_spec 3 (mrows m)), (Nat.leb_spec 2 (mcols m)); auto. exfalso; apply H; lia.
  - destruct (Nat.leb_spec 2 (mrows m)), (Nat.leb_spec 3 (mcols m)); auto. exfalso; apply H; lia.
Qed.
Lemma affine_bad3 (m : mx T) : ~ holds_affine 3 m -> check_affine_3D m = Throw EMinimumMatrixSize.
Proof.
  unfold holds_affine, check_affine_3D, check_minimum_size, require. intros H. destruct (mbasis m).
  - destruct (Nat.leb_spec 4 (mrows m)), (Nat.leb_spec 3 (mcols m)); auto. exfalso; apply H; lia.
  - destruct (Nat.leb_spec 3 (mrows m)), (Nat.leb_spec 4 (mcols m)); auto. exfalso; apply H; lia.
Qed.

Lemma sum_ext n (f g : nat -> T) : (forall k, k < n -> f k = g k) -> sum n f = sum n g.
Proof. induction n; simpl; intros H; auto. rewrite IHn by (intros; apply H; lia). rewrite H by lia. auto. Qed.
Lemma nth_map_seq n (f : nat -> T) i : i < n -> nth i (map f (seq 0 n)) zero = f i.
Proof.
  intros H. rewrite nth_indep with (d' := f 0) by (rewrite map_length, seq_length; auto).
  rewrite map_nth, seq_nth; auto.
Qed.
Lemma map_seq_list n (f : nat -> T) p : length p = n -> (forall i, i < n -> f i = nth i p zero) -> map f (seq 0 n) = p.
Proof.
  intros L H. apply nth_ext with (d := zero) (d' := zero); rewrite map_length, seq_length; auto.
  intros i Hi. rewrite nth_map_seq; auto.
Qed.
Lemma affine_length n (m : mx T) p : length (affine_map n m p) = n.
Proof. unfold affine_map. rewrite map_length, seq_length. auto. Qed.
Lemma linear_length n (m : mx T) p : length (linear_map n m p) = n.
Proof. unfold linear_map. rewrite map_length, seq_length. auto. Qed.
Lemma nth_affine n (m : mx T) p i : i < n -> nth i (affine_map n m p) zero = add (sum n (fun k => mul (coef m i k) (nth k p zero))) (coef m i n).
Proof. intros H. unfold affine_map. rewrite nth_map_seq; auto. Qed.
End NoLaws.

Section Ring.
Context {T : Type} {Op : Ops T}.
Hypothesis RT : ring_theory (zero : T) one add mul sub neg eq.
Add Ring TRing : RT.
Local Infix "+!" := add (at level 50, left associativity).
Local Infix "-!" := sub (at level 50, left associativity).
Local Infix "*!" := mul (at level 40, left associativity).
Local Notation "-: x" := (neg x) (at level 35).
Implicit Types m : mx T.
Implicit Types p : list T.

Lemma sum_add n (f g : nat -> T) : sum n (fun k => f k +! g k) = sum n f +! sum n g.
Proof. induction n; simpl; [ring|]. rewrite IHn. ring. Qed.
Lemma sum_scale n c (f : nat -> T) : sum n (fun k => c *! f k) = c *! sum n f.
Proof. induction n; simpl; [ring|]. rewrite IHn. ring. Qed.
Lemma sum_scale_r n c (f : nat -> T) : sum n (fun k => f k *! c) = sum n f *! c.
Proof. induction n; simpl; [ring|]. rewrite IHn. ring. Qed.
Lemma sum_zero n (f : nat -> T) : (forall k, k < n -> f k = zero) -> sum n f = zero.
Proof. induction n; simpl; intros H; auto. rewrite IHn by (intros; apply H; lia). rewrite H by lia. ring. Qed.
Lemma sum_swap n q (f : nat -> nat -> T) : sum n (fun i => sum q (fun j => f i j)) = sum q (fun j => sum n (fun i => f i j)).
Proof.
  induction n; simpl.
  - symmetry. apply sum_zero. auto.
  - rewrite IHn, <- sum_add. auto.
Qed.
Lemma sum_kron n i (f : nat -> T) : i < n -> sum n (fun k => kron i k *! f k) = f i.
Proof.
  induction n; intros H; [lia|]. simpl. destruct (Nat.eq_dec i n) as [->|N].
  - rewrite sum_zero. { unfold kron. rewrite Nat.eqb_refl. ring. }
    intros k Hk. unfold kron. destruct (Nat.eqb_spec n k); [lia|]. ring.
  - rewrite IHn by lia. unfold kron. destruct (Nat.eqb_spec i n); [lia|]. ring.
Qed.
Lemma accumulate_sum n (f : nat -> T) : 0 < n -> accumulate n f = sum n f.
Proof.
  intros H. destruct n; [lia|]. rewrite (accumulate_S RT). clear H.
  generalize (S n). intros q. induction q; [reflexivity|]. rewrite seq_S. simpl. rewrite <- IHq. simpl.
  generalize (seq 0 q). intros l. induction l; simpl; [ring|]. rewrite IHl. ring.
Qed.
Lemma sum_tail n q (f : nat -> T) : (forall k, q <= k -> k < n -> f k = zero) -> q <= n -> sum n f = sum q f.
Proof.
  intros H L. induction n; [assert (q = 0) by lia; subst; auto|].
  destruct (Nat.eq_dec q (S n)) as [->|N]; [auto|]. simpl. rewrite IHn by (intros; try apply H; lia). rewrite H by lia. ring.
Qed.

(** *** Inverses *)
(** transposing an orthogonal linear part and carrying the translation through it *)
Definition rt_inverse n m m' : Prop :=
  (forall i k, i < n -> k < n -> coef m' i k = coef m k i) /\
  (forall i, i < n -> coef m' i n = -: sum n (fun k => coef m k i *! coef m k n)).
Lemma rt_inverse_left n m m' p : rt_inverse n m m' -> orthogonal_part n m -> length p = n -> affine_map n m' (affine_map n m p) = p.
Proof.
  intros [A B] O L. apply map_seq_list; auto. intros i Hi. rewrite B by auto.
  rewrite sum_ext with (g := fun k => sum n (fun j => coef m k i *! (coef m k j *! nth j p zero)) +! coef m k i *! coef m k n).
  2:{ intros k Hk. rewrite nth_affine, A by auto. rewrite sum_scale. ring. }
  rewrite sum_add, sum_swap.
  rewrite sum_ext with (f := fun j => sum n _) (g := fun j => kron i j *! nth j p zero).
  2:{ intros j Hj. destruct (O i j Hi Hj) as [_ E]. rewrite <- E, <- sum_scale_r. apply sum_ext. intros; ring. }
  rewrite sum_kron by auto. ring.
Qed.
Lemma rt_inverse_right n m m' p : rt_inverse n m m' -> orthogonal_part n m -> length p = n -> affine_map n m (affine_map n m' p) = p.
Proof.
  intros [A B] O L. apply map_seq_list; auto. intros i Hi.
  rewrite sum_ext with (g := fun k => sum n (fun j => coef m i k *! (coef m j k *! nth j p zero)) +!
     -: (sum n (fun j => coef m i k *! (coef m j k *! coef m j n)))).
  2:{ intros k Hk. rewrite nth_affine, B by auto. rewrite sum_ext with (g := fun j => coef m j k *! nth j p zero) by (intros; rewrite A; auto).
      rewrite !sum_scale. ring. }
  rewrite sum_add.
  rewrite (sum_ext n (fun k => -: _) (fun k => (-: one) *! sum n (fun j => coef m i k *! (coef m j k *! coef m j n)))) by (intros; ring).
  rewrite sum_scale.
  rewrite (sum_swap n n (fun k j => coef m i k *! (coef m j k *! nth j p zero))).
  rewrite (sum_swap n n (fun k j => coef m i k *! (coef m j k *! coef m j n))).
  rewrite (sum_ext n (fun j => sum n (fun k => coef m i k *! (coef m j k *! nth j p zero))) (fun j => kron i j *! nth j p zero)).
  2:{ intros j Hj. destruct (O i j Hi Hj) as [E _]. rewrite <- E, <- sum_scale_r. apply sum_ext. intros; ring. }
  rewrite (sum_ext n (fun j => sum n (fun k => coef m i k *! (coef m j k *! coef m j n))) (fun j => kron i j *! coef m j n)).
  2:{ intros j Hj. destruct (O i j Hi Hj) as [E _]. rewrite <- E, <- sum_scale_r. apply sum_ext. intros; ring. }
  rewrite !sum_kron by auto. ring.
Qed.
Lemma rt_inverse_orth n m m' : rt_inverse n m m' -> orthogonal_part n m -> orthogonal_part n m'.
Proof.
  intros [A B] O i j Hi Hj. destruct (O i j Hi Hj) as [E F]. split.
  - rewrite <- F. apply sum_ext. intros. rewrite !A by auto. auto.
  - rewrite <- E. apply sum_ext. intros. rewrite !A by auto. auto.
Qed.

(** *** The loop of matrix_invert_RT *)
Lemma transpose_inner i l m : (forall j, In j l -> i < j) -> NoDup l ->
  let m' := fold_left (fun m j => let e_ij := be m i j in let e_ji := be m j i in set_be (set_be m i j e_ji) j i e_ij) l m in
  same_shape m m' /\ forall a b, be m' a b =
    if Nat.eqb a i && existsb (Nat.eqb b) l then be m b a
    else if Nat.eqb b i && existsb (Nat.eqb a) l then be m b a else be m a b.
Proof.
  revert m. induction l as [|j l IH]; intros m Hl ND m'; subst m'.
  - simpl. split; [apply shape_refl|]. intros a b. rewrite !andb_false_r. auto.
  - simpl fold_left. inversion ND as [|? ? NI ND']; subst.
    set (m1 := set_be _ j i _). destruct (IH m1) as [S E]; [intros; apply Hl; simpl; auto|auto|].
    split. { eapply shape_trans; [|exact S]. unfold m1. eapply shape_trans; apply shape_set. }
    intros a b. cbv zeta in E. rewrite E. assert (Hj := Hl j (or_introl eq_refl)).
    assert (G : forall x y, be m1 x y = if Nat.eqb x i && Nat.eqb y j then be m j i else if Nat.eqb x j && Nat.eqb y i then be m i j else be m x y).
    { intros x y. unfold m1. rewrite !be_setg.
      destruct (Nat.eqb_spec x j), (Nat.eqb_spec y i), (Nat.eqb_spec x i), (Nat.eqb_spec y j); simpl; auto; try lia. }
    assert (NJ : existsb (Nat.eqb j) l = false).
    { destruct (existsb (Nat.eqb j) l) eqn:X; auto. apply existsb_exists in X as (x & X & Y). apply Nat.eqb_eq in Y. subst. tauto. }
    assert (NI' : existsb (Nat.eqb i) l = false).
    { destruct (existsb (Nat.eqb i) l) eqn:X; auto. apply existsb_exists in X as (x & X & Y). apply Nat.eqb_eq in Y. subst.
      assert (x < x) by (apply Hl; simpl; auto). lia. }
    rewrite !G. simpl existsb.
    destruct (Nat.eqb_spec a i) as [Ea|Ea]; destruct (Nat.eqb_spec b i) as [Eb|Eb]; subst; simpl.
    + rewrite NI'. destruct (Nat.eqb_spec i j); [lia|]. simpl. auto.
    + destruct (Nat.eqb_spec b j) as [->|Nb].
      * rewrite NJ. destruct (Nat.eqb_spec i j); [lia|]. simpl. auto.
      * destruct (existsb (Nat.eqb b) l); simpl; destruct (Nat.eqb_spec i j); try lia; simpl; auto.
    + destruct (Nat.eqb_spec a j) as [->|Na].
      * rewrite NJ. simpl. auto.
      * destruct (existsb (Nat.eqb a) l); simpl; destruct (Nat.eqb_spec i j); try lia; simpl; auto.
    + destruct (Nat.eqb_spec a j), (Nat.eqb_spec b j); simpl; auto.
Qed.
Lemma existsb_seq b s n : existsb (Nat.eqb b) (seq s n) = Nat.leb s b && Nat.ltb b (s + n).
Proof.
  destruct (existsb (Nat.eqb b) (seq s n)) eqn:X.
  - apply existsb_exists in X as (x & X & Y). apply Nat.eqb_eq in Y. subst x. apply in_seq in X.
    symmetry. apply andb_true_intro. split; [apply Nat.leb_le|apply Nat.ltb_lt]; lia.
  - destruct (Nat.leb_spec s b), (Nat.ltb_spec b (s + n)); auto. exfalso. assert (In b (seq s n)) by (apply in_seq; lia).
    assert (existsb (Nat.eqb b) (seq s n) = true). { apply existsb_exists. exists b. split; auto. apply Nat.eqb_refl. } congruence.
Qed.
Lemma transpose_outer M q m : q <= M ->
  let m' := fold_left (fun m i => fold_left (fun m j => let e_ij := be m i j in let e_ji := be m j i in set_be (set_be m i j e_ji) j i e_ij)
     (seq (i + 1) (M - (i + 1))) m) (seq 0 q) m in
  same_shape m m' /\ forall a b, be m' a b =
    if (Nat.ltb a M && Nat.ltb b M && (Nat.ltb a q || Nat.ltb b q))%bool then be m b a else be m a b.
Proof.
  induction q; intros Hq m'; subst m'.
  - simpl. split; [apply shape_refl|]. intros a b. rewrite andb_false_r. auto.
  - rewrite seq_S, fold_left_app. simpl fold_left at 1. destruct IHq as [S E]; [lia|]. cbv zeta in E.
    set (m1 := fold_left _ (seq 0 q) m) in *. simpl fold_left.
    destruct (transpose_inner q (seq (q + 1) (M - (q + 1))) m1) as [S' E'].
    { intros j Hj. apply in_seq in Hj. lia. } { apply seq_NoDup. }
    split; [eapply shape_trans; eauto|]. intros a b. cbv zeta in E'. rewrite E', !E, !existsb_seq.
    replace (q + 1 + (M - (q + 1))) with M by lia.
    assert (LA : (q + 1 <=? a) = (q <? a)). { rewrite Nat.add_1_r. reflexivity. }
    assert (LB : (q + 1 <=? b) = (q <? b)). { rewrite Nat.add_1_r. reflexivity. }
    rewrite LA, LB. assert (HqM : (q <? M) = true) by (apply Nat.ltb_lt; lia). clear - HqM.
    assert (QM : (a <? S q) = ((a <? q) || (a =? q))%bool).
    { destruct (Nat.ltb_spec a (S q)), (Nat.ltb_spec a q), (Nat.eqb_spec a q); auto; lia. }
    assert (QB : (b <? S q) = ((b <? q) || (b =? q))%bool).
    { destruct (Nat.ltb_spec b (S q)), (Nat.ltb_spec b q), (Nat.eqb_spec b q); auto; lia. }
    rewrite QM, QB. clear QM QB.
    destruct (Nat.lt_trichotomy a q) as [HA|[HA|HA]], (Nat.lt_trichotomy b q) as [HB|[HB|HB]];
      repeat match goal with
      | H : a < q |- _ => rewrite (proj2 (Nat.ltb_lt a q) H), (proj2 (Nat.eqb_neq a q)), (proj2 (Nat.ltb_ge q a)) by lia; clear H
      | H : q < a |- _ => rewrite (proj2 (Nat.ltb_lt q a) H), (proj2 (Nat.eqb_neq a q)), (proj2 (Nat.ltb_ge a q)) by lia; clear H
      | H : b < q |- _ => rewrite (proj2 (Nat.ltb_lt b q) H), (proj2 (Nat.eqb_neq b q)), (proj2 (Nat.ltb_ge q b)) by lia; clear H
      | H : q < b |- _ => rewrite (proj2 (Nat.ltb_lt q b) H), (proj2 (Nat.eqb_neq b q)), (proj2 (Nat.ltb_ge b q)) by lia; clear H
      | H : a = q |- _ => subst a
      | H : b = q |- _ => subst b
      end; rewrite ?Nat.eqb_refl, ?Nat.ltb_irrefl, ?HqM; cbn [andb orb];
      repeat match goal with |- context [?x <? M] => destruct (x <? M) end; cbn [andb orb]; auto.
Qed.
Lemma transpose_linear_be M m : same_shape m (transpose_linear M m) /\
  forall a b, be (transpose_linear M m) a b = if Nat.ltb a M && Nat.ltb b M then be m b a else be m a b.
Proof.
  unfold transpose_linear. destruct (transpose_outer M M m (le_n M)) as [S E]. split; [exact S|]. intros a b. cbv zeta in E. rewrite E.
  destruct (Nat.ltb_spec a M), (Nat.ltb_spec b M); simpl; auto.
Qed.
Lemma fold_sum (f : nat -> T) n : 0 < n -> fold_left (fun e j => e +! f j) (seq 1 (n - 1)) (f 0) = sum n f.
Proof. intros H. rewrite <- accumulate_sum by auto. unfold accumulate. destruct n; [lia|]. reflexivity. Qed.
Lemma translate_loop M q t m : 0 < M -> q <= M ->
  let m' := fold_left (fun m i => let e := fold_left (fun e j => e +! be m j i *! el t j) (seq 1 (M - 1)) (be m 0 i *! el t 0) in
    set_be m M i (-: e)) (seq 0 q) m in
  same_shape m m' /\ forall a b, be m' a b =
    if (Nat.eqb a M && Nat.ltb b q)%bool then -: sum M (fun j => be m j b *! el t j) else be m a b.
Proof.
  intros HM. induction q; intros Hq m'; subst m'.
  - simpl. split; [apply shape_refl|]. intros a b. rewrite andb_false_r. auto.
  - rewrite seq_S, fold_left_app. simpl fold_left at 1. destruct IHq as [Sh E]; [lia|]. cbv zeta in E.
    set (m1 := fold_left _ (seq 0 q) m) in *.
    split; [eapply shape_trans; [exact Sh|apply shape_set]|]. intros a b.
    change (fold_left _ [0 + q] m1) with
      (set_be m1 M q (-: (fold_left (fun e j => e +! be m1 j q *! el t j) (seq 1 (M - 1)) (be m1 0 q *! el t 0)))).
    rewrite (fold_sum (fun j => be m1 j q *! el t j)) by auto.
    rewrite be_setg, (E a b).
    destruct (Nat.eqb_spec a M) as [->|N]; simpl; auto.
    destruct (Nat.eqb_spec b q) as [->|Nq].
    + destruct (Nat.ltb_spec q (S q)); [|lia]. f_equal. apply sum_ext. intros k Hk. rewrite E.
      destruct (Nat.eqb_spec k M); [lia|]. auto.
    + destruct (Nat.ltb_spec b q), (Nat.ltb_spec b (S q)); auto; lia.
Qed.
End Ring.
