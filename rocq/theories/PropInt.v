(** C67, C68: vectors, matrices and quaternions with integer elements (IntModel.v). *)
From Coq Require Import ZArith Bool List Arith Lia Znumtheory Eqdep_dec Ring.
From Verif Require Import Base ZInst RotModel QuatModel QuatSpec MatModel MatSpec VecModel VecProofs LUModel XfModel MatOps ExactProducts Formula IntModel.
Import ListNotations.
Open Scope Z_scope.

(** ** Specification *)
(** arithmetic of t is that of the mathematical integers unless a step overflows *)
Definition trapping (t : ity) : bool := (bits int_t <=? bits t) && signed t.
(** arithmetic of t never overflows *)
Definition wrapping (t : ity) : bool := if bits t <? bits int_t then (if signed t then bits t <=? 16 else bits t <=? 15) else negb (signed t).
(** what the outcome x of a computation says about the exact integer e *)
Definition outcome (t : ity) (x : option Z) (e : Z) : Prop :=
  match x with
  | None => wrapping t = false                                  (* a step overflowed *)
  | Some z => in_range t z = true /\ z mod 2 ^ bits t = e mod 2 ^ bits t /\ (trapping t = true -> z = e)
  end.
Fixpoint zsum (n : nat) (f : nat -> Z) : Z := match n with O => 0 | S n' => zsum n' f + f n' end.
(** cofactor expansion along the first row *)
Definition zminor (M : nat -> nat -> Z) (j a b : nat) : Z := M (S a) (if (b <? j)%nat then b else S b).
Fixpoint zdet (n : nat) (M : nat -> nat -> Z) : Z :=
  match n with 0%nat => 1 | S n' => zsum n (fun j => (-1) ^ Z.of_nat j * M 0%nat j * zdet n' (zminor M j)) end.
(** the quaternion product (w, x, y, z), by i j = k or by i j = -k *)
Definition zhamilton (c : crossing) (a b : nat -> Z) (i : nat) : Z :=
  let s := match c with positive_cross => 1 | negative_cross => -1 end in
  match i with
  | 0%nat => a 0%nat * b 0%nat - a 1%nat * b 1%nat - a 2%nat * b 2%nat - a 3%nat * b 3%nat
  | 1%nat => a 0%nat * b 1%nat + a 1%nat * b 0%nat + s * (a 2%nat * b 3%nat - a 3%nat * b 2%nat)
  | 2%nat => a 0%nat * b 2%nat + a 2%nat * b 0%nat + s * (a 3%nat * b 1%nat - a 1%nat * b 3%nat)
  | _ => a 0%nat * b 3%nat + a 3%nat * b 0%nat + s * (a 1%nat * b 2%nat - a 2%nat * b 1%nat)
  end.
Definition values (a : list Z) (k : nat) : Z := nth k a 0.
Definition all_in (t : ity) (a : list Z) : Prop := forall z, In z a -> in_range t z = true.

(** ** One operation *)
Section Type_t.
Context (t : ity) (Ht : 8 <= bits t).
#[local] Instance t_ops : Ops (option Z) := int_ops t.
Lemma pow_half : 2 ^ bits t = 2 * 2 ^ (bits t - 1).
Proof using Ht. replace (bits t) with (Z.succ (bits t - 1)) at 1 by lia. apply Z.pow_succ_r. lia. Qed.
Lemma pow_big : 128 <= 2 ^ (bits t - 1).
Proof using Ht. change 128 with (2 ^ 7). apply Z.pow_le_mono_r; lia. Qed.
Lemma hi_lo : hi t = lo t + 2 ^ bits t - 1.
Proof using Ht. unfold hi, lo. pose proof pow_half. destruct (signed t); lia. Qed.
Lemma in_range_spec z : in_range t z = true <-> lo t <= z <= hi t.
Proof. unfold in_range. rewrite andb_true_iff, !Z.leb_le. tauto. Qed.
Lemma convert_range z : in_range t (convert t z) = true.
Proof using Ht. apply in_range_spec. rewrite hi_lo. unfold convert. pose proof (Z.mod_pos_bound (z - lo t) (2 ^ bits t) ltac:(pose proof pow_half; pose proof pow_big; lia)). lia. Qed.
Lemma convert_mod z : convert t z mod 2 ^ bits t = z mod 2 ^ bits t.
Proof using Ht. unfold convert. rewrite Zplus_mod_idemp_l. f_equal. lia. Qed.
Lemma convert_id z : in_range t z = true -> convert t z = z.
Proof using Ht. intros H. apply in_range_spec in H. rewrite hi_lo in H. unfold convert. rewrite Z.mod_small; lia. Qed.
Lemma zero_one_range : in_range t 0 = true /\ in_range t 1 = true.
Proof using Ht. pose proof pow_big. pose proof pow_half. split; apply in_range_spec; unfold lo, hi; destruct (signed t); lia. Qed.

Lemma compute_outcome z e : z mod 2 ^ bits t = e mod 2 ^ bits t -> (trapping t = true -> z = e) -> (wrapping t = true -> in_range (promoted t) z = true \/ signed (promoted t) = false) ->
  outcome t (compute t z) e.
Proof using Ht.
  intros M E W. unfold compute. destruct (signed (promoted t)) eqn:S; cbn [andb].
  - destruct (in_range (promoted t) z) eqn:R; cbn [negb outcome].
    + split; [apply convert_range|]. rewrite convert_mod. split; [auto|]. intros T. rewrite convert_id; auto. unfold trapping in T. apply andb_true_iff in T. destruct T as [T _]. apply Z.leb_le in T.
      unfold promoted in R. destruct (Z.ltb_spec (bits t) (bits int_t)); [lia|auto].
    + destruct (wrapping t); auto. destruct W as [W|W]; auto; discriminate.
  - cbn [outcome]. split; [apply convert_range|]. rewrite convert_mod. split; [auto|]. intros T. exfalso. unfold trapping in T. apply andb_true_iff in T. destruct T as [T S']. apply Z.leb_le in T.
    unfold promoted in S. destruct (Z.ltb_spec (bits t) (bits int_t)); [lia|]. congruence.
Qed.
(** a wrapping type: the promoted result stays in range *)
Lemma narrow_bound z : wrapping t = true -> in_range t z = true -> Z.abs z <= 2 ^ 15 \/ signed (promoted t) = false.
Proof using Ht.
  unfold wrapping, promoted. intros W R. apply in_range_spec in R. destruct (Z.ltb_spec (bits t) (bits int_t)).
  - left. unfold lo, hi in R. destruct (signed t); apply Z.leb_le in W.
    + assert (2 ^ (bits t - 1) <= 2 ^ 15) by (apply Z.pow_le_mono_r; lia). lia.
    + assert (2 ^ bits t <= 2 ^ 15) by (apply Z.pow_le_mono_r; lia). lia.
  - right. destruct (signed t); [discriminate|auto].
Qed.
Lemma int_fits z : wrapping t = true -> Z.abs z <= 2 ^ 30 -> in_range (promoted t) z = true \/ signed (promoted t) = false.
Proof using Ht.
  unfold wrapping, promoted. intros W R. destruct (Z.ltb_spec (bits t) (bits int_t)).
  - left. unfold in_range, lo, hi. cbn -[Z.pow]. apply andb_true_iff. rewrite !Z.leb_le. change (2 ^ 31) with (2 * 2 ^ 30). lia.
  - right. destruct (signed t); [discriminate|auto].
Qed.
Lemma step2 (f : Z -> Z -> Z) x y a b : outcome t x a -> outcome t y b ->
  (forall u v, u mod 2 ^ bits t = a mod 2 ^ bits t -> v mod 2 ^ bits t = b mod 2 ^ bits t -> f u v mod 2 ^ bits t = f a b mod 2 ^ bits t) ->
  (forall u v, Z.abs u <= 2 ^ 15 -> Z.abs v <= 2 ^ 15 -> Z.abs (f u v) <= 2 ^ 30) -> outcome t (lift2 t f x y) (f a b).
Proof using Ht.
  destruct x as [x|]; [|cbn; auto]. destruct y as [y|]; [|cbn; auto]. cbn [outcome lift2]. intros (Rx & Mx & Ex) (Ry & My & Ey) C B. apply compute_outcome; auto.
  - intros T. rewrite Ex, Ey; auto.
  - intros W. destruct (narrow_bound x W Rx); auto. destruct (narrow_bound y W Ry); auto. apply int_fits; auto.
Qed.
Lemma add_outcome x y a b : outcome t x a -> outcome t y b -> outcome t (add x y) (a + b).
Proof using Ht. intros X Y. apply (step2 Z.add); auto; [|lia]. intros u v U V. rewrite Z.add_mod, U, V, <- Z.add_mod by (pose proof pow_half; pose proof pow_big; lia). auto. Qed.
Lemma sub_outcome x y a b : outcome t x a -> outcome t y b -> outcome t (sub x y) (a - b).
Proof using Ht. intros X Y. apply (step2 Z.sub); auto; [|lia]. intros u v U V. rewrite Zminus_mod, U, V, <- Zminus_mod. auto. Qed.
Lemma mul_outcome x y a b : outcome t x a -> outcome t y b -> outcome t (mul x y) (a * b).
Proof using Ht.
  intros X Y. apply (step2 Z.mul); auto.
  - intros u v U V. rewrite Zmult_mod, U, V, <- Zmult_mod. auto.
  - intros u v U V. rewrite Z.abs_mul. change (2 ^ 30) with (2 ^ 15 * 2 ^ 15). apply Z.mul_le_mono_nonneg; lia.
Qed.
Lemma neg_outcome x a : outcome t x a -> outcome t (neg x) (- a).
Proof using Ht.
  intros X. assert (E : neg x = lift2 t Z.sub (Some 0) x) by (destruct x; cbn; auto). rewrite E. replace (- a) with (0 - a) by lia. apply sub_outcome; auto. cbn. split; [apply zero_one_range|auto].
Qed.
Lemma value_outcome z : in_range t z = true -> outcome t (Some z) z.
Proof. cbn. auto. Qed.
Theorem formula_outcome rho r e : plain e -> (forall k, outcome t (rho k) (r k)) -> outcome t (feval rho e) (feval (T:=Z) r e).
Proof using Ht.
  intros P H. induction e; cbn [plain feval] in *; try tauto; auto.
  - apply value_outcome, zero_one_range.
  - apply value_outcome, zero_one_range.
  - destruct P. apply add_outcome; auto.
  - destruct P. apply sub_outcome; auto.
  - destruct P. apply mul_outcome; auto.
  - apply neg_outcome; auto.
Qed.
Lemma acc_outcome n x e : (0 < n)%nat -> (forall k, (k < n)%nat -> outcome t (x k) (e k)) -> outcome t (accumulate n x) (zsum n e).
Proof using Ht.
  intros Hn. destruct n as [|n]; [lia|]. clear Hn. induction n as [|n IH]; intros H.
  - replace (zsum 1 e) with (e 0%nat) by (cbn; lia). apply H. lia.
  - rewrite acc_S. change (zsum (S (S n)) e) with (zsum (S n) e + e (S n)). apply add_outcome; auto.
Qed.

(** ** No step overflows in a sum of products that is small enough *)
Lemma lift2_defined f x y : trapping t = true -> in_range t (f x y) = true -> lift2 t f (Some x) (Some y) = Some (f x y).
Proof using Ht.
  intros T R. unfold trapping in T. apply andb_true_iff in T. destruct T as [T S]. apply Z.leb_le in T. cbn [lift2]. unfold compute, promoted. destruct (Z.ltb_spec (bits t) (bits int_t)); [lia|]. rewrite R, S. cbn. rewrite convert_id; auto.
Qed.
Lemma abs_range z : trapping t = true -> Z.abs z <= hi t -> in_range t z = true.
Proof. intros T H. unfold trapping in T. apply andb_true_iff in T. destruct T as [_ S]. apply in_range_spec. unfold hi, lo in *. rewrite S in *. lia. Qed.
Fixpoint zsize (r : nat -> Z) (e : formula) : Z :=
  match e with
  | FVar k => Z.abs (r k) | FZero => 0 | FOne => 1
  | FAdd a b | FSub a b => zsize r a + zsize r b
  | FMul a b => zsize r a * zsize r b
  | FNeg a => zsize r a
  | FOther _ _ => 0
  end.
Fixpoint zfits (r : nat -> Z) (e : formula) : Prop :=
  match e with
  | FVar _ | FZero | FOne => True
  | FAdd a b | FSub a b | FMul a b => zfits r a /\ zfits r b /\ zsize r e <= hi t
  | FNeg a => zfits r a /\ zsize r a <= hi t
  | FOther _ _ => False
  end.
Lemma zsize_pos r e : 0 <= zsize r e.
Proof. induction e; cbn [zsize]; lia. Qed.
Lemma zsize_bound r e : plain e -> Z.abs (feval (T:=Z) r e) <= zsize r e.
Proof.
  induction e; cbn [plain feval zsize]; intros P; cbn [zero one add sub mul neg ZOps]; try lia; try tauto.
  - destruct P. specialize (IHe1 ltac:(auto)). specialize (IHe2 ltac:(auto)). lia.
  - destruct P. specialize (IHe1 ltac:(auto)). specialize (IHe2 ltac:(auto)). lia.
  - destruct P. rewrite Z.abs_mul. apply Z.mul_le_mono_nonneg; auto; lia.
  - specialize (IHe P). lia.
Qed.
Lemma zfits_plain r e : zfits r e -> plain e.
Proof. induction e; cbn; try tauto. Qed.
Theorem formula_defined r e : trapping t = true -> zfits r e -> feval (fun k => Some (r k)) e = Some (feval (T:=Z) r e).
Proof using Ht.
  intros T. induction e; cbn [zfits feval]; intros F; auto; try tauto.
  - destruct F as (Fa & Fb & L). rewrite IHe1, IHe2 by auto. apply (lift2_defined Z.add); auto. apply abs_range; auto. pose proof (zsize_bound r e1 (zfits_plain _ _ Fa)). pose proof (zsize_bound r e2 (zfits_plain _ _ Fb)). cbn [zsize] in L. lia.
  - destruct F as (Fa & Fb & L). rewrite IHe1, IHe2 by auto. apply (lift2_defined Z.sub); auto. apply abs_range; auto. pose proof (zsize_bound r e1 (zfits_plain _ _ Fa)). pose proof (zsize_bound r e2 (zfits_plain _ _ Fb)). cbn [zsize] in L. lia.
  - destruct F as (Fa & Fb & L). rewrite IHe1, IHe2 by auto. apply (lift2_defined Z.mul); auto. apply abs_range; auto. cbn [zsize] in L. rewrite Z.abs_mul.
    pose proof (zsize_bound r e1 (zfits_plain _ _ Fa)). pose proof (zsize_bound r e2 (zfits_plain _ _ Fb)). eapply Z.le_trans; [apply Z.mul_le_mono_nonneg; eauto; lia|]. lia.
  - destruct F as (Fa & L). rewrite IHe by auto. set (v := feval (T:=Z) r e). assert (E : neg (Some v) = lift2 t Z.sub (Some 0) (Some v)) by (cbn; auto). rewrite E. rewrite lift2_defined; auto.
    apply abs_range; auto. pose proof (zsize_bound r e (zfits_plain _ _ Fa)). fold v in H. lia.
Qed.
Lemma flat_fits r e : flat e -> (forall k, Z.abs (r k) <= hi t) -> 1 <= hi t -> zsize r e <= hi t -> zfits r e.
Proof.
  intros Fe Hr H1. assert (A : forall a, atom a -> zfits r a /\ zsize r a <= hi t).
  { induction a; cbn [atom zfits zsize]; try tauto; intros; split; auto; try lia; tauto. }
  induction e; cbn [flat zfits zsize] in *; auto; intros L.
  - pose proof (zsize_pos r e1). pose proof (zsize_pos r e2). destruct Fe. split; [apply IHe1; auto; lia|split; [apply IHe2; auto; lia|lia]].
  - pose proof (zsize_pos r e1). pose proof (zsize_pos r e2). destruct Fe. split; [apply IHe1; auto; lia|split; [apply IHe2; auto; lia|lia]].
  - destruct Fe. split; [apply A; auto|]. split; [apply A; auto|auto].
Qed.
Lemma acc_defined n (x : nat -> option Z) (a b : nat -> Z) : trapping t = true -> (0 < n)%nat -> (forall k, (k < n)%nat -> x k = mul (Some (a k)) (Some (b k))) ->
  zsum n (fun k => Z.abs (a k * b k)) <= hi t -> accumulate n x = Some (zsum n (fun k => a k * b k)).
Proof using Ht.
  intros T Hn. destruct n as [|n]; [lia|]. clear Hn. induction n as [|n IH]; intros H B.
  - cbn [zsum] in *. change (accumulate 1 x) with (x 0%nat). rewrite H by lia. apply (lift2_defined Z.mul); auto. apply abs_range; auto; lia.
  - assert (P : forall m, 0 <= zsum m (fun k => Z.abs (a k * b k))) by (induction m; cbn [zsum]; lia).
    assert (Q : forall m, Z.abs (zsum m (fun k => a k * b k)) <= zsum m (fun k => Z.abs (a k * b k))) by (induction m; cbn [zsum]; lia).
    change (zsum (S (S n)) (fun k => Z.abs (a k * b k))) with (zsum (S n) (fun k => Z.abs (a k * b k)) + Z.abs (a (S n) * b (S n))) in B. pose proof (P (S n)). pose proof (Q (S n)).
    rewrite acc_S, IH, H by (auto; lia). change (mul (Some (a (S n))) (Some (b (S n)))) with (lift2 t Z.mul (Some (a (S n))) (Some (b (S n)))). rewrite lift2_defined by (auto; apply abs_range; auto; lia).
    apply (lift2_defined Z.add); auto. apply abs_range; auto. lia.
Qed.

(** ** Theorems *)
Lemma el_some a k : el (map Some a) k = Some (values a k).
Proof. unfold el, values. change (zero : option Z) with (Some 0). apply (map_nth Some). Qed.
Lemma values_in a k : all_in t a -> in_range t (values a k) = true.
Proof using Ht. intros H. unfold values. destruct (nth_in_or_default k a 0) as [I|E]; [auto|rewrite E; apply zero_one_range]. Qed.
Theorem dot_integer : forall a b, a <> [] -> length a = length b -> all_in t a -> all_in t b ->
  exists d, vdot (map Some a) (map Some b) = Ok d /\ outcome t d (zsum (length a) (fun k => values a k * values b k)) /\
    (trapping t = true -> zsum (length a) (fun k => Z.abs (values a k * values b k)) <= hi t -> d <> None).
Proof using Ht.
  intros a b Ne L Ra Rb. assert (0 < length a)%nat by (destruct a; [congruence|cbn; lia]). unfold vdot, check_vmin, check_vsame, require. rewrite !map_length, <- L, Nat.eqb_refl. destruct (Nat.leb_spec 1 (length a)); [|lia]. cbn [bind].
  eexists. split; [reflexivity|]. split.
  - apply acc_outcome; auto. intros k Hk. rewrite !el_some. apply mul_outcome; apply value_outcome; apply values_in; auto.
  - intros T B. rewrite (acc_defined _ _ (values a) (values b)); auto; [discriminate|]. intros. rewrite !el_some. auto.
Qed.
(** elementwise operations *)
Theorem elementwise_integer : forall a b s, length a = length b -> all_in t a -> all_in t b -> in_range t s = true ->
  exists p m h, vadd (map Some a) (map Some b) = Ok p /\ vsub (map Some a) (map Some b) = Ok m /\ vhadamard (map Some a) (map Some b) = Ok h /\
  forall k, (k < length a)%nat ->
    outcome t (el p k) (values a k + values b k) /\ outcome t (el m k) (values a k - values b k) /\ outcome t (el h k) (values a k * values b k) /\
    outcome t (el (vneg (map Some a)) k) (- values a k) /\ outcome t (el (vscale (Some s) (map Some a)) k) (values a k * s) /\
    (s <> 0 -> trapping t = true -> ~ (values a k = lo t /\ s = -1) -> el (vdiv (map Some a) (Some s)) k = Some (Z.quot (values a k) s)) /\
    (s = 0 \/ trapping t = true /\ values a k = lo t /\ s = -1 -> el (vdiv (map Some a) (Some s)) k = None).
Proof using Ht.
  intros a b s L Ra Rb Rs. unfold vadd, vsub, vhadamard, check_vsame, require. rewrite !map_length, <- L, Nat.eqb_refl. cbn [bind].
  do 3 eexists. split; [reflexivity|]. split; [reflexivity|]. split; [reflexivity|]. intros k Hk.
  assert (N : forall f, el (elems (length a) f) k = f k).
  { intros f. unfold el, elems. rewrite (nth_indep _ _ (f 0%nat)) by (rewrite map_length, seq_length; auto). rewrite map_nth, seq_nth; auto. }
  unfold vneg, vscale, vdiv. rewrite !map_length, !N, !el_some. assert (Va := value_outcome _ (values_in a k Ra)). assert (Vb := value_outcome _ (values_in b k Rb)). assert (Vs := value_outcome _ Rs).
  split; [apply add_outcome; auto|]. split; [apply sub_outcome; auto|]. split; [apply mul_outcome; auto|]. split; [apply neg_outcome; auto|]. split; [apply mul_outcome; auto|]. split.
  - intros S0 T NE. pose proof (values_in a k Ra) as R. apply in_range_spec in R. destruct s as [|p|p]; [congruence|..]; cbn [div t_ops int_ops]; apply lift2_defined; auto; apply in_range_spec.
    + assert (Q : Z.abs (Z.quot (values a k) (Z.pos p)) <= Z.abs (values a k)) by (rewrite <- Z.quot_abs by lia; apply Z.quot_le_upper_bound; nia).
      pose proof (proj1 (in_range_spec 0) (proj1 zero_one_range)). destruct (Z.le_gt_cases 0 (values a k)).
      * assert (0 <= Z.quot (values a k) (Z.pos p)) by (apply Z.quot_pos; lia). lia.
      * assert (Z.quot (values a k) (Z.pos p) <= 0) by (replace (values a k) with (- (- values a k)) by lia; rewrite Z.quot_opp_l by lia; pose proof (Z.quot_pos (- values a k) (Z.pos p)); lia). lia.
    + assert (E : Z.quot (values a k) (Z.neg p) = - Z.quot (values a k) (Z.pos p)) by (change (Z.neg p) with (- Z.pos p); rewrite Z.quot_opp_r by lia; auto). rewrite E.
      unfold trapping in T. apply andb_true_iff in T. destruct T as [_ S]. assert (HL : hi t = - lo t - 1) by (unfold hi, lo; rewrite S; lia).
      assert (Q : Z.abs (Z.quot (values a k) (Z.pos p)) <= Z.abs (values a k)) by (rewrite <- Z.quot_abs by lia; apply Z.quot_le_upper_bound; nia).
      destruct (Z.eq_dec (values a k) (lo t)) as [M|]; [|lia]. destruct (Pos.eq_dec p 1) as [->|P1]; [exfalso; apply NE; auto|].
      assert (Q2 : Z.abs (Z.quot (values a k) (Z.pos p)) < Z.abs (values a k)).
      { rewrite <- Z.quot_abs by lia. apply Z.quot_lt; [|lia]. rewrite M. unfold lo. rewrite S. pose proof pow_big. lia. }
      lia.
  - intros [->|(T & M & ->)]; [reflexivity|]. cbn [div t_ops int_ops lift2]. rewrite M. unfold trapping in T. apply andb_true_iff in T. destruct T as [T S]. apply Z.leb_le in T. unfold compute, promoted.
    destruct (Z.ltb_spec (bits t) (bits int_t)); [lia|]. rewrite S. change (-1) with (- (1)). rewrite Z.quot_opp_r, Z.quot_1_r by lia.
    assert (R : in_range t (- lo t) = false); [|rewrite R; reflexivity]. destruct (in_range t (- lo t)) eqn:R; auto. apply in_range_spec in R. unfold lo, hi in R. rewrite S in R. pose proof pow_big. lia.
Qed.

(** matrices: only types at least as wide as int (narrower ones accumulate in int) *)
Definition wide : Prop := bits int_t <= bits t.
Theorem product_integer : wide -> forall (a b : rmat (option Z)) r n c A B bs l k, reads a r n (fun i j => Some (A i j)) -> reads b n c (fun i j => Some (B i j)) -> (0 < n)%nat ->
  (forall i j, in_range t (A i j) = true /\ in_range t (B i j) = true) ->
  exists m M, product a b bs l k = Ok m /\ is_mat m r c M /\ forall i j, (i < r)%nat -> (j < c)%nat ->
    outcome t (M i j) (zsum n (fun q => A i q * B q j)) /\ (trapping t = true -> zsum n (fun q => Z.abs (A i q * B q j)) <= hi t -> M i j <> None).
Proof using Ht.
  intros _ a b r n c A B bs l k Ha Hb Hn R. destruct (product_acc a b r n c _ _ bs l k Ha Hb Hn) as (m & E & _ & _ & _ & I). eexists m, _. split; [auto|]. split; [exact I|]. intros i j Hi Hj. cbv beta. split.
  - apply acc_outcome; auto. intros q Hq. apply mul_outcome; apply value_outcome; apply R.
  - intros T Bd. rewrite (acc_defined n _ (fun q => A i q) (fun q => B q j)); auto. discriminate.
Qed.
Theorem matrix_vector_integer : wide -> forall (m : rmat (option Z)) v r n A, reads m r n (fun i j => Some (A i j)) -> length v = n -> (0 < n)%nat ->
  (forall i j, in_range t (A i j) = true) -> all_in t v ->
  exists w, mat_vec m (map Some v) = Ok w /\ length w = r /\ forall i, (i < r)%nat ->
    outcome t (el w i) (zsum n (fun q => A i q * values v q)) /\ (trapping t = true -> zsum n (fun q => Z.abs (A i q * values v q)) <= hi t -> el w i <> None).
Proof using Ht.
  intros _ a v r n A Ha L Hn R Rv. rewrite (mat_vec_acc a (map Some v) r n _ zero Ha) by (rewrite ?map_length; auto). eexists. split; [reflexivity|]. rewrite map_length, seq_length. split; auto.
  intros i Hi. unfold el at 1 2. set (f := fun i => accumulate n (fun q => mul (Some (A i q)) (nth q (map Some v) zero))).
  rewrite (nth_indep _ zero (f 0%nat)) by (rewrite map_length, seq_length; auto). rewrite map_nth, seq_nth by auto. unfold f. cbn [plus]. split.
  - apply acc_outcome; auto. intros q Hq. fold (el (map Some v) q). rewrite el_some. apply mul_outcome; apply value_outcome; auto. apply values_in; auto.
  - intros T Bd. rewrite (acc_defined n _ (fun q => A i q) (values v)); auto; [discriminate|]. intros q Hq. fold (el (map Some v) q). rewrite el_some. auto.
Qed.

(** associativity: the two ways to multiply three matrices agree wherever both are defined *)
Lemma zsum_ext n f g : (forall k, (k < n)%nat -> f k = g k) -> zsum n f = zsum n g.
Proof. induction n; intros H; cbn [zsum]; auto. rewrite IHn, H; auto. Qed.
Lemma zsum_scal n c f : zsum n (fun k => c * f k) = c * zsum n f.
Proof. induction n; cbn [zsum]; [lia|rewrite IHn; lia]. Qed.
Lemma zsum_add n f g : zsum n (fun k => f k + g k) = zsum n f + zsum n g.
Proof. induction n; cbn [zsum]; [lia|rewrite IHn; lia]. Qed.
Lemma zsum_swap n m f : zsum n (fun i => zsum m (fun j => f i j)) = zsum m (fun j => zsum n (fun i => f i j)).
Proof. induction n; cbn [zsum]. { induction m; cbn [zsum]; lia. } rewrite IHn, zsum_add. auto. Qed.
Lemma same_value x y e e' : e = e' -> outcome t (Some x) e -> outcome t (Some y) e' -> x = y.
Proof using Ht.
  intros <- (Rx & Mx & _) (Ry & My & _). rewrite <- (convert_id x Rx), <- (convert_id y Ry). unfold convert. rewrite Zminus_mod, Mx, <- My, <- Zminus_mod. auto.
Qed.
Theorem product_associative_integer : wide -> forall (a b c : rmat (option Z)) p q r s A B C bs l k,
  reads a p q (fun i j => Some (A i j)) -> reads b q r (fun i j => Some (B i j)) -> reads c r s (fun i j => Some (C i j)) -> (0 < q)%nat -> (0 < r)%nat ->
  (forall i j, in_range t (A i j) = true /\ in_range t (B i j) = true /\ in_range t (C i j) = true) ->
  exists ab bc m n M N, product a b bs l k = Ok ab /\ product b c bs l k = Ok bc /\ product (of_fmat ab) c bs l k = Ok m /\ product a (of_fmat bc) bs l k = Ok n /\
    is_mat m p s M /\ is_mat n p s N /\ forall i j, (i < p)%nat -> (j < s)%nat ->
      (wrapping t = true -> M i j = N i j /\ M i j <> None) /\ (forall x y, M i j = Some x -> N i j = Some y -> x = y).
Proof using Ht.
  intros _ a b c p q r s A B C bs l k Ha Hb Hc Hq Hr R.
  destruct (product_acc a b p q r _ _ bs l k Ha Hb Hq) as (ab & E1 & _ & _ & _ & I1). destruct (product_acc b c q r s _ _ bs l k Hb Hc Hr) as (bc & E2 & _ & _ & _ & I2).
  destruct (product_acc (of_fmat ab) c p r s _ _ bs l k (reads_of_fmat _ _ _ _ I1) Hc Hr) as (m & E3 & _ & _ & _ & I3).
  destruct (product_acc a (of_fmat bc) p q s _ _ bs l k Ha (reads_of_fmat _ _ _ _ I2) Hq) as (n & E4 & _ & _ & _ & I4).
  exists ab, bc, m, n. eexists _, _. do 4 (split; [eassumption|]). split; [exact I3|]. split; [exact I4|]. intros i j Hi Hj. cbv beta.
  match goal with |- (_ -> ?M = ?N /\ _) /\ _ => set (x := M); set (y := N) end.
  assert (X : outcome t x (zsum r (fun u => zsum q (fun v => A i v * B v u) * C u j))).
  { apply acc_outcome; auto. intros u Hu. apply mul_outcome; [|apply value_outcome; apply R]. apply acc_outcome; auto. intros v Hv. apply mul_outcome; apply value_outcome; apply R. }
  assert (Y : outcome t y (zsum q (fun v => A i v * zsum r (fun u => B v u * C u j)))).
  { apply acc_outcome; auto. intros v Hv. apply mul_outcome; [apply value_outcome; apply R|]. apply acc_outcome; auto. intros u Hu. apply mul_outcome; apply value_outcome; apply R. }
  assert (E : zsum r (fun u => zsum q (fun v => A i v * B v u) * C u j) = zsum q (fun v => A i v * zsum r (fun u => B v u * C u j))).
  { transitivity (zsum r (fun u => zsum q (fun v => A i v * (B v u * C u j)))).
    - apply zsum_ext. intros u _. rewrite Z.mul_comm, <- zsum_scal. apply zsum_ext. intros. lia.
    - rewrite zsum_swap. apply zsum_ext. intros v _. apply zsum_scal. }
  clearbody x y. split.
  - intros W. destruct x as [x|]; [|cbn in X; congruence]. destruct y as [y|]; [|cbn in Y; congruence]. rewrite (same_value x y _ _ E X Y). split; [auto|discriminate].
  - intros x' y' -> ->. exact (same_value x' y' _ _ E X Y).
Qed.

(** ** Closed formulas *)
Lemma by_formula rho r e x z : x = feval rho e -> plain e -> (forall k, outcome t (rho k) (r k)) -> feval (T:=Z) r e = z -> outcome t x z.
Proof using Ht. intros -> P H <-. apply formula_outcome; auto. Qed.
Lemma ok_inj {A} (x y : A) : Ok x = Ok y -> x = y. Proof. congruence. Qed.
Definition env3 {A} (a b c : nat -> A) (k : nat) : A := if (k <? 3)%nat then a k else if (k <? 6)%nat then b (k - 3)%nat else c (k - 6)%nat.
Lemma env3_ok (a b c : list Z) : all_in t a -> all_in t b -> all_in t c -> forall k, outcome t (env3 (el (map Some a)) (el (map Some b)) (el (map Some c)) k) (env3 (values a) (values b) (values c) k).
Proof using Ht. intros A B C k. unfold env3. destruct (k <? 3)%nat; [|destruct (k <? 6)%nat]; rewrite el_some; apply value_outcome; apply values_in; auto. Qed.
Lemma env3_some (a b c : list Z) k : env3 (el (map Some a)) (el (map Some b)) (el (map Some c)) k = Some (env3 (values a) (values b) (values c) k).
Proof. unfold env3. destruct (k <? 3)%nat; [|destruct (k <? 6)%nat]; rewrite el_some; auto. Qed.
Lemma feval_ext {T} {Op : Ops T} (r s : nat -> T) e : (forall k, r k = s k) -> feval r e = feval s e.
Proof. intros H. induction e; cbn [feval]; congruence. Qed.

Theorem cross_integer : wide -> forall a b, length a = 3%nat -> length b = 3%nat -> all_in t a -> all_in t b ->
  exists c, vcross3 (map Some a) (map Some b) = Ok c /\ length c = 3%nat /\ forall i, (i < 3)%nat ->
    let j := ((i + 1) mod 3)%nat in let k := ((i + 2) mod 3)%nat in
    outcome t (el c i) (values a j * values b k - values a k * values b j) /\
    (trapping t = true -> Z.abs (values a j * values b k) + Z.abs (values a k * values b j) <= hi t -> el c i <> None).
Proof using Ht.
  intros _ a b La Lb Ra Rb. unfold vcross3, check_size, require. rewrite !map_length, La, Lb. cbn [Nat.eqb bind]. eexists. split; [reflexivity|]. split; [reflexivity|].
  assert (G : forall p q, outcome t (sub (mul (el (map Some a) p) (el (map Some b) q)) (mul (el (map Some a) q) (el (map Some b) p))) (values a p * values b q - values a q * values b p) /\
    (trapping t = true -> Z.abs (values a p * values b q) + Z.abs (values a q * values b p) <= hi t -> sub (mul (el (map Some a) p) (el (map Some b) q)) (mul (el (map Some a) q) (el (map Some b) p)) <> None)).
  { intros p q. rewrite !el_some. split.
    - apply sub_outcome; apply mul_outcome; apply value_outcome; apply values_in; auto.
    - intros T B. cbn [mul sub t_ops int_ops]. rewrite !(lift2_defined Z.mul), (lift2_defined Z.sub); auto; try discriminate; apply abs_range; auto; lia. }
  intros i Hi. cbv zeta. destruct i as [|[|[|i]]]; [..|lia]; apply G.
Qed.
Definition rows3 (a b c : nat -> Z) (i : nat) : nat -> Z := match i with 0%nat => a | 1%nat => b | _ => c end.
Theorem triple_integer : wide -> forall a b c, length a = 3%nat -> length b = 3%nat -> length c = 3%nat -> all_in t a -> all_in t b -> all_in t c ->
  exists d, vtriple (map Some a) (map Some b) (map Some c) = Ok d /\ outcome t d (zdet 3 (rows3 (values a) (values b) (values c))).
Proof using Ht.
  intros _ a b c La Lb Lc Ra Rb Rc. pose proof (env3_ok a b c Ra Rb Rc) as EO. destruct a as [|a0 [|a1 [|a2 [|]]]]; try discriminate. destruct b as [|b0 [|b1 [|b2 [|]]]]; try discriminate. destruct c as [|c0 [|c1 [|c2 [|]]]]; try discriminate.
  eexists. split; [reflexivity|]. let X := eval vm_compute in (vtriple [FVar 0; FVar 1; FVar 2] [FVar 3; FVar 4; FVar 5] [FVar 6; FVar 7; FVar 8]) in match X with Ok ?e =>
    apply (by_formula (env3 (el (map Some [a0; a1; a2])) (el (map Some [b0; b1; b2])) (el (map Some [c0; c1; c2]))) (env3 (values [a0; a1; a2]) (values [b0; b1; b2]) (values [c0; c1; c2])) e) end.
  - reflexivity.
  - cbn; tauto.
  - exact EO.
  - unfold zdet, zminor, rows3, values. cbn -[Z.mul Z.add Z.sub Z.opp]. ring.
Qed.

(** determinants up to 4x4 *)
Lemma zsize_le r B e : (forall k, Z.abs (r k) <= B) -> 0 <= B -> zsize r e <= zsize (fun _ => B) e.
Proof.
  intros H B0. induction e; cbn [zsize]; try lia. { specialize (H k). lia. } pose proof (zsize_pos r e1). pose proof (zsize_pos r e2). apply Z.mul_le_mono_nonneg; auto.
Qed.
Lemma zfits_le r B e : (forall k, Z.abs (r k) <= B) -> 0 <= B -> zfits (fun _ => B) e -> zfits r e.
Proof.
  intros H B0. induction e; cbn [zfits]; auto.
  - intros (A & C & D). split; [auto|]. split; [auto|]. eapply Z.le_trans; [apply zsize_le; eauto|exact D].
  - intros (A & C & D). split; [auto|]. split; [auto|]. eapply Z.le_trans; [apply zsize_le; eauto|exact D].
  - intros (A & C & D). split; [auto|]. split; [auto|]. eapply Z.le_trans; [apply zsize_le; eauto|exact D].
  - intros (A & D). split; [auto|]. eapply Z.le_trans; [apply zsize_le; eauto|exact D].
Qed.
(** the largest part, when every variable is at most B *)
Fixpoint zpeak (B : Z) (e : formula) : Z :=
  match e with
  | FVar _ | FZero | FOne => 0
  | FAdd a b | FSub a b | FMul a b => Z.max (zsize (fun _ => B) e) (Z.max (zpeak B a) (zpeak B b))
  | FNeg a => Z.max (zsize (fun _ => B) a) (zpeak B a)
  | FOther _ _ => 0
  end.
Lemma peak_fits B e : plain e -> zpeak B e <= hi t -> zfits (fun _ => B) e.
Proof. induction e; cbn [plain zpeak zfits]; auto; intros P H; try (destruct P; split; [apply IHe1; auto; lia|split; [apply IHe2; auto; lia|lia]]). split; [apply IHe; auto; lia|lia]. Qed.
Lemma det_ok n (G : nat -> nat -> option Z) (M : nat -> nat -> Z) d e : (forall i j, G i j = Some (M i j)) -> d = feval (fun k => G (k / n)%nat (k mod n)%nat) e -> plain e ->
  (forall i j, in_range t (M i j) = true) -> feval (T:=Z) (fun k => M (k / n)%nat (k mod n)%nat) e = zdet n M ->
  (forall B, 1 <= B -> zpeak B e <= Z.of_nat (fact n) * B ^ Z.of_nat n) ->
  outcome t d (zdet n M) /\ forall B, trapping t = true -> (forall i j, Z.abs (M i j) <= B) -> 1 <= B -> Z.of_nat (fact n) * B ^ Z.of_nat n <= hi t -> d <> None.
Proof using Ht.
  intros HG -> P R V K. rewrite (feval_ext _ (fun k => Some (M (k / n)%nat (k mod n)%nat))) by auto. split.
  - rewrite <- V. apply formula_outcome; auto. intros k. apply value_outcome; auto.
  - intros B T Hb B1 H. rewrite formula_defined; auto; [discriminate|]. apply (zfits_le _ B); auto; [lia|]. apply peak_fits; auto. specialize (K B B1). lia.
Qed.
Theorem determinant_integer : wide -> forall (fabs : option Z -> option Z) eps (m : mx (option Z)) M, mrows m = mcols m -> (2 <= mrows m <= 4)%nat ->
  (forall i j, mel m i j = Some (M i j)) -> (forall i j, in_range t (M i j) = true) ->
  exists d, determinant fabs eps m = Ok d /\ outcome t d (zdet (mrows m) M) /\
    forall B, trapping t = true -> (forall i j, Z.abs (M i j) <= B) -> 1 <= B -> Z.of_nat (fact (mrows m)) * B ^ Z.of_nat (mrows m) <= hi t -> d <> None.
Proof using Ht.
  intros _ fabs eps m M Sq Hn HM R. unfold determinant, require. rewrite <- Sq, Nat.eqb_refl. cbn [bind]. destruct (mrows m) as [|[|[|[|[|n]]]]]; try (exfalso; clear -Hn; lia); (eexists; split; [reflexivity|]).
  - let e := eval vm_compute in (det2 (fun i j => FVar (i * 2 + j))) in apply (det_ok 2 (mel m) M _ e); auto.
    + cbn; tauto.
    + unfold zdet, zminor. cbn -[Z.mul Z.add Z.sub Z.opp]. ring.
    + intros B B1. cbn -[Z.mul Z.add Z.sub Z.opp Z.max Z.pow]. replace (Z.abs B) with B by lia. change (B ^ 2) with (B * (B * 1)). nia.
  - let e := eval vm_compute in (det3 (fun i j => FVar (i * 3 + j))) in apply (det_ok 3 (mel m) M _ e); auto.
    + cbn; tauto.
    + unfold zdet, zminor. cbn -[Z.mul Z.add Z.sub Z.opp]. ring.
    + intros B B1. cbn -[Z.mul Z.add Z.sub Z.opp Z.max Z.pow]. replace (Z.abs B) with B by lia. change (B ^ 3) with (B * (B * (B * 1))).
      assert (0 <= B * B * (B - 1)) by (apply Z.mul_nonneg_nonneg; nia). assert (0 <= B * B) by nia. assert (0 <= B * (B * B)) by nia.
      repeat apply Z.max_lub; ring_simplify; nia.
  - let e := eval vm_compute in (det4 (fun i j => FVar (i * 4 + j))) in apply (det_ok 4 (mel m) M _ e); auto.
    + cbn; tauto.
    + unfold zdet, zminor. cbn -[Z.mul Z.add Z.sub Z.opp]. ring.
    + intros B B1. cbn -[Z.mul Z.add Z.sub Z.opp Z.max Z.pow]. replace (Z.abs B) with B by lia. replace (B ^ 4) with (B * (B * (B * B))) by ring.
      assert (P2 : B <= B * B) by nia. assert (P3 : B * B <= B * (B * B)) by nia. assert (P4 : B * (B * B) <= B * (B * (B * B))) by nia.
      repeat apply Z.max_lub; nia.
Qed.
(** the quaternion product *)
Definition part (o : order) (i : nat) : nat := match i with 0%nat => oW o | 1%nat => oX o | 2%nat => oY o | _ => oZ o end.
Definition env_q {A} (o : order) (p q : quat A) (k : nat) : A := if (k <? 4)%nat then qget p (part o k) else qget q (part o (k - 4)).
Definition qvar (o : order) (b : nat) : quat formula :=
  match o with
  | real_first => Quat (FVar b) (FVar (b + 1)) (FVar (b + 2)) (FVar (b + 3))
  | imaginary_first => Quat (FVar (b + 1)) (FVar (b + 2)) (FVar (b + 3)) (FVar b)
  end.
Definition qmap {A B} (f : A -> B) (q : quat A) : quat B := Quat (f (qget q 0)) (f (qget q 1)) (f (qget q 2)) (f (qget q 3)).
Lemma qget_map {A B} (f : A -> B) (q : quat A) k : qget (qmap f q) k = f (qget q k).
Proof. destruct q as [a b c d]. destruct k as [|[|[|k]]]; reflexivity. Qed.
Theorem quaternion_product_integer : wide -> forall o c (p q : quat Z), (forall k, in_range t (qget p k) = true /\ in_range t (qget q k) = true) ->
  let a k := qget p (part o k) in let b k := qget q (part o k) in forall i, (i < 4)%nat ->
  let x := qget (q_mul o c (qget (qmap Some p)) (qget (qmap Some q))) (part o i) in
  outcome t x (zhamilton c a b i) /\
  (trapping t = true -> (forall u v, Z.abs (a u * b v) <= hi t / 4) -> x <> None).
Proof using Ht.
  intros _ o c p q R a b i Hi x.
  pose (e := qget (q_mul o c (qget (qvar o 0)) (qget (qvar o 4))) (part o i)).
  assert (E : x = feval (fun k => Some (env_q o p q k)) e).
  { transitivity (feval (env_q o (qmap Some p) (qmap Some q)) e).
    - subst x e. destruct p as [p0 p1 p2 p3], q as [q0 q1 q2 q3]. destruct o, c; destruct i as [|[|[|[|i]]]]; try reflexivity; lia.
    - apply feval_ext. intros k. unfold env_q. destruct (k <? 4)%nat; apply qget_map. }
  assert (V : feval (T:=Z) (env_q o p q) e = zhamilton c a b i).
  { subst e a b. destruct o, c; destruct i as [|[|[|[|i]]]]; try lia; cbn -[Z.mul Z.add Z.sub Z.opp]; ring. }
  assert (Fl : flat e) by (subst e; destruct o, c; destruct i as [|[|[|[|i]]]]; try lia; cbn; tauto).
  assert (EI : forall k, in_range t (env_q o p q k) = true) by (intros k; unfold env_q; destruct (k <? 4)%nat; apply R).
  rewrite E. split.
  - rewrite <- V. apply formula_outcome.
    + clear -Fl. induction e; cbn in *; try tauto. assert (forall f, atom f -> plain f) by (induction f; cbn; tauto). intuition.
    + intros k. apply value_outcome; auto.
  - intros T B. rewrite formula_defined; auto; [discriminate|].
    assert (H4 : 4 * (hi t / 4) <= hi t) by (apply Z.mul_div_le; lia).
    assert (SZ : forall u v, Z.abs (a u) * Z.abs (b v) <= hi t / 4) by (intros; rewrite <- Z.abs_mul; auto).
    assert (SP : forall u v, 0 <= Z.abs (a u) * Z.abs (b v)) by (intros; apply Z.mul_nonneg_nonneg; lia).
    subst e x. clear E V Fl EI R.
    assert (Ka : forall k, (k < 4)%nat -> env_q o p q k = a k) by (intros k Hk; unfold env_q; destruct (Nat.ltb_spec k 4); [reflexivity|lia]).
    assert (Kb : forall k, (k < 4)%nat -> env_q o p q (4 + k) = b k) by (intros k Hk; unfold env_q; destruct (Nat.ltb_spec (4 + k) 4); [lia|]; replace (4 + k - 4)%nat with k by lia; reflexivity).
    pose proof (Ka 0%nat ltac:(lia)) as A0. pose proof (Ka 1%nat ltac:(lia)) as A1. pose proof (Ka 2%nat ltac:(lia)) as A2. pose proof (Ka 3%nat ltac:(lia)) as A3.
    pose proof (Kb 0%nat ltac:(lia)) as B0. pose proof (Kb 1%nat ltac:(lia)) as B1. pose proof (Kb 2%nat ltac:(lia)) as B2. pose proof (Kb 3%nat ltac:(lia)) as B3. cbn [plus] in B0, B1, B2, B3.
    set (r := env_q o p q) in *. clearbody r a b. clear Ka Kb.
    assert (ALL : forall u v, 0 <= Z.abs (a u) * Z.abs (b v) <= hi t / 4) by auto.
    pose proof (ALL 0 0)%nat as Q0. pose proof (ALL 0 1)%nat as Q1. pose proof (ALL 0 2)%nat as Q2. pose proof (ALL 0 3)%nat as Q3. pose proof (ALL 1 0)%nat as Q4. pose proof (ALL 1 1)%nat as Q5. pose proof (ALL 1 2)%nat as Q6. pose proof (ALL 1 3)%nat as Q7. pose proof (ALL 2 0)%nat as Q8. pose proof (ALL 2 1)%nat as Q9. pose proof (ALL 2 2)%nat as Q10. pose proof (ALL 2 3)%nat as Q11. pose proof (ALL 3 0)%nat as Q12. pose proof (ALL 3 1)%nat as Q13. pose proof (ALL 3 2)%nat as Q14. pose proof (ALL 3 3)%nat as Q15. clear ALL SP SZ B.
    destruct o, c; destruct i as [|[|[|[|i]]]]; try (exfalso; clear -Hi; lia); cbn -[Z.mul Z.add Z.sub Z.opp]; rewrite ?A0, ?A1, ?A2, ?A3, ?B0, ?B1, ?B2, ?B3; clear A0 A1 A2 A3 B0 B1 B2 B3 Hi T;
      repeat match goal with |- context [Z.abs (b ?x) * Z.abs (a ?y)] => rewrite (Z.mul_comm (Z.abs (b x)) (Z.abs (a y))) end;
      revert H4 Q0 Q1 Q2 Q3 Q4 Q5 Q6 Q7 Q8 Q9 Q10 Q11 Q12 Q13 Q14 Q15; generalize (hi t / 4);
      repeat match goal with |- context [Z.abs ?x * Z.abs ?y] => generalize (Z.abs x * Z.abs y) end; clear; intros; repeat split; lia.
Qed.
End Type_t.

(** ** Types that wrap form a ring, so every algebraic law of C06, C13, C31, C36, C37
    (stated for any ring) holds for their vectors and matrices exactly *)
Definition element (t : ity) : Type := { z : Z | in_range t z = true }.
Definition to_element (t : ity) (Ht : 8 <= bits t) (z : Z) : element t := exist _ (convert t z) (convert_range t Ht z).
Definition element_ops (t : ity) (Ht : 8 <= bits t) : Ops (element t) := {|
  zero := to_element t Ht 0; one := to_element t Ht 1;
  add x y := to_element t Ht (proj1_sig x + proj1_sig y); sub x y := to_element t Ht (proj1_sig x - proj1_sig y);
  mul x y := to_element t Ht (proj1_sig x * proj1_sig y); div x y := to_element t Ht (Z.quot (proj1_sig x) (proj1_sig y));
  neg x := to_element t Ht (- proj1_sig x);
  ltb x y := Z.ltb (proj1_sig x) (proj1_sig y); eqb x y := Z.eqb (proj1_sig x) (proj1_sig y) |}.
(** these are the operations of the code *)
Theorem wrapping_operations : forall t (Ht : 8 <= bits t), wrapping t = true -> forall x y : element t,
  let O := int_ops t in let E := element_ops t Ht in let v (e : element t) := Some (proj1_sig e) in
  add (Ops := O) (v x) (v y) = v (add (Ops := E) x y) /\ sub (Ops := O) (v x) (v y) = v (sub (Ops := E) x y) /\ mul (Ops := O) (v x) (v y) = v (mul (Ops := E) x y) /\
  neg (Ops := O) (v x) = v (neg (Ops := E) x) /\ zero (Ops := O) = v (zero (Ops := E)) /\ one (Ops := O) = v (one (Ops := E)).
Proof.
  intros t Ht W [x Rx] [y Ry] O E v. unfold v. cbn [proj1_sig O E element_ops to_element add sub mul neg zero one int_ops lift2].
  assert (C : forall z, (in_range (promoted t) z = true \/ signed (promoted t) = false) -> compute t z = Some (convert t z)).
  { intros z [H|H]; unfold compute; rewrite H; cbn; [rewrite andb_false_r|]; reflexivity. }
  destruct (zero_one_range t Ht) as [Z0 Z1]. destruct (narrow_bound t Ht x W Rx) as [Bx|S].
  - destruct (narrow_bound t Ht y W Ry) as [By|S]; [|repeat split; auto; rewrite convert_id; auto].
    assert (Z.abs (x * y) <= 2 ^ 30) by (rewrite Z.abs_mul; change (2 ^ 30) with (2 ^ 15 * 2 ^ 15); apply Z.mul_le_mono_nonneg; lia).
    repeat split; try (apply C; apply int_fits; auto; lia); rewrite convert_id; auto.
  - repeat split; auto; rewrite convert_id; auto.
Qed.
Lemma element_eq t (x y : element t) : proj1_sig x = proj1_sig y -> x = y.
Proof. destruct x as [x p], y as [y q]. cbn. intros <-. f_equal. apply (UIP_dec bool_dec). Qed.
Theorem wrapping_ring : forall t (Ht : 8 <= bits t), is_ring (element t) (H := element_ops t Ht).
Proof.
  intros t Ht. assert (C : forall a b, a mod 2 ^ bits t = b mod 2 ^ bits t -> convert t a = convert t b).
  { intros a b H. unfold convert. rewrite Zminus_mod, H, <- Zminus_mod. auto. }
  assert (I : forall x : element t, proj1_sig x = convert t (proj1_sig x)) by (intros [x R]; cbn; rewrite convert_id; auto).
  assert (P : forall a, convert t a mod 2 ^ bits t = a mod 2 ^ bits t) by (apply convert_mod; auto).
  assert (NZ : 2 ^ bits t <> 0) by (pose proof (pow_half t Ht); pose proof (pow_big t Ht); lia).
  assert (EA : forall a b a' b', a mod 2 ^ bits t = a' mod 2 ^ bits t -> b mod 2 ^ bits t = b' mod 2 ^ bits t -> (a + b) mod 2 ^ bits t = (a' + b') mod 2 ^ bits t) by (intros; rewrite Zplus_mod, H, H0, <- Zplus_mod; auto).
  assert (EM : forall a b a' b', a mod 2 ^ bits t = a' mod 2 ^ bits t -> b mod 2 ^ bits t = b' mod 2 ^ bits t -> (a * b) mod 2 ^ bits t = (a' * b') mod 2 ^ bits t) by (intros; rewrite Zmult_mod, H, H0, <- Zmult_mod; auto).
  constructor; intros; apply element_eq; cbn [proj1_sig to_element add sub mul neg zero one element_ops]; try (apply C; try reflexivity).
  - rewrite (I x) at 2. apply C. rewrite (EA _ _ 0 (proj1_sig x)); auto.
  - f_equal. lia.
  - rewrite (EA _ (convert t (proj1_sig y + proj1_sig z)) (proj1_sig x) (proj1_sig y + proj1_sig z)) by auto. rewrite (EA (convert t _) _ (proj1_sig x + proj1_sig y) (proj1_sig z)) by auto. f_equal. lia.
  - rewrite (I x) at 2. apply C. rewrite (EM _ _ 1 (proj1_sig x)) by auto. f_equal. lia.
  - f_equal. lia.
  - rewrite (EM _ (convert t (proj1_sig y * proj1_sig z)) (proj1_sig x) (proj1_sig y * proj1_sig z)) by auto. rewrite (EM (convert t _) _ (proj1_sig x * proj1_sig y) (proj1_sig z)) by auto. f_equal. lia.
  - rewrite (EM (convert t _) _ (proj1_sig x + proj1_sig y) (proj1_sig z)) by auto. rewrite (EA _ _ (proj1_sig x * proj1_sig z) (proj1_sig y * proj1_sig z)) by auto. f_equal. lia.
  - rewrite (EA _ (convert t (- proj1_sig y)) (proj1_sig x) (- proj1_sig y)) by auto. f_equal.
  - rewrite (EA _ (convert t (- proj1_sig x)) (proj1_sig x) (- proj1_sig x)) by auto. f_equal. lia.
Qed.

(** ** What does not hold *)
(** a dot product of ints whose value fits an int can overflow on the way *)
Theorem dot_fits_refuted : exists a b, all_in int_t a /\ all_in int_t b /\ length a = length b /\
  in_range int_t (zsum (length a) (fun k => values a k * values b k)) = true /\ vdot (Op := int_ops int_t) (map Some a) (map Some b) = Ok None.
Proof. exists [2147483647; 1; -1], [1; 1; 1]. split; [|split; [|split; [reflexivity|split; reflexivity]]]; intros z H; cbn in H; repeat (destruct H as [<-|H]; [reflexivity|]); destruct H. Qed.
(** unsigned short elements: the products are int products, and overflow *)
Theorem unsigned_short_refuted : exists a b, all_in ushort_t a /\ all_in ushort_t b /\ length a = length b /\ vdot (Op := int_ops ushort_t) (map Some a) (map Some b) = Ok None.
Proof. exists [65535], [65535]. split; [|split; [|split; reflexivity]]; intros z [<-|[]]; reflexivity. Qed.
(** scaling by two factors, one after the other or by their product: one way may overflow alone *)
Theorem int_associative_refuted : exists x y z, in_range int_t x = true /\ in_range int_t y = true /\ in_range int_t z = true /\
  let O := int_ops int_t in vscale (Op := O) (Some z) (vscale (Op := O) (Some y) [Some x]) = [None] /\ vscale (Op := O) (mul (Ops := O) (Some y) (Some z)) [Some x] = [Some 0].
Proof. exists 65536, 65536, 0. repeat split; reflexivity. Qed.

(** ** The hypotheses are met *)
Example unsigned_dot : vdot (Op := int_ops unsigned_t) [Some 4294967295; Some 3] [Some 2; Some 5] = Ok (Some 13) /\ wrapping unsigned_t = true /\ trapping unsigned_t = false /\ 8 <= bits unsigned_t.
Proof. repeat split; try reflexivity. cbn. lia. Qed.
Example int_dot : vdot (Op := int_ops int_t) [Some 40000; Some (-3)] [Some 50000; Some 5] = Ok (Some 1999999985) /\ trapping int_t = true /\ wrapping int_t = false /\
  zsum 2 (fun k => Z.abs (values [40000; -3] k * values [50000; 5] k)) <= hi int_t.
Proof. repeat split; try reflexivity. cbn. lia. Qed.
Example short_dot : vdot (Op := int_ops short_t) [Some 300; Some 7] [Some 300; Some 11] = Ok (Some 24541) /\ wrapping short_t = true /\ (300 * 300 + 7 * 11) mod 2 ^ 16 = 24541.
Proof. repeat split; reflexivity. Qed.
Example int_det : determinant (Op := int_ops int_t) (fun x => x) None (Mx 3 3 col_basis (fun i j => Some (Z.of_nat (i * i + 2 * j * i + 7 * j)))) = Ok (Some 0) /\
  Z.of_nat (fact 3) * 700 ^ 3 <= hi int_t.
Proof. split; [reflexivity|cbn; lia]. Qed.
Print Assumptions dot_integer.
Print Assumptions elementwise_integer.
Print Assumptions product_integer.
Print Assumptions matrix_vector_integer.
Print Assumptions product_associative_integer.
Print Assumptions cross_integer.
Print Assumptions triple_integer.
Print Assumptions determinant_integer.
Print Assumptions quaternion_product_integer.
Print Assumptions wrapping_operations.
Print Assumptions wrapping_ring.
Print Assumptions dot_fits_refuted.
