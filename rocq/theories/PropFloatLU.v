(** C64: rounding errors of LU decomposition and of solving with it, with and
    without pivoting, in IEEE arithmetic of any precision (FloatModel.v). *)
From Coq Require Import ZArith Bool List Arith Lia Reals Lra.
From Flocq Require Import Core BinarySingleNaN.
From Verif Require Import Base RotModel LUModel ExactLU FloatModel FloatFacts FloatDot FloatLU PropFloat.
Import ListNotations.
Open Scope R_scope.

(** ** Specification: the two triangular factors packed in one grid of numbers *)
Definition lower (M : nat -> nat -> R) (i p : nat) : R := if (p <? i)%nat then M i p else if (p =? i)%nat then 1 else 0.
Definition upper (M : nat -> nat -> R) (p j : nat) : R := if (p <=? j)%nat then M p j else 0.
(** sum of the absolute values of L U x, row i *)
Definition weight (N : nat) (M : nat -> nat -> R) (x : nat -> R) (i : nat) : R :=
  rsum N (fun j => Rabs (lower M i j) * rsum N (fun k => Rabs (upper M j k) * Rabs (x k))).

Lemma rsum_trunc n m f : (n <= m)%nat -> (forall p, (n <= p < m)%nat -> f p = 0) -> rsum m f = rsum n f.
Proof.
  induction m as [|m IH]; intros L H; [replace n with 0%nat by lia; auto|]. destruct (Nat.eq_dec n (S m)) as [->|]; auto.
  cbn [rsum]. rewrite IH, (H m) by (try lia; intros; apply H; lia). ring.
Qed.
(** entry (i,j) of the product of the factors *)
Lemma product_upper N (M : nat -> nat -> R) i j : (i <= j < N)%nat -> forall f, f 0 = 0 ->
  rsum N (fun p => f (lower M i p * upper M p j)) = rsum i (fun p => f (M i p * M p j)) + f (M i j).
Proof.
  intros H f F0. rewrite (rsum_trunc (S i)); try lia.
  - cbn [rsum]. f_equal.
    + apply rsum_ext. intros p Hp. unfold lower, upper. rewrite (proj2 (Nat.ltb_lt p i)), (proj2 (Nat.leb_le p j)) by lia. auto.
    + unfold lower, upper. rewrite Nat.ltb_irrefl, Nat.eqb_refl, (proj2 (Nat.leb_le i j)) by lia. rewrite Rmult_1_l. auto.
  - intros p Hp. unfold lower. rewrite (proj2 (Nat.ltb_ge p i)), (proj2 (Nat.eqb_neq p i)) by lia. rewrite Rmult_0_l. auto.
Qed.
Lemma product_lower N (M : nat -> nat -> R) i j : (j < i < N)%nat -> forall f, f 0 = 0 ->
  rsum N (fun p => f (lower M i p * upper M p j)) = rsum j (fun p => f (M i p * M p j)) + f (M i j * M j j).
Proof.
  intros H f F0. rewrite (rsum_trunc (S j)); try lia.
  - cbn [rsum]. f_equal.
    + apply rsum_ext. intros p Hp. unfold lower, upper. rewrite (proj2 (Nat.ltb_lt p i)), (proj2 (Nat.leb_le p j)) by lia. auto.
    + unfold lower, upper. rewrite (proj2 (Nat.ltb_lt j i)), (proj2 (Nat.leb_le j j)) by lia. auto.
  - intros p Hp. unfold upper. rewrite (proj2 (Nat.leb_gt p j)) by lia. rewrite Rmult_0_r. auto.
Qed.
Lemma lower_row N (M : nat -> nat -> R) i (y : nat -> R) : (i < N)%nat -> forall f, f 0 = 0 ->
  rsum N (fun p => f (lower M i p * y p)) = rsum i (fun p => f (M i p * y p)) + f (y i).
Proof.
  intros H f F0. rewrite (rsum_trunc (S i)); try lia.
  - cbn [rsum]. f_equal.
    + apply rsum_ext. intros p Hp. unfold lower. rewrite (proj2 (Nat.ltb_lt p i)) by lia. auto.
    + unfold lower. rewrite Nat.ltb_irrefl, Nat.eqb_refl, Rmult_1_l. auto.
  - intros p Hp. unfold lower. rewrite (proj2 (Nat.ltb_ge p i)), (proj2 (Nat.eqb_neq p i)) by lia. rewrite Rmult_0_l. auto.
Qed.
Lemma rsum_split m n f : rsum (m + n) f = rsum m f + rsum n (fun p => f (m + p)%nat).
Proof. induction n as [|n IH]; [rewrite Nat.add_0_r; cbn [rsum]; ring|]. rewrite Nat.add_succ_r. cbn [rsum]. rewrite IH. ring. Qed.
Lemma upper_row N (M : nat -> nat -> R) i (x : nat -> R) : (i < N)%nat -> forall f, f 0 = 0 ->
  rsum N (fun p => f (upper M i p * x p)) = f (M i i * x i) + rsum (N - (i + 1)) (fun p => f (M i (i + 1 + p)%nat * x (i + 1 + p)%nat)).
Proof.
  intros H f F0. replace N with (i + 1 + (N - (i + 1)))%nat at 1 by lia. rewrite rsum_split. f_equal.
  - replace (i + 1)%nat with (S i) by lia. cbn [rsum]. rewrite (rsum_trunc 0 i); try lia.
    + cbn [rsum]. unfold upper. rewrite Nat.leb_refl. ring.
    + intros p Hp. unfold upper. rewrite (proj2 (Nat.leb_gt i p)) by lia. rewrite Rmult_0_l. auto.
  - apply rsum_ext. intros p Hp. unfold upper. rewrite (proj2 (Nat.leb_le i (i + 1 + p))) by lia. auto.
Qed.

Section IEEE.
Context (prec emax : Z) {Hprec : Prec_gt_0 prec} {Hmax : Prec_lt_emax prec emax}.
Notation F := (binary_float prec emax).
Notation u := (u_round prec).
Notation eta := (eta_min prec emax).
Notation val := (@B2R prec emax).
Notation fin x := (is_finite x = true).
Notation g := (g prec).
Notation V M := (fun i j => val (M i j)).

(** the factors in [M] multiply to [a], up to rounding, in entry (i,j) *)
Definition lu_close (N : nat) (M : nat -> nat -> R) (a : R) (i j : nat) : Prop :=
  Rabs (a - rsum N (fun p => lower M i p * upper M p j)) <=
    ((1 + u) ^ N - 1) * rsum N (fun p => Rabs (lower M i p * upper M p j)) + (1 + u) ^ N * (INR N + Rabs (upper M j j)) * eta.
(** what is left of row i of A x = b, for the right-hand side [b] and the value [ax] of the row *)
Definition residual_close (N : nat) (M : nat -> nat -> R) (x : nat -> R) (b ax : R) (i : nat) : Prop :=
  let G := (1 + u) ^ (N + 1) in
  Rabs (b - ax) <= (G - 1) * (G + 2) * weight N M x i +
    G * (INR N + G * rsum N (fun j => Rabs (lower M i j) * (INR N + Rabs (upper M j j))) + rsum N (fun k => (INR N + Rabs (upper M k k)) * Rabs (x k))) * eta.

Lemma pos_facts : 0 < u /\ 0 < eta. Proof. split; [apply u_pos|apply eta_pos]. Qed.
Lemma mult_up a b c : a <= b -> 0 <= c -> a * c <= b * c. Proof. intros; apply Rmult_le_compat_r; auto. Qed.

(** one row of a product, from below and above *)
Lemma split3 a s t m S A c0 e0 c1 e1 : Rabs (s - S) <= c0 * A + e0 -> Rabs (a - s - t) <= c1 -> Rabs (t - m) <= e1 -> Rabs (a - (S + m)) <= c0 * A + e0 + c1 + e1.
Proof.
  intros H1 H2 H3. replace (a - (S + m)) with ((s - S) + (a - s - t) + (t - m)) by ring.
  eapply Rle_trans; [apply Rabs_triang|]. eapply Rle_trans; [apply Rplus_le_compat_r, Rabs_triang|]. lra.
Qed.
Lemma sub_abs (a s : F) : fin (sub a s) -> fin a /\ fin s /\ Rabs (val a - val s - val (sub a s)) <= u * Rabs (val (sub a s)).
Proof.
  intros H. destruct (sub_inv prec emax _ _ H) as (A & B & d & D & E). repeat split; auto. rewrite E. replace (val (sub a s) * (1 + d) - val (sub a s)) with (d * val (sub a s)) by ring.
  rewrite Rabs_mult. apply Rmult_le_compat_r; auto using Rabs_pos.
Qed.
Lemma bigger k n K : (k <= n)%nat -> 0 <= K -> (g k - 1) * K <= (g n - 1) * K.
Proof. intros H P. apply mult_up; auto. pose proof (g_up prec k n H). lra. Qed.
Lemma tiny k n K : (k <= n)%nat -> INR k <= K -> INR k * g k * eta <= g n * K * eta.
Proof.
  intros H HK. destruct pos_facts as [U Et]. apply mult_up; [|lra]. rewrite (Rmult_comm (g n)). apply Rmult_le_compat; auto; try apply pos_INR.
  - pose proof (g_1 prec k). lra.
  - apply g_up. auto.
Qed.

(** ** Factorisation *)
Lemma row_upper N (M : nat -> nat -> F) (a : F) i j : (i <= j < N)%nat -> fin (M i j) ->
  M i j = sub a (sum_prod 0 i (fun p => M i p) (fun p => M p j)) -> fin a /\ lu_close N (V M) (val a) i j.
Proof.
  intros H Fm E. destruct pos_facts as [U Et]. rewrite E in Fm. destruct (sub_abs _ _ Fm) as (Fa & Fs & B). rewrite <- E in *. split; auto.
  destruct (sum_prod_err prec emax 0 i _ _ Fs) as [_ S]. cbn [Nat.add] in S. unfold lu_close.
  rewrite (product_upper N (V M) i j H (fun x => x) eq_refl), (product_upper N (V M) i j H Rabs Rabs_R0). cbv beta.
  pose proof (split3 _ _ _ (val (M i j)) _ _ _ _ _ 0 S B ltac:(unfold Rminus; rewrite Rplus_opp_r, Rabs_R0; lra)) as T. eapply Rle_trans; [exact T|].
  set (A0 := rsum i (fun p => Rabs _)) in *. assert (P : 0 <= A0) by (apply rsum_nonneg; intros; apply Rabs_pos). fold (g N).
  pose proof (bigger (Datatypes.S i) N A0 ltac:(lia) P) as K1. pose proof (bigger 1 N (Rabs (val (M i j))) ltac:(lia) (Rabs_pos _)) as K2. unfold FloatLU.g at 1 in K2. cbn [pow] in K2.
  pose proof (tiny i N (INR N + Rabs (upper (V M) j j)) ltac:(lia)) as K3. pose proof (le_INR i N ltac:(lia)). pose proof (Rabs_pos (upper (V M) j j)). specialize (K3 ltac:(lra)). lra.
Qed.
Lemma row_lower N (M : nat -> nat -> F) (a : F) i j : (j < i < N)%nat -> fin (M i j) -> fin (M j j) ->
  M i j = div (sub a (sum_prod 0 j (fun p => M i p) (fun p => M p j))) (M j j) -> fin a /\ lu_close N (V M) (val a) i j.
Proof.
  intros H Fm Fp E. destruct pos_facts as [U Et]. destruct (quotient_err prec emax _ _ _ E Fm Fp) as [Ft Q]. destruct (sub_abs _ _ Ft) as (Fa & Fs & B). split; auto.
  destruct (sum_prod_err prec emax 0 j _ _ Fs) as [_ S]. cbn [Nat.add] in S. unfold lu_close.
  rewrite (product_lower N (V M) i j H (fun x => x) eq_refl), (product_lower N (V M) i j H Rabs Rabs_R0). cbv beta.
  pose proof (split3 _ _ _ (val (M i j) * val (M j j)) _ _ _ _ _ _ S B Q) as T. eapply Rle_trans; [exact T|].
  set (t := val (sub a _)) in *. set (lp := val (M i j) * val (M j j)) in *. set (A0 := rsum j (fun p => Rabs _)) in *. assert (P : 0 <= A0) by (apply rsum_nonneg; intros; apply Rabs_pos). fold (g N).
  assert (Bt : Rabs t <= (1 + u) * Rabs lp + eta * Rabs (val (M j j))). { replace t with (lp + (t - lp)) by ring. eapply Rle_trans; [apply Rabs_triang|]. lra. }
  assert (Bu : u * Rabs t <= u * ((1 + u) * Rabs lp + eta * Rabs (val (M j j)))) by (apply Rmult_le_compat_l; lra).
  pose proof (bigger (Datatypes.S j) N A0 ltac:(lia) P) as K1. pose proof (bigger 2 N (Rabs lp) ltac:(lia) (Rabs_pos _)) as K2. unfold FloatLU.g at 1 in K2. cbn [pow] in K2.
  pose proof (tiny j N (INR N) ltac:(lia) ltac:(apply le_INR; lia)) as K3. unfold upper. rewrite Nat.leb_refl. set (p := Rabs (val (M j j))) in *.
  assert (K4 : (1 + u) * (p * eta) <= g N * (p * eta)). { apply mult_up; [|apply Rmult_le_pos; [apply Rabs_pos|lra]]. pose proof (g_up prec 1 N ltac:(lia)) as X. unfold FloatLU.g at 1 in X. cbn [pow] in X. lra. }
  lra.
Qed.
Lemma prow_upper N (M : nat -> nat -> F) (a : F) i j : (i <= j < N)%nat -> fin (M i j) ->
  M i j = sub_prods i a (fun p => M i p) (fun p => M p j) -> lu_close N (V M) (val a) i j.
Proof.
  intros H Fm E. destruct pos_facts as [U Et]. rewrite E in Fm. pose proof (sub_prods_err prec emax _ _ _ _ Fm) as B. rewrite <- E in *. unfold lu_close.
  rewrite (product_upper N (V M) i j H (fun x => x) eq_refl), (product_upper N (V M) i j H Rabs Rabs_R0). cbv beta. unfold Rminus at 1. rewrite Ropp_plus_distr, <- Rplus_assoc. eapply Rle_trans; [exact B|].
  set (A0 := rsum i (fun p => Rabs _)) in *. assert (P : 0 <= A0) by (apply rsum_nonneg; intros; apply Rabs_pos). fold (g N). rewrite (Rplus_comm A0).
  pose proof (bigger i N (Rabs (val (M i j)) + A0) ltac:(lia) ltac:(pose proof (Rabs_pos (val (M i j))); lra)) as K1.
  pose proof (tiny i N (INR N + Rabs (upper (V M) j j)) ltac:(lia)) as K3. pose proof (le_INR i N ltac:(lia)). pose proof (Rabs_pos (upper (V M) j j)). specialize (K3 ltac:(lra)). lra.
Qed.
Lemma prow_lower N (M : nat -> nat -> F) (a : F) i j : (j < i < N)%nat -> fin (M i j) -> fin (M j j) ->
  M i j = div (sub_prods j a (fun p => M i p) (fun p => M p j)) (M j j) -> lu_close N (V M) (val a) i j.
Proof.
  intros H Fm Fp E. destruct pos_facts as [U Et]. destruct (quotient_err prec emax _ _ _ E Fm Fp) as [Ft Q]. pose proof (sub_prods_err prec emax _ _ _ _ Ft) as B. unfold lu_close.
  rewrite (product_lower N (V M) i j H (fun x => x) eq_refl), (product_lower N (V M) i j H Rabs Rabs_R0). cbv beta.
  set (t := val (sub_prods _ _ _ _)) in *. set (lp := val (M i j) * val (M j j)) in *. set (S0 := rsum j _) in *. set (A0 := rsum j (fun p => Rabs _)) in *. assert (P : 0 <= A0) by (apply rsum_nonneg; intros; apply Rabs_pos). fold (g N).
  replace (val a - (S0 + lp)) with ((val a - S0 - t) + (t - lp)) by ring. eapply Rle_trans; [apply Rabs_triang|].
  assert (Bt : Rabs t <= (1 + u) * Rabs lp + eta * Rabs (val (M j j))). { replace t with (lp + (t - lp)) by ring. eapply Rle_trans; [apply Rabs_triang|]. lra. }
  pose proof (g_1 prec j) as G1. assert (Bu : (g j - 1) * Rabs t <= (g j - 1) * ((1 + u) * Rabs lp + eta * Rabs (val (M j j)))) by (apply Rmult_le_compat_l; lra).
  pose proof (bigger j N A0 ltac:(lia) P) as K1. pose proof (bigger (Datatypes.S j) N (Rabs lp) ltac:(lia) (Rabs_pos _)) as K2. rewrite g_S in K2.
  pose proof (tiny j N (INR N) ltac:(lia) ltac:(apply le_INR; lia)) as K3. unfold upper. rewrite Nat.leb_refl. set (p := Rabs (val (M j j))) in *.
  assert (K4 : g j * (p * eta) <= g N * (p * eta)). { apply mult_up; [|apply Rmult_le_pos; [apply Rabs_pos|lra]]. apply g_up. lia. }
  lra.
Qed.

Theorem lu_accuracy : forall m m' : mx F, lu m = Ok m' -> let N := mrows m in (forall i j, (i < N)%nat -> (j < N)%nat -> fin (mel m' i j)) ->
  forall i j, (i < N)%nat -> (j < N)%nat -> fin (mel m i j) /\ lu_close N (V (mel m')) (val (mel m i j)) i j.
Proof.
  intros m m' H N Fm i j Hi Hj. unfold lu, require in H. destruct (Nat.eqb _ _); [|discriminate]. cbn [bind] in H. injection H as <-. cbn [mel] in *. fold N in Fm |- *.
  destruct (lu_entries N (mel m) i j Hi Hj) as [A B]. destruct (Nat.le_gt_cases i j) as [L|L].
  - apply row_upper; auto.
  - apply row_lower; auto.
Qed.
Theorem lu_pivot_accuracy : forall fabs eps (m : mx F) r, lu_pivot fabs eps m = Ok r -> lp_sign r <> sgn_zero -> let N := mrows m in
  (forall i j, (i < N)%nat -> (j < N)%nat -> fin (mel (lp_lu r) i j)) ->
  NoDup (lp_order r) /\ length (lp_order r) = N /\
  forall i j, (i < N)%nat -> (j < N)%nat -> let row := nth i (lp_order r) 0%nat in (row < N)%nat /\ lu_close N (V (mel (lp_lu r))) (val (mel m row j)) i j.
Proof.
  intros fabs eps m r H Sg N Fm. unfold lu_pivot, require in H. destruct (Nat.eqb _ _); [|discriminate]. cbn [bind] in H.
  destruct (lu_pivot_inplace fabs eps (mrows m) (mel m)) as [[M ord] s] eqn:E. injection H as <-. cbn [lp_sign lp_lu lp_order mel] in *. fold N in E, Fm |- *.
  destruct (lu_pivot_entries fabs eps N (mel m) M ord s E Sg) as (Lt & Inj & Rec). split; [|split].
  - apply (NoDup_nth _ 0%nat). rewrite map_length, seq_length. intros i j Hi Hj Eq.
    rewrite !(nth_indep _ 0%nat (ord 0%nat)), !map_nth, !seq_nth in Eq by (rewrite ?map_length, ?seq_length; auto). apply Inj; auto.
  - rewrite map_length, seq_length. auto.
  - intros i j Hi Hj. rewrite (nth_indep _ 0%nat (ord 0%nat)), map_nth, seq_nth by (rewrite ?map_length, ?seq_length; auto). cbn [Nat.add]. split; auto.
    destruct (Rec i j Hi Hj) as [A B]. destruct (Nat.le_gt_cases i j) as [L|L].
    + apply prow_upper; auto.
    + apply prow_lower; auto.
Qed.

(** ** Substitution *)
Lemma forward_row N (M : nat -> nat -> F) (b : F) (y : nat -> F) i : (i < N)%nat -> fin (y i) -> y i = sub b (sum_prod 0 i (fun j => M i j) y) ->
  Rabs (val b - rsum N (fun j => lower (V M) i j * val (y j))) <= (g (N + 1) - 1) * rsum N (fun j => Rabs (lower (V M) i j * val (y j))) + g (N + 1) * INR N * eta.
Proof.
  intros H Fy E. destruct pos_facts as [U Et]. pose proof E as E'. rewrite E in Fy. destruct (sub_abs _ _ Fy) as (Fa & Fs & B). rewrite <- E' in B.
  destruct (sum_prod_err prec emax 0 i _ _ Fs) as [_ S]. cbn [Nat.add] in S.
  rewrite (lower_row N (V M) i (fun j => val (y j)) H (fun x => x) eq_refl), (lower_row N (V M) i (fun j => val (y j)) H Rabs Rabs_R0). cbv beta.
  pose proof (split3 _ _ _ (val (y i)) _ _ _ _ _ 0 S B ltac:(unfold Rminus; rewrite Rplus_opp_r, Rabs_R0; lra)) as T. eapply Rle_trans; [exact T|].
  set (A0 := rsum i (fun p => Rabs _)) in *. assert (P : 0 <= A0) by (apply rsum_nonneg; intros; apply Rabs_pos).
  pose proof (bigger (Datatypes.S i) (N + 1) A0 ltac:(lia) P) as K1. pose proof (bigger 1 (N + 1) (Rabs (val (y i))) ltac:(lia) (Rabs_pos _)) as K2. unfold FloatLU.g at 1 in K2. cbn [pow] in K2.
  pose proof (tiny i (N + 1) (INR N) ltac:(lia) ltac:(apply le_INR; lia)) as K3. lra.
Qed.
Lemma backward_row N (M : nat -> nat -> F) (y : F) (x : nat -> F) i : (i < N)%nat -> fin (x i) -> fin (M i i) -> x i = div (sub y (sum_prod (i + 1) N (fun j => M i j) x)) (M i i) ->
  fin y /\ val (M i i) <> 0 /\
  Rabs (val y - rsum N (fun j => upper (V M) i j * val (x j))) <= (g (N + 1) - 1) * rsum N (fun j => Rabs (upper (V M) i j * val (x j))) + g (N + 1) * (INR N + Rabs (upper (V M) i i)) * eta.
Proof.
  intros H Fx Fp E. destruct pos_facts as [U Et]. destruct (quotient_err prec emax _ _ _ E Fx Fp) as [Ft Q]. destruct (sub_abs _ _ Ft) as (Fa & Fs & B). split; auto. split.
  { pose proof Fx as Fx'. rewrite E in Fx'. exact (proj1 (proj2 (div_inv prec emax _ _ Fx' Fp))). }
  revert Fs B Q Ft E. replace N with (i + 1 + (N - (i + 1)))%nat at 1 2 3 4 5 by lia. intros Fs B Q Ft E.
  destruct (sum_prod_err prec emax (i + 1) (N - (i + 1)) _ _ Fs) as [_ S].
  rewrite (upper_row N (V M) i (fun j => val (x j)) H (fun x => x) eq_refl), (upper_row N (V M) i (fun j => val (x j)) H Rabs Rabs_R0). cbv beta.
  rewrite (Rmult_comm (val (x i))) in Q.
  pose proof (split3 _ _ _ (val (M i i) * val (x i)) _ _ _ _ _ _ S B Q) as T. rewrite (Rplus_comm (val (M i i) * val (x i))). eapply Rle_trans; [exact T|].
  set (t := val (sub y _)) in *. set (lp := val (M i i) * val (x i)) in *. set (A0 := rsum _ (fun p => Rabs _)) in *. assert (P : 0 <= A0) by (apply rsum_nonneg; intros; apply Rabs_pos).
  assert (Bt : Rabs t <= (1 + u) * Rabs lp + eta * Rabs (val (M i i))). { replace t with (lp + (t - lp)) by ring. eapply Rle_trans; [apply Rabs_triang|]. lra. }
  assert (Bu : u * Rabs t <= u * ((1 + u) * Rabs lp + eta * Rabs (val (M i i)))) by (apply Rmult_le_compat_l; lra).
  pose proof (bigger (Datatypes.S (N - (i + 1))) (N + 1) A0 ltac:(lia) P) as K1. pose proof (bigger 2 (N + 1) (Rabs lp) ltac:(lia) (Rabs_pos _)) as K2. unfold FloatLU.g at 1 in K2. cbn [pow] in K2.
  pose proof (tiny (N - (i + 1)) (N + 1) (INR N) ltac:(lia) ltac:(apply le_INR; lia)) as K3. unfold upper. rewrite Nat.leb_refl. set (p := Rabs (val (M i i))) in *.
  assert (K4 : (1 + u) * (p * eta) <= g (N + 1) * (p * eta)). { apply mult_up; [|apply Rmult_le_pos; [apply Rabs_pos|lra]]. pose proof (g_up prec 1 (N + 1) ltac:(lia)) as X. unfold FloatLU.g at 1 in X. cbn [pow] in X. lra. }
  lra.
Qed.
(** ** Both together, over the reals: L U = A up to K, L y = b up to K, U x = y up to K *)
Lemma combine N (M a : nat -> nat -> R) (x y : nat -> R) (b : R) i G : (i < N)%nat -> 1 <= G ->
  (forall j, (j < N)%nat -> Rabs (a i j - rsum N (fun p => lower M i p * upper M p j)) <= (G - 1) * rsum N (fun p => Rabs (lower M i p * upper M p j)) + G * (INR N + Rabs (upper M j j)) * eta) ->
  Rabs (b - rsum N (fun j => lower M i j * y j)) <= (G - 1) * rsum N (fun j => Rabs (lower M i j * y j)) + G * INR N * eta ->
  (forall j, (j < N)%nat -> Rabs (y j - rsum N (fun k => upper M j k * x k)) <= (G - 1) * rsum N (fun k => Rabs (upper M j k * x k)) + G * (INR N + Rabs (upper M j j)) * eta) ->
  Rabs (b - rsum N (fun k => a i k * x k)) <= (G - 1) * (G + 2) * weight N M x i +
    G * (INR N + G * rsum N (fun j => Rabs (lower M i j) * (INR N + Rabs (upper M j j))) + rsum N (fun k => (INR N + Rabs (upper M k k)) * Rabs (x k))) * eta.
Proof.
  intros Hi G1 HA HL HU. destruct pos_facts as [U Et].
  set (ux := fun j => rsum N (fun k => upper M j k * x k)) in *. set (ax := fun j => rsum N (fun k => Rabs (upper M j k) * Rabs (x k))).
  assert (Eax : forall j, rsum N (fun k => Rabs (upper M j k * x k)) = ax j) by (intros j; apply rsum_ext; intros; apply Rabs_mult).
  set (c := fun j => INR N + Rabs (upper M j j)).
  assert (C0 : forall j, 0 <= c j) by (intros j; unfold c; pose proof (Rabs_pos (upper M j j)); pose proof (pos_INR N); lra).
  assert (HU' : forall j, (j < N)%nat -> Rabs (y j - ux j) <= (G - 1) * ax j + G * c j * eta) by (intros j Hj; rewrite <- Eax; apply HU; auto).
  assert (Bux : forall j, Rabs (ux j) <= ax j) by (intros j; rewrite <- Eax; apply rsum_abs).
  assert (By : forall j, (j < N)%nat -> Rabs (y j) <= G * ax j + G * c j * eta).
  { intros j Hj. replace (y j) with (ux j + (y j - ux j)) by ring. eapply Rle_trans; [apply Rabs_triang|]. specialize (HU' j Hj). specialize (Bux j). lra. }
  set (W := weight N M x i). assert (EW : W = rsum N (fun j => Rabs (lower M i j) * ax j)) by reflexivity.
  set (Z := rsum N (fun j => Rabs (lower M i j) * c j)).
  (* |L||y| *)
  assert (T1 : rsum N (fun j => Rabs (lower M i j * y j)) <= G * W + G * Z * eta).
  { rewrite EW. unfold Z. replace (G * _ + G * _ * eta) with (G * rsum N (fun j => Rabs (lower M i j) * ax j) + (G * eta) * rsum N (fun j => Rabs (lower M i j) * c j)) by ring.
    rewrite <- !rsum_scal, <- rsum_plus. apply rsum_le. intros j Hj. rewrite Rabs_mult. pose proof (Rmult_le_compat_l _ _ _ (Rabs_pos (lower M i j)) (By j Hj)). lra. }
  (* L (y - U x) *)
  assert (T2 : Rabs (rsum N (fun j => lower M i j * y j) - rsum N (fun j => lower M i j * ux j)) <= (G - 1) * W + G * Z * eta).
  { rewrite <- rsum_minus. eapply Rle_trans; [apply rsum_abs|]. rewrite EW. unfold Z.
    replace ((G - 1) * _ + G * _ * eta) with ((G - 1) * rsum N (fun j => Rabs (lower M i j) * ax j) + (G * eta) * rsum N (fun j => Rabs (lower M i j) * c j)) by ring.
    rewrite <- !rsum_scal, <- rsum_plus. apply rsum_le. intros j Hj. replace (lower M i j * y j - lower M i j * ux j) with (lower M i j * (y j - ux j)) by ring.
    rewrite Rabs_mult. pose proof (Rmult_le_compat_l _ _ _ (Rabs_pos (lower M i j)) (HU' j Hj)). lra. }
  (* (L U - A) x *)
  assert (E3 : rsum N (fun j => lower M i j * ux j) = rsum N (fun k => rsum N (fun p => lower M i p * upper M p k) * x k)).
  { transitivity (rsum N (fun j => rsum N (fun k => lower M i j * upper M j k * x k))).
    - apply rsum_ext. intros j Hj. unfold ux. rewrite <- rsum_scal. apply rsum_ext. intros. ring.
    - rewrite rsum_swap. apply rsum_ext. intros k Hk. rewrite Rmult_comm, <- rsum_scal. apply rsum_ext. intros. ring. }
  assert (E4 : W = rsum N (fun k => rsum N (fun p => Rabs (lower M i p * upper M p k)) * Rabs (x k))).
  { rewrite EW. transitivity (rsum N (fun j => rsum N (fun k => Rabs (lower M i j) * Rabs (upper M j k) * Rabs (x k)))).
    - apply rsum_ext. intros j Hj. unfold ax. rewrite <- rsum_scal. apply rsum_ext. intros. ring.
    - rewrite rsum_swap. apply rsum_ext. intros k Hk. rewrite (Rmult_comm _ (Rabs (x k))), <- rsum_scal. apply rsum_ext. intros. rewrite Rabs_mult. ring. }
  assert (T3 : Rabs (rsum N (fun j => lower M i j * ux j) - rsum N (fun k => a i k * x k)) <= (G - 1) * W + G * rsum N (fun k => c k * Rabs (x k)) * eta).
  { rewrite E3, <- rsum_minus. eapply Rle_trans; [apply rsum_abs|]. rewrite E4.
    replace ((G - 1) * _ + G * _ * eta) with ((G - 1) * rsum N (fun k => rsum N (fun p => Rabs (lower M i p * upper M p k)) * Rabs (x k)) + (G * eta) * rsum N (fun k => c k * Rabs (x k))) by ring.
    rewrite <- !rsum_scal, <- rsum_plus. apply rsum_le. intros k Hk.
    replace (rsum N (fun p => lower M i p * upper M p k) * x k - a i k * x k) with (- ((a i k - rsum N (fun p => lower M i p * upper M p k)) * x k)) by ring.
    rewrite Rabs_Ropp, Rabs_mult. pose proof (Rmult_le_compat_r _ _ _ (Rabs_pos (x k)) (HA k Hk)). fold (c k) in H. lra. }
  replace (b - rsum N (fun k => a i k * x k)) with ((b - rsum N (fun j => lower M i j * y j)) + (rsum N (fun j => lower M i j * y j) - rsum N (fun j => lower M i j * ux j)) + (rsum N (fun j => lower M i j * ux j) - rsum N (fun k => a i k * x k))) by ring.
  eapply Rle_trans; [apply Rabs_triang|]. eapply Rle_trans; [apply Rplus_le_compat_r, Rabs_triang|].
  pose proof (Rmult_le_compat_l (G - 1) _ _ ltac:(lra) T1) as T1'. change (rsum N (fun j => Rabs (lower M i j) * (INR N + Rabs (upper M j j)))) with Z. change (rsum N (fun k => (INR N + Rabs (upper M k k)) * Rabs (x k))) with (rsum N (fun k => c k * Rabs (x k))).
  set (X := rsum N (fun k => c k * Rabs (x k))) in *. lra.
Qed.
Lemma close_up N (M : nat -> nat -> R) a i j : lu_close N M a i j ->
  Rabs (a - rsum N (fun p => lower M i p * upper M p j)) <= (g (N + 1) - 1) * rsum N (fun p => Rabs (lower M i p * upper M p j)) + g (N + 1) * (INR N + Rabs (upper M j j)) * eta.
Proof.
  intros H. destruct pos_facts as [U Et]. eapply Rle_trans; [exact H|]. fold (g N). apply Rplus_le_compat.
  - apply bigger; [lia|]. apply rsum_nonneg. intros; apply Rabs_pos.
  - apply mult_up; [|lra]. apply mult_up; [apply g_up; lia|]. pose proof (pos_INR N). pose proof (Rabs_pos (upper M j j)). lra.
Qed.

Lemma solve_rows N (M : nat -> nat -> F) (b : nat -> F) (x0 : nat -> F) (a : nat -> nat -> R) :
  let y := forward N M b in let x := backward N M y x0 in
  (forall i j, (i < N)%nat -> (j < N)%nat -> fin (M i j)) -> (forall i, (i < N)%nat -> fin (x i)) ->
  (forall i j, (i < N)%nat -> (j < N)%nat -> lu_close N (V M) (a i j) i j) ->
  forall i, (i < N)%nat -> val (M i i) <> 0 /\ residual_close N (V M) (fun k => val (x k)) (val (b i)) (rsum N (fun k => a i k * val (x k))) i.
Proof.
  intros y x FM Fx HA i Hi.
  assert (B : forall j, (j < N)%nat -> x j = div (sub (y j) (sum_prod (j + 1) N (fun k => M j k) x)) (M j j)) by (intros j Hj; apply backward_entries; auto).
  assert (Y : forall j, (j < N)%nat -> y j = sub (b j) (sum_prod 0 j (fun k => M j k) y)) by (intros j Hj; apply forward_entries; auto).
  pose proof (fun j Hj => backward_row N M (y j) x j Hj (Fx j Hj) (FM j j Hj Hj) (B j Hj)) as BR.
  split; [apply BR; auto|]. unfold residual_close. cbv zeta.
  apply (combine N (V M) a (fun k => val (x k)) (fun k => val (y k)) (val (b i)) i (g (N + 1))); auto.
  - apply g_1.
  - intros j Hj. apply close_up. auto.
  - apply forward_row; auto. apply BR. auto.
  - intros j Hj. apply BR. auto.
Qed.

Theorem lu_solve_accuracy : forall (m m' : mx F) (x b r : list F), lu m = Ok m' -> let N := mrows m in (forall i j, (i < N)%nat -> (j < N)%nat -> fin (mel m' i j)) ->
  lu_solve_to m' x b = Ok r \/ lu_solve m' b = Ok r -> (forall z, In z r -> fin z) ->
  length b = N /\ length r = N /\
  forall i, (i < N)%nat -> val (mel m' i i) <> 0 /\ residual_close N (V (mel m')) (vals prec emax r) (vals prec emax b i) (rsum N (fun k => val (mel m i k) * vals prec emax r k)) i.
Proof.
  intros m m' x b r H N Fm S Fr. pose proof (lu_accuracy m m' H Fm) as A. fold N in A.
  assert (S' : exists x, lu_solve_to m' x b = Ok r) by (destruct S as [S|S]; [eauto|unfold lu_solve in S; eauto]). clear S x. destruct S' as [x S].
  unfold lu, require in H. destruct (Nat.eqb _ _); [|discriminate]. cbn [bind] in H. injection H as <-. cbn [mel] in *.
  unfold lu_solve_to, require in S. cbn [mrows mcols mel] in S. destruct (Nat.eqb_spec (mrows m) (mcols m)) as [Sq|]; [|discriminate]. destruct (Nat.eqb _ _); [|discriminate].
  destruct (Nat.eqb_spec (mcols m) (length b)) as [Lb|]; [|discriminate]. cbn [bind] in S. injection S as <-. rewrite <- Lb, <- Sq. fold N. split; [auto|]. split; [rewrite map_length, seq_length; auto|].
  set (M := lu_inplace N (mel m)) in *. rewrite <- Lb, <- Sq in Fr. fold N in Fr. fold M in Fr, A |- *. set (X := backward N M (forward N M (el b)) (el x)) in *.
  assert (Fx : forall i, (i < N)%nat -> fin (X i)) by (intros i Hi; apply Fr, in_map, in_seq; lia).
  assert (EX : forall k, (k < N)%nat -> vals prec emax (map X (seq 0 N)) k = val (X k)).
  { intros k Hk. unfold vals. rewrite (nth_indep _ zero (X 0%nat)), map_nth, seq_nth by (rewrite ?map_length, ?seq_length; auto). auto. }
  intros i Hi. destruct (solve_rows N M (el b) (el x) (V (mel m)) Fm Fx ltac:(intros; apply A; auto) i Hi) as [Nz Rs]. split; auto.
  unfold residual_close, weight in *. fold X in Rs. cbv zeta in *.
  rewrite (rsum_ext N (fun k => val (mel m i k) * vals prec emax (map X (seq 0 N)) k) (fun k => val (mel m i k) * val (X k))) by (intros; rewrite EX; auto).
  rewrite (rsum_ext N (fun k => (INR N + Rabs (upper (V M) k k)) * Rabs (vals prec emax (map X (seq 0 N)) k)) (fun k => (INR N + Rabs (upper (V M) k k)) * Rabs (val (X k)))) by (intros; rewrite EX; auto).
  rewrite (rsum_ext N (fun j => Rabs (lower (V M) i j) * rsum N (fun k => Rabs (upper (V M) j k) * Rabs (vals prec emax (map X (seq 0 N)) k))) (fun j => Rabs (lower (V M) i j) * rsum N (fun k => Rabs (upper (V M) j k) * Rabs (val (X k)))));
    [exact Rs|]. intros j Hj. f_equal. apply rsum_ext. intros. rewrite EX; auto.
Qed.
Theorem lu_pivot_solve_accuracy : forall fabs eps (m : mx F) p (x b r : list F), lu_pivot fabs eps m = Ok p -> let N := mrows m in
  (forall i j, (i < N)%nat -> (j < N)%nat -> fin (mel (lp_lu p) i j)) ->
  lu_pivot_solve_to p x b = Ok r \/ lu_pivot_solve p b = Ok r -> (forall z, In z r -> fin z) ->
  length b = N /\ length r = N /\
  forall i, (i < N)%nat -> let row := nth i (lp_order p) 0%nat in
    val (mel (lp_lu p) i i) <> 0 /\ residual_close N (V (mel (lp_lu p))) (vals prec emax r) (vals prec emax b row) (rsum N (fun k => val (mel m row k) * vals prec emax r k)) i.
Proof.
  intros fabs eps m p x b r H N Fm S Fr. pose proof (lu_pivot_accuracy fabs eps m p H) as A. fold N in A.
  assert (S' : exists x, lu_pivot_solve_to p x b = Ok r) by (destruct S as [S|S]; [eauto|unfold lu_pivot_solve in S; eauto]). clear S x. destruct S' as [x S].
  assert (P : mcols (lp_lu p) = N).
  { unfold lu_pivot, require in H. destruct (Nat.eqb_spec (mrows m) (mcols m)); [|discriminate]. cbn [bind] in H. destruct (lu_pivot_inplace _ _ _ _) as [[M ord] s]. injection H as <-. cbn. unfold N. auto. }
  unfold lu_pivot_solve_to, require in S. rewrite P in S. destruct (Nat.eqb _ _); [|discriminate].
  destruct (Nat.eqb_spec N (length b)) as [Lb|]; [|discriminate]. assert (Sg : lp_sign p <> sgn_zero) by (intros Z; rewrite Z in S; discriminate).
  destruct (A Sg Fm) as (_ & _ & A'). clear A. replace (match lp_sign p with sgn_zero => false | _ => true end) with true in S by (destruct (lp_sign p); congruence).
  cbn [bind] in S. injection S as <-. rewrite <- Lb. split; [auto|]. split; [rewrite map_length, seq_length; auto|]. rewrite <- Lb in Fr.
  set (M := mel (lp_lu p)) in *. set (bb := fun i => el b (nth i (lp_order p) 0%nat)) in *. set (X := backward N M (forward N M bb) (el x)) in *.
  assert (Fx : forall i, (i < N)%nat -> fin (X i)) by (intros i Hi; apply Fr, in_map, in_seq; lia).
  assert (EX : forall k, (k < N)%nat -> vals prec emax (map X (seq 0 N)) k = val (X k)).
  { intros k Hk. unfold vals. rewrite (nth_indep _ zero (X 0%nat)), map_nth, seq_nth by (rewrite ?map_length, ?seq_length; auto). auto. }
  intros i Hi. cbv zeta. set (row := nth i (lp_order p) 0%nat) in *.
  destruct (solve_rows N M bb (el x) (fun i j => val (mel m (nth i (lp_order p) 0%nat) j)) Fm Fx ltac:(intros; apply A'; auto) i Hi) as [Nz Rs]. split; auto.
  unfold residual_close, weight in *. fold X in Rs. cbv zeta in *. fold row in Rs. change (val (bb i)) with (vals prec emax b row) in Rs.
  rewrite (rsum_ext N (fun k => val (mel m row k) * vals prec emax (map X (seq 0 N)) k) (fun k => val (mel m row k) * val (X k))) by (intros; rewrite EX; auto).
  rewrite (rsum_ext N (fun k => (INR N + Rabs (upper (V M) k k)) * Rabs (vals prec emax (map X (seq 0 N)) k)) (fun k => (INR N + Rabs (upper (V M) k k)) * Rabs (val (X k)))) by (intros; rewrite EX; auto).
  rewrite (rsum_ext N (fun j => Rabs (lower (V M) i j) * rsum N (fun k => Rabs (upper (V M) j k) * Rabs (vals prec emax (map X (seq 0 N)) k))) (fun j => Rabs (lower (V M) i j) * rsum N (fun k => Rabs (upper (V M) j k) * Rabs (val (X k)))));
    [exact Rs|]. intros j Hj. f_equal. apply rsum_ext. intros. rewrite EX; auto.
Qed.
(** the bound in round numbers *)
Theorem residual_linear : forall N M x b ax i, residual_close N M x b ax i -> INR (N + 1) * u <= / 2 ->
  Rabs (b - ax) <= 8 * (INR (N + 1) * u) * weight N M x i +
    4 * (INR N + rsum N (fun j => Rabs (lower M i j) * (INR N + Rabs (upper M j j))) + rsum N (fun k => (INR N + Rabs (upper M k k)) * Rabs (x k))) * eta.
Proof.
  intros N M x b ax i H Hu. destruct pos_facts as [U Et]. destruct (growth u (N + 1) ltac:(lra) Hu) as [G1 G2]. pose proof (g_1 prec (N + 1)) as G0. unfold FloatLU.g in G0. unfold residual_close in H. cbv zeta in H.
  set (G := (1 + u) ^ (N + 1)) in *. eapply Rle_trans; [exact H|]. pose proof (pos_INR N) as PN.
  assert (W : 0 <= weight N M x i). { apply rsum_nonneg. intros j _. apply Rmult_le_pos; [apply Rabs_pos|]. apply rsum_nonneg. intros k _. apply Rmult_le_pos; apply Rabs_pos. }
  assert (Z : 0 <= rsum N (fun j => Rabs (lower M i j) * (INR N + Rabs (upper M j j)))). { apply rsum_nonneg. intros j _. apply Rmult_le_pos; [apply Rabs_pos|]. pose proof (Rabs_pos (upper M j j)). lra. }
  assert (Y : 0 <= rsum N (fun k => (INR N + Rabs (upper M k k)) * Rabs (x k))). { apply rsum_nonneg. intros j _. apply Rmult_le_pos; [|apply Rabs_pos]. pose proof (Rabs_pos (upper M j j)). lra. }
  set (z := rsum N (fun j => Rabs _ * _)) in *. set (y := rsum N (fun k => _ * Rabs _)) in *. set (w := weight N M x i) in *.
  apply Rplus_le_compat.
  - apply mult_up; auto. assert ((G - 1) * (G + 2) <= (G - 1) * 4) by (apply Rmult_le_compat_l; lra). lra.
  - apply mult_up; [|lra]. assert (G * z <= 2 * z) by (apply mult_up; lra).
    assert (0 <= INR N + G * z + y) by (assert (0 <= G * z) by (apply Rmult_le_pos; lra); lra).
    apply Rle_trans with (2 * (INR N + G * z + y)); [apply mult_up; lra|]. lra.
Qed.
End IEEE.

(** ** Examples in double precision *)
Lemma dbl_val m e : (Z.abs m < 2 ^ 53)%Z -> (-1000 <= e <= 900)%Z -> is_finite (dbl m e) = true /\ B2R (dbl m e) = IZR m * bpow radix2 e.
Proof.
  intros Hm He. pose proof (binary_normalize_correct 53 1024 _ _ mode_NE m e false) as C. cbv zeta in C. assert (Fm : generic_format radix2 (SpecFloat.fexp 53 1024) (F2R (Float radix2 m e))).
  { apply generic_format_FLT. exists (Float radix2 m e); cbn [Fnum Fexp]; auto. unfold SpecFloat.emin. lia. }
  rewrite (round_generic radix2 (SpecFloat.fexp 53 1024) (round_mode mode_NE) _ Fm) in C.
  rewrite Rlt_bool_true in C; [unfold dbl; unfold F2R in C; cbn [Fnum Fexp] in C; tauto|].
  rewrite <- F2R_Zabs. unfold F2R. cbn [Fnum Fexp]. apply Rlt_le_trans with (bpow radix2 53 * bpow radix2 e).
  - apply Rmult_lt_compat_r; [apply bpow_gt_0|]. change (bpow radix2 53) with (IZR (2 ^ 53)). apply IZR_lt. auto.
  - rewrite <- bpow_plus. apply bpow_le. lia.
Qed.
Lemma beqb_val (x y : double) : is_finite x = true -> is_finite y = true -> Beqb x y = true -> B2R x = B2R y.
Proof. intros Fx Fy H. rewrite Beqb_correct in H by auto. apply Req_bool_true_iff in H || (revert H; case Req_bool_spec; congruence). Qed.
Definition dmx (l : list (list double)) : mx double := Mx (length l) (length l) col_basis (fun i j => nth j (nth i l []) (dbl 0 0)).
Example lu_accuracy_case : let m := dmx [[dbl 3 0; dbl 1 0; dbl 7 (-2)]; [dbl 1 0; dbl (-5) 3; dbl 2 0]; [dbl 11 0; dbl 1 (-4); dbl 1 0]] in
  exists m' r, lu m = Ok m' /\ forallb (fun i => forallb (fun j => is_finite (mel m' i j)) (seq 0 3)) (seq 0 3) = true /\
    lu_solve m' [dbl 1 0; dbl 2 0; dbl 3 0] = Ok r /\ forallb is_finite r = true.
Proof. cbv zeta. do 2 eexists. split; [reflexivity|]. split; [vm_compute; reflexivity|]. split; [reflexivity|]. vm_compute. reflexivity. Qed.
Example lu_pivot_accuracy_case : let m := dmx [[dbl 0 0; dbl 1 0; dbl 7 (-2)]; [dbl 1 0; dbl (-5) 3; dbl 2 0]; [dbl 11 0; dbl 1 (-4); dbl 1 0]] in
  exists p r, lu_pivot Babs (dbl 1 (-52)) m = Ok p /\ lp_sign p <> sgn_zero /\ lp_order p = [2; 0; 1]%nat /\ forallb (fun i => forallb (fun j => is_finite (mel (lp_lu p) i j)) (seq 0 3)) (seq 0 3) = true /\
    lu_pivot_solve p [dbl 1 0; dbl 2 0; dbl 3 0] = Ok r /\ forallb is_finite r = true.
Proof.
  cbv zeta. do 2 eexists. split; [reflexivity|]. split; [vm_compute; discriminate|]. split; [vm_compute; reflexivity|]. split; [vm_compute; reflexivity|]. split; [reflexivity|]. vm_compute. reflexivity.
Qed.
(** expected of partial pivoting: a residual of a few units of roundoff times |A||x|.  The pivot search of
    detail/lu.tpp:53 starts from M(k,k) itself instead of its magnitude, so a large negative
    diagonal entry is passed over for a tiny one: here the residual is 2^43 times the roundoff u = 2^-53. *)
Theorem pivoting_stability_refuted : exists (m : mx double) p (b r : list double),
  lu_pivot Babs (dbl 1 (-52)) m = Ok p /\ lu_pivot_solve p b = Ok r /\ mrows m = 2%nat /\
  (forall i j, (i < 2)%nat -> (j < 2)%nat -> is_finite (mel (lp_lu p) i j) = true) /\ (forall z, In z r -> is_finite z = true) /\
  (forall i j, Rabs (B2R (mel m i j)) <= 2) /\ (forall i, Rabs (vals 53 1024 r i) <= 1) /\
  Rabs (vals 53 1024 b 0 - rsum 2 (fun k => B2R (mel m 0 k) * vals 53 1024 r k)) = 2 ^ 43 * u_round 53.
Proof.
  set (m := dmx [[dbl (-1) 0; dbl 1025 (-10)]; [dbl 1 (-50); dbl 1 0]]). set (b := [dbl 1 0; dbl 1 0]).
  assert (C : match lu_pivot Babs (dbl 1 (-52)) m with Ok p => match lu_pivot_solve p b with
    | Ok [r0; r1] => forallb (fun i => forallb (fun j => is_finite (mel (lp_lu p) i j)) (seq 0 2)) (seq 0 2) && (is_finite r0 && is_finite r1 && Beqb r0 (dbl 0 0) && Beqb r1 (dbl 1 0)) | _ => false end | _ => false end = true)
    by (vm_compute; reflexivity).
  destruct (lu_pivot Babs (dbl 1 (-52)) m) as [p|e|] eqn:E; [|discriminate..]. destruct (lu_pivot_solve p b) as [r|e|] eqn:S; [|discriminate..].
  exists m, p, b, r. split; auto. split; auto. split; [reflexivity|]. clear E S.
  destruct r as [|r0 [|r1 [|]]]; try discriminate. apply andb_true_iff in C. destruct C as [P Q]. rewrite !andb_true_iff in Q. destruct Q as [[[F0 F1] Q0] Q1].
  pose proof (fun m e a b => dbl_val m e a b) as D.
  apply beqb_val in Q0; [|auto|apply D; lia]. apply beqb_val in Q1; [|auto|apply D; lia]. rewrite (proj2 (D 0%Z 0%Z ltac:(lia) ltac:(lia))) in Q0. rewrite (proj2 (D 1%Z 0%Z ltac:(lia) ltac:(lia))) in Q1.
  cbn [bpow] in Q0, Q1. rewrite Rmult_1_r in Q0, Q1.
  assert (M0 : B2R (dbl (-1) 0) = -1) by (rewrite (proj2 (D (-1)%Z 0%Z ltac:(lia) ltac:(lia))); cbn [bpow]; lra).
  assert (M1 : B2R (dbl 1025 (-10)) = 1 + / 1024) by (rewrite (proj2 (D 1025%Z (-10)%Z ltac:(lia) ltac:(lia))); cbn; lra).
  assert (M2 : 0 <= B2R (dbl 1 (-50)) <= 1).
  { rewrite (proj2 (D 1%Z (-50)%Z ltac:(lia) ltac:(lia))), Rmult_1_l. split; [apply bpow_ge_0|]. change 1 with (bpow radix2 0). apply bpow_le. lia. }
  assert (M3 : B2R (dbl 1 0) = 1) by (rewrite (proj2 (D 1%Z 0%Z ltac:(lia) ltac:(lia))); cbn [bpow]; lra).
  assert (M4 : B2R (dbl 0 0) = 0) by (rewrite (proj2 (D 0%Z 0%Z ltac:(lia) ltac:(lia))); cbn [bpow]; lra).
  assert (AB : forall x y, - y <= x <= y -> Rabs x <= y) by (intros x y [? ?]; apply Rabs_le; lra).
  split; [|split; [|split; [|split]]].
  - rewrite forallb_forall in P. intros i j Hi Hj. specialize (P i ltac:(apply in_seq; lia)). rewrite forallb_forall in P. apply P, in_seq. lia.
  - intros z [<-|[<-|[]]]; auto.
  - intros i j. cbn [m dmx mel]. destruct i as [|[|[|i]]]; destruct j as [|[|[|j]]]; cbn [nth]; apply AB; lra.
  - intros i. unfold vals. destruct i as [|[|[|i]]]; cbn [nth]; apply AB; rewrite ?Q0, ?Q1; cbn; lra.
  - unfold vals, b. cbn [rsum nth m dmx mel]. rewrite Q0, Q1, M0, M1, M3. replace (1 - (0 + -1 * 0 + (1 + / 1024) * 1)) with (- / 1024) by lra.
    rewrite Rabs_Ropp, Rabs_pos_eq by lra. destruct roundoff_values as (-> & _). lra.
Qed.
Print Assumptions lu_accuracy.
Print Assumptions lu_pivot_accuracy.
Print Assumptions lu_solve_accuracy.
Print Assumptions lu_pivot_solve_accuracy.
Print Assumptions residual_linear.
Print Assumptions pivoting_stability_refuted.
