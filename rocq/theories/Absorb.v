(** Values that survive every operation they enter: not-a-number, non-finite numbers,
    the undefined outcome of integer arithmetic. *)
From Coq Require Import List Arith Lia.
From Verif Require Import Base RotModel QuatModel MatModel VecModel LUModel ExactLU Formula.
Import ListNotations.

(** [bad] survives + - * and negation, and division as the dividend *)
Record absorbing {T : Type} {Op : Ops T} (bad : T -> Prop) : Prop := Absorbing {
  ab_add : forall x y, bad x \/ bad y -> bad (add x y);
  ab_sub : forall x y, bad x \/ bad y -> bad (sub x y);
  ab_mul : forall x y, bad x \/ bad y -> bad (mul x y);
  ab_neg : forall x, bad x -> bad (neg x);
  ab_div : forall x y, bad x -> bad (div x y) }.
(** ... and as the divisor *)
Definition absorbing_divisor {T : Type} {Op : Ops T} (bad : T -> Prop) : Prop := forall x y, bad y -> bad (div x y).

Section Absorb.
Context {T : Type} {Op : Ops T} (bad : T -> Prop) (AB : absorbing bad).

(** variables that are not part of a divisor *)
Fixpoint carried (e : formula) (k : nat) : bool :=
  match e with
  | FVar j => Nat.eqb k j
  | FZero | FOne => false
  | FAdd a b | FSub a b | FMul a b => carried a k || carried b k
  | FNeg a => carried a k
  | FOther a _ => carried a k
  end.
Lemma formula_bad (rho : nat -> T) e k : carried e k = true -> bad (rho k) -> bad (feval rho e).
Proof using AB.
  intros C B. induction e; cbn in C |- *; try discriminate.
  - apply Nat.eqb_eq in C. subst. exact B.
  - apply Bool.orb_true_iff in C. apply (ab_add _ AB). tauto.
  - apply Bool.orb_true_iff in C. apply (ab_sub _ AB). tauto.
  - apply Bool.orb_true_iff in C. apply (ab_mul _ AB). tauto.
  - apply (ab_neg _ AB). tauto.
  - apply (ab_div _ AB). tauto.
Qed.
Lemma accumulate_bad n x k : (k < n)%nat -> bad (x k) -> bad (accumulate n x).
Proof using AB.
  intros Hk B. destruct n as [|n]; [lia|]. induction n as [|n IH].
  - replace k with 0%nat in B by lia. exact B.
  - assert (E : accumulate (S (S n)) x = add (accumulate (S n) x) (x (S n))).
    { unfold accumulate. replace (S (S n) - 1)%nat with (S n) by lia. replace (S n - 1)%nat with n by lia. rewrite seq_S, fold_left_app. reflexivity. }
    rewrite E. apply (ab_add _ AB). destruct (Nat.eq_dec k (S n)) as [->|]; [right; exact B|left; apply IH; lia].
Qed.
Lemma products_bad n a b k : (k < n)%nat -> bad (a k) \/ bad (b k) -> bad (accumulate n (fun i => mul (a i) (b i))).
Proof using AB. intros Hk B. apply (accumulate_bad n _ k Hk). apply (ab_mul _ AB). exact B. Qed.

Lemma up_keep {X : Type} (P : X -> Prop) lo hi f s : P s -> (forall k t, (lo <= k < hi)%nat -> P t -> P (f k t)) -> P (for_upto lo hi f s).
Proof.
  intros H0 H. destruct (le_lt_dec lo hi) as [L|L]; [apply (up_inv (fun _ => P)); auto|].
  unfold for_upto. replace (hi - lo)%nat with 0%nat by lia. exact H0.
Qed.

(** ** LU decomposition *)
Notation grid := (nat -> nat -> T).
Lemma upd_same (M : grid) i j x : upd M i j x i j = x.
Proof. unfold upd. rewrite !Nat.eqb_refl. reflexivity. Qed.
Lemma upd_bad (M : grid) i j x a b : bad (M a b) -> (a = i -> b = j -> bad x) -> bad (upd M i j x a b).
Proof. intros B H. unfold upd. destruct (Nat.eqb_spec a i), (Nat.eqb_spec b j); cbn [andb]; auto. Qed.
(** without pivoting: every bad element stays where it is *)
Lemma lu_bad N (M : grid) a b : bad (M a b) -> bad (lu_inplace N M a b).
Proof using AB.
  intros B. unfold lu_inplace. apply (up_inv (fun _ (M : grid) => bad (M a b))); [lia|exact B|].
  intros k A Hk HA.
  assert (R1 : bad (for_upto k N (fun j M => upd M k j (sub (M k j) (sum_prod 0 k (fun p => M k p) (fun p => M p j)))) A a b)).
  { apply (up_inv (fun _ (M : grid) => bad (M a b))); [lia|exact HA|]. intros j C Hj HC. apply upd_bad; auto. intros -> ->. apply (ab_sub _ AB). auto. }
  apply up_keep; [exact R1|]. intros i C Hi HC. apply upd_bad; auto. intros -> ->. apply (ab_div _ AB), (ab_sub _ AB). auto.
Qed.
Lemma put_same (y : nat -> T) i x : put y i x i = x.
Proof. unfold put. rewrite Nat.eqb_refl. reflexivity. Qed.
Lemma put_other (y : nat -> T) i j x : j <> i -> put y i x j = y j.
Proof. intros H. unfold put. rewrite (proj2 (Nat.eqb_neq j i)); auto. Qed.
Lemma sum_bad lo hi f g k : (lo <= k < hi)%nat -> bad (f k) \/ bad (g k) -> bad (sum_prod lo hi f g).
Proof using AB.
  intros Hk B. unfold sum_prod.
  assert (Q : (fun i s => (k < i)%nat -> bad s) hi (for_upto lo hi (fun p s => add s (mul (f p) (g p))) zero)).
  { apply (up_inv (fun i s => (k < i)%nat -> bad s)); [lia|intros; lia|]. intros p s Hp IH H. apply (ab_add _ AB).
    destruct (Nat.eq_dec p k) as [->|]; [right; apply (ab_mul _ AB); exact B|left; apply IH; lia]. }
  apply Q. lia.
Qed.
(** the solution: bad right-hand sides and bad elements of the decomposition *)
Lemma forward_bad N (LU : grid) b i : (i < N)%nat -> bad (b i) \/ (exists j, (j < i)%nat /\ bad (LU i j)) -> bad (forward N LU b i).
Proof using AB.
  intros Hi B. unfold forward.
  pose (P := fun n (y : nat -> T) => (i < n)%nat -> bad (y i)).
  assert (Q : P N (for_upto 0 N (fun i y => put y i (sub (b i) (sum_prod 0 i (fun j => LU i j) y))) (fun _ => zero))).
  { apply (up_inv P); [lia|intros ?; lia|]. intros k y Hk IH H. destruct (Nat.eq_dec k i) as [->|Hn].
    - rewrite put_same. apply (ab_sub _ AB). destruct B as [B|(j & Hj & B)]; [left; exact B|right; apply (sum_bad 0 i _ _ j); [lia|left; exact B]].
    - rewrite put_other by auto. apply IH. lia. }
  apply Q. exact Hi.
Qed.
Lemma backward_bad N (LU : grid) y x i : (i < N)%nat -> bad (y i) \/ (exists j, (i < j < N)%nat /\ bad (LU i j)) \/ (absorbing_divisor bad /\ bad (LU i i)) ->
  bad (backward N LU y x i).
Proof using AB.
  intros Hi B. unfold backward.
  pose (P := fun n (x : nat -> T) => (n <= i)%nat -> bad (x i)).
  match goal with |- bad (for_downto 0 N ?f x i) => assert (Q : P 0%nat (for_downto 0 N f x)) end.
  { apply (down_inv P); [lia|intros ?; lia|]. intros k z Hk IH H. destruct (Nat.eq_dec k i) as [->|Hn].
    - rewrite put_same. destruct B as [B|[(j & Hj & B)|[D B]]]; [apply (ab_div _ AB), (ab_sub _ AB); auto| |apply D; exact B].
      apply (ab_div _ AB), (ab_sub _ AB). right. apply (sum_bad (i + 1) N _ _ j); [lia|left; exact B].
    - rewrite put_other by auto. apply IH. lia. }
  apply Q. lia.
Qed.

(** pivoted: a bad element reaches the diagonal *)
Context (fabs : T -> T) (eps : T).
Definition reaches (N k : nat) (A : grid) : Prop :=
  (exists d, (d < k)%nat /\ (d < N)%nat /\ bad (A d d)) \/ (exists i j, (k <= i < N)%nat /\ (k <= j < N)%nat /\ bad (A i j)).
Lemma find_pivot_range N k (M : grid) : (k < N)%nat -> (k <= snd (find_pivot fabs N k M) < N)%nat.
Proof.
  intros Hk. unfold find_pivot. apply (up_keep (fun s : T * nat => (k <= snd s < N)%nat)); [cbn; lia|].
  intros i [mx r] Hi H. destruct (ltb mx (fabs (M i k))); cbn in *; lia.
Qed.
Lemma swap_reaches N k r (A : grid) : (k <= r < N)%nat -> reaches N k A -> reaches N k (swap_rows N k r A).
Proof.
  intros Hr [(d & Hd & HN & B)|(i & j & Hi & Hj & B)].
  - left. exists d. repeat split; auto. rewrite swap_rowsE by lia. destruct (Nat.eqb_spec d r); [lia|]. destruct (Nat.eqb_spec d k); [lia|exact B].
  - right. destruct (Nat.eq_dec i k) as [->|]; [|destruct (Nat.eq_dec i r) as [->|]].
    + exists r, j. repeat split; try lia. rewrite swap_rowsE by lia. rewrite Nat.eqb_refl. exact B.
    + exists k, j. repeat split; try lia. rewrite swap_rowsE by lia. destruct (Nat.eqb_spec k r); [congruence|]. rewrite Nat.eqb_refl. exact B.
    + exists i, j. repeat split; try lia. rewrite swap_rowsE by lia. destruct (Nat.eqb_spec i r); [lia|]. destruct (Nat.eqb_spec i k); [lia|exact B].
Qed.
Lemma schur_reaches N k (A : grid) : (k + 1 < N)%nat -> reaches N k A -> reaches N (k + 1) (schur N k A).
Proof using AB.
  intros Hk [(d & Hd & HN & B)|(i & j & Hi & Hj & B)].
  - left. exists d. repeat split; try lia. rewrite schurE by lia. destruct (Nat.ltb_spec k d); [lia|]. exact B.
  - destruct (Nat.eq_dec i k) as [->|Ni]; destruct (Nat.eq_dec j k) as [->|Nj].
    + left. exists k. repeat split; try lia. rewrite schurE by lia. destruct (Nat.ltb_spec k k); [lia|]. exact B.
    + right. exists (k + 1)%nat, j. repeat split; try lia. rewrite schurE by lia.
      destruct (Nat.ltb_spec k (k + 1)); [|lia]. destruct (Nat.ltb_spec (k + 1) N); [|lia]. destruct (Nat.eqb_spec j k); [lia|].
      destruct (Nat.ltb_spec k j); [|lia]. destruct (Nat.ltb_spec j N); [|lia]. cbn [andb]. apply (ab_sub _ AB). right. apply (ab_mul _ AB). right. exact B.
    + right. exists i, (k + 1)%nat. repeat split; try lia. rewrite schurE by lia.
      destruct (Nat.ltb_spec k i); [|lia]. destruct (Nat.ltb_spec i N); [|lia]. destruct (Nat.eqb_spec (k + 1) k); [lia|].
      destruct (Nat.ltb_spec k (k + 1)); [|lia]. destruct (Nat.ltb_spec (k + 1) N); [|lia]. cbn [andb]. apply (ab_sub _ AB). right. apply (ab_mul _ AB). left. apply (ab_div _ AB). exact B.
    + right. exists i, j. repeat split; try lia. rewrite schurE by lia.
      destruct (Nat.ltb_spec k i); [|lia]. destruct (Nat.ltb_spec i N); [|lia]. destruct (Nat.eqb_spec j k); [lia|].
      destruct (Nat.ltb_spec k j); [|lia]. destruct (Nat.ltb_spec j N); [|lia]. cbn [andb]. apply (ab_sub _ AB). left. exact B.
Qed.
Lemma pivot_diagonal N (M A : grid) o s i j : (i < N)%nat -> (j < N)%nat -> bad (M i j) -> lu_pivot_inplace fabs eps N M = (A, o, s) -> s <> sgn_zero ->
  exists d, (d < N)%nat /\ bad (A d d).
Proof using AB.
  intros Hi Hj B E Sg. unfold lu_pivot_inplace in E. set (o0 := for_upto 0 N _ _) in E. clearbody o0.
  pose (P := fun k (s : lu_state (T := T)) => ls_stop s = true \/ reaches N k (ls_m s)).
  assert (Q : P (N - 1)%nat (for_upto 0 (N - 1) (lu_pivot_step fabs eps N) (LUS M o0 false false))).
  { apply (up_inv P); [lia|right; right; exists i, j; repeat split; auto; lia|]. intros k st Hk HP. unfold lu_pivot_step. destruct (ls_stop st) eqn:St; [left; exact St|].
    destruct HP as [HP|HP]; [congruence|]. pose proof (find_pivot_range N k (ls_m st) ltac:(lia)) as W.
    destruct (find_pivot fabs N k (ls_m st)) as [mx r]. cbn [snd] in W. destruct (ltb mx eps); [left; reflexivity|]. right. cbn [ls_m].
    apply schur_reaches; [lia|]. destruct (negb (Nat.eqb r k)); [|exact HP]. apply swap_reaches; auto. }
  set (st := for_upto 0 (N - 1) _ _) in *. clearbody st. injection E as E1 _ E3. destruct Q as [Q|Q]; [rewrite Q in E3; congruence|].
  rewrite E1 in Q. destruct Q as [(d & _ & Hd & Q)|(x & y & Hx & Hy & Q)]; [exists d; auto|].
  exists (N - 1)%nat. split; [lia|]. replace x with (N - 1)%nat in Q by lia. replace y with (N - 1)%nat in Q by lia. exact Q.
Qed.
Lemma diagonal_bad N (A : grid) d : (d < N)%nat -> bad (A d d) -> bad (diagonal_product N A).
Proof using AB.
  intros Hd B. unfold diagonal_product. pose (P := fun i (D : T) => (d < i)%nat -> bad D).
  match goal with |- bad (for_upto 1 N ?f ?s) => assert (Q : P N (for_upto 1 N f s)) end.
  { apply (up_inv P); [lia|intros ?; replace d with 0%nat in B by lia; exact B|]. intros k D Hk IH H. apply (ab_mul _ AB).
    destruct (Nat.eq_dec k d) as [->|]; [right; exact B|left; apply IH; lia]. }
  apply Q. exact Hd.
Qed.
Lemma detN_bad N (M : grid) i j : (i < N)%nat -> (j < N)%nat -> bad (M i j) -> snd (lu_pivot_inplace fabs eps N M) <> sgn_zero -> bad (detN fabs eps N M).
Proof using AB.
  intros Hi Hj B Sg. unfold detN. destruct (lu_pivot_inplace fabs eps N M) as [[A o] s] eqn:E. cbn [snd] in Sg.
  destruct (pivot_diagonal N M A o s i j Hi Hj B E Sg) as (d & Hd & D). pose proof (diagonal_bad N A d Hd D) as X.
  unfold times_sign. destruct s; apply (ab_mul _ AB); right; exact X.
Qed.

(** ** Gauss-Jordan elimination *)
Lemma eliminate_pivot_row N c (M : grid) k : (k < N)%nat ->
  eliminate N c M c k = mul (if Nat.eqb k c then one else M c k) (div one (M c c)).
Proof.
  intros Hk. unfold eliminate. set (s := div one (M c c)). set (M0 := upd M c c one).
  assert (E0 : M0 c k = if Nat.eqb k c then one else M c k) by (unfold M0, upd; rewrite Nat.eqb_refl; reflexivity).
  rewrite <- E0. clear E0. clearbody M0 s.
  set (M1 := for_upto 0 N (fun j M => upd M c j (mul (M c j) s)) M0).
  assert (E1 : M1 c k = mul (M0 c k) s).
  { pose (P := fun i (M' : grid) => (forall k, (k < i)%nat -> M' c k = mul (M0 c k) s) /\ (forall k, (i <= k)%nat -> M' c k = M0 c k)).
    assert (Q : P N M1).
    { unfold M1. apply (up_inv P); [lia|split; [intros; lia|auto]|]. intros i M' Hi [A B]. unfold P, upd. rewrite Nat.eqb_refl. cbn [andb]. split; intros j Hj.
      - destruct (Nat.eqb_spec j i) as [->|Hn]; [rewrite (B i); auto|apply A; lia].
      - destruct (Nat.eqb_spec j i); [lia|]. apply B. lia. }
    apply Q. exact Hk. }
  rewrite <- E1. clearbody M1.
  apply (up_keep (fun M' : grid => M' c k = M1 c k)); [reflexivity|].
  intros j M' Hj IH. destruct (Nat.eqb_spec j c) as [->|Hn]; [exact IH|].
  assert (U : forall (A : grid) a b x, a <> c -> upd A a b x c k = A c k).
  { intros A a b x Ha. unfold upd. rewrite (proj2 (Nat.eqb_neq c a)) by auto. reflexivity. }
  apply (up_keep (fun A : grid => A c k = M1 c k)); [rewrite U by auto; exact IH|].
  intros i A _ HA. rewrite U by auto. exact HA.
Qed.
Lemma eliminate_bad N c (M : grid) i j : absorbing_divisor bad -> (c < N)%nat -> (i < N)%nat -> (j < N)%nat -> bad (M i j) ->
  exists j', (j' < N)%nat /\ bad (eliminate N c M i j').
Proof using AB.
  intros AD Hc Hi Hj B. destruct (Nat.eq_dec i c) as [->|Ni].
  - destruct (Nat.eq_dec j c) as [->|Nj].
    + exists c. split; auto. rewrite eliminate_pivot_row by auto. apply (ab_mul _ AB). right. apply AD. exact B.
    + exists j. split; auto. rewrite eliminate_pivot_row by auto. rewrite (proj2 (Nat.eqb_neq j c)) by auto. apply (ab_mul _ AB). left. exact B.
  - exists j. split; auto. unfold eliminate. set (s := div one (M c c)).
    set (M1 := for_upto 0 N (fun j M => upd M c j (mul (M c j) s)) (upd M c c one)).
    assert (B1 : bad (M1 i j)).
    { apply (up_keep (fun A : grid => bad (A i j))); [|intros k A _ HA]; apply upd_bad; auto; intros E _; congruence. }
    clearbody M1.
    apply (up_keep (fun A : grid => bad (A i j))); [exact B1|]. intros r A Hr HA. destruct (Nat.eqb_spec r c) as [->|Nr]; [exact HA|].
    destruct (Nat.eq_dec r i) as [->|Nri].
    + destruct (Nat.eq_dec j c) as [->|Nj].
      * assert (Bm : bad (neg (A i c))) by (apply (ab_neg _ AB); exact HA). set (mult := neg (A i c)) in *. clearbody mult.
        pose (P := fun n (X : grid) => (c < n)%nat -> bad (X i c)).
        match goal with |- bad (for_upto 0 N ?f ?s0 i c) => assert (Q : P N (for_upto 0 N f s0)) end.
        { apply (up_inv P); [lia|intros ?; lia|]. intros k X Hk IH H. destruct (Nat.eq_dec k c) as [->|Nk].
          - rewrite upd_same. apply (ab_add _ AB). right. apply (ab_mul _ AB). left. exact Bm.
          - apply upd_bad; [apply IH; lia|]. intros _ E. congruence. }
        apply Q. exact Hc.
      * apply (up_keep (fun X : grid => bad (X i j))); [apply upd_bad; auto; intros _ E; congruence|].
        intros k X Hk HX. apply upd_bad; auto. intros _ ->. apply (ab_add _ AB). left. exact HX.
    + apply (up_keep (fun X : grid => bad (X i j))); [|intros k X _ HX]; apply upd_bad; auto; intros E _; congruence.
Qed.
Definition has_bad (N : nat) (A : grid) : Prop := exists i j, (i < N)%nat /\ (j < N)%nat /\ bad (A i j).
Lemma swap_rows_bad N r s (A : grid) : (r < N)%nat -> (s < N)%nat -> has_bad N A -> has_bad N (swap_rows N r s A).
Proof.
  intros Hr Hs (i & j & Hi & Hj & B). destruct (Nat.eq_dec i r) as [->|]; [|destruct (Nat.eq_dec i s) as [->|]].
  - exists s, j. repeat split; auto. rewrite swap_rowsE, Nat.eqb_refl by auto. exact B.
  - exists r, j. repeat split; auto. rewrite swap_rowsE by auto. destruct (Nat.eqb_spec r s); [congruence|]. rewrite Nat.eqb_refl. exact B.
  - exists i, j. repeat split; auto. rewrite swap_rowsE by auto. rewrite (proj2 (Nat.eqb_neq i s)), (proj2 (Nat.eqb_neq i r)) by auto. exact B.
Qed.
Lemma swap_cols_transpose N r s (A : grid) i j : swap_cols N r s A i j = swap_rows N r s (fun a b => A b a) j i.
Proof.
  unfold swap_cols, swap_rows. unfold for_upto. generalize (seq 0 (N - 0)) as l. intros l.
  assert (G : forall l (X Y : grid), (forall a b, X a b = Y b a) -> forall a b,
    fold_left (fun (M : grid) j => upd (upd M j r (M j s)) j s (M j r)) l X a b = fold_left (fun (M : grid) i => upd (upd M r i (M s i)) s i (M r i)) l Y b a).
  { clear. induction l as [|k l IH]; intros X Y H a b; cbn [fold_left]; auto. apply IH. intros u v. unfold upd. rewrite !H.
    rewrite (Bool.andb_comm (Nat.eqb u k) (Nat.eqb v s)), (Bool.andb_comm (Nat.eqb u k) (Nat.eqb v r)). reflexivity. }
  apply G. reflexivity.
Qed.
Lemma swap_cols_bad N r s (A : grid) : (r < N)%nat -> (s < N)%nat -> has_bad N A -> has_bad N (swap_cols N r s A).
Proof.
  intros Hr Hs (i & j & Hi & Hj & B).
  destruct (swap_rows_bad N r s (fun a b => A b a) Hr Hs) as (x & y & Hx & Hy & C); [exists j, i; auto|].
  exists y, x. repeat split; auto. rewrite swap_cols_transpose. exact C.
Qed.
Lemma inverse_pivot_bad N (M : grid) : absorbing_divisor bad -> has_bad N M -> has_bad N (inverse_pivot fabs N M).
Proof using AB.
  intros AD HB. assert (HN : (0 < N)%nat) by (destruct HB as (i & _ & Hi & _); lia).
  unfold inverse_pivot.
  pose (P := fun s : inv_state (T := T) => has_bad N (is_m s) /\ forall k, (is_rows s k < N)%nat /\ (is_cols s k < N)%nat).
  assert (HP : P (inverse_loop fabs N M)).
  { unfold inverse_loop. apply (up_keep P); [split; auto|]. intros i s Hi [S1 S2]. unfold inverse_step.
    assert (W : let '(_, r, k) := find_full_pivot fabs N (is_m s) (is_piv s) in (r < N)%nat /\ (k < N)%nat).
    { unfold find_full_pivot. apply (up_keep (fun s : T * nat * nat => let '(_, r, k) := s in (r < N)%nat /\ (k < N)%nat)); [auto|].
      intros j p Hj Hp. destruct (is_piv s j); [exact Hp|].
      apply (up_keep (fun s : T * nat * nat => let '(_, r, k) := s in (r < N)%nat /\ (k < N)%nat)); [exact Hp|].
      intros k [[q r] c] Hk H. destruct (is_piv s k); [exact H|]. destruct (ltb q _); [|exact H]. split; lia. }
    destruct (find_full_pivot fabs N (is_m s) (is_piv s)) as [[p r] c]. destruct W as [Hr Hc]. split; cbn [is_m is_rows is_cols].
    - assert (S3 : has_bad N (if Nat.eqb r c then is_m s else swap_rows N r c (is_m s))) by (destruct (Nat.eqb r c); [exact S1|apply swap_rows_bad; auto]).
      destruct S3 as (a & b & Ha & Hb & B). destruct (eliminate_bad N c _ a b AD Hc Ha Hb B) as (b' & Hb' & B'). exists a, b'. auto.
    - intros k. unfold put. destruct (Nat.eqb k i); auto. }
  destruct (inverse_loop fabs N M) as [A rows cols piv]. destruct HP as [S1 S2]. cbn [is_m is_rows is_cols] in *.
  apply (up_keep (fun X => has_bad N X)); [exact S1|]. intros i X Hi HX. destruct (Nat.eqb (rows i) (cols i)); auto. apply swap_cols_bad; auto; apply S2.
Qed.

(** every variable, divisors included *)
Fixpoint mentioned (e : formula) (k : nat) : bool :=
  match e with
  | FVar j => Nat.eqb k j
  | FZero | FOne => false
  | FAdd a b | FSub a b | FMul a b | FOther a b => mentioned a k || mentioned b k
  | FNeg a => mentioned a k
  end.
Lemma formula_bad_all (rho : nat -> T) e k : absorbing_divisor bad -> mentioned e k = true -> bad (rho k) -> bad (feval rho e).
Proof using AB.
  clear fabs eps. intros AD C B. induction e; cbn in C |- *; try discriminate.
  - apply Nat.eqb_eq in C. subst. exact B.
  - apply Bool.orb_true_iff in C. apply (ab_add _ AB). tauto.
  - apply Bool.orb_true_iff in C. apply (ab_sub _ AB). tauto.
  - apply Bool.orb_true_iff in C. apply (ab_mul _ AB). tauto.
  - apply (ab_neg _ AB). tauto.
  - apply Bool.orb_true_iff in C. destruct C as [C|C]; [apply (ab_div _ AB)|apply AD]; tauto.
Qed.

(** ** The closed forms of size 2 to 4 *)
Definition fgrid (n : nat) : nat -> nat -> formula := fun i j => FVar (i * n + j).
Definition env (n : nat) (M : nat -> nat -> T) (q : nat) : T := M (q / n)%nat (q mod n)%nat.
Lemma env_at n (M : nat -> nat -> T) i j : (j < n)%nat -> env n M (i * n + j) = M i j.
Proof. intros H. unfold env. rewrite Nat.div_add_l, Nat.div_small, Nat.add_0_r by lia. rewrite Nat.add_comm, Nat.mod_add, Nat.mod_small by lia. reflexivity. Qed.
Ltac entry4 a := destruct a as [|[|[|[|a]]]]; try lia.
Lemma det2_eval M : det2 M = feval (env 2 M) (det2 (fgrid 2)). Proof. reflexivity. Qed.
Lemma det3_eval M : det3 M = feval (env 3 M) (det3 (fgrid 3)). Proof. reflexivity. Qed.
Lemma det4_eval M : det4 M = feval (env 4 M) (det4 (fgrid 4)). Proof. reflexivity. Qed.
Lemma inv2_eval M a b : (a < 2)%nat -> (b < 2)%nat -> inv2 M a b = feval (env 2 M) (inv2 (fgrid 2) a b).
Proof. intros Ha Hb. entry4 a; entry4 b; reflexivity. Qed.
Lemma inv3_eval M a b : (a < 3)%nat -> (b < 3)%nat -> inv3 M a b = feval (env 3 M) (inv3 (fgrid 3) a b).
Proof. intros Ha Hb. entry4 a; entry4 b; reflexivity. Qed.
Lemma inv4_eval M a b : (a < 4)%nat -> (b < 4)%nat -> inv4 M a b = feval (env 4 M) (inv4 (fgrid 4) a b).
Proof. intros Ha Hb. entry4 a; entry4 b; reflexivity. Qed.
Definition looks_at (n : nat) (e : formula) (skip_row skip_col : nat) : Prop :=
  forall i j, (i < n)%nat -> (j < n)%nat -> i <> skip_row -> j <> skip_col -> carried e (i * n + j) = true.
Definition mentions (n : nat) (e : formula) : Prop := forall i j, (i < n)%nat -> (j < n)%nat -> mentioned e (i * n + j) = true.
Lemma det2_reads : looks_at 2 (det2 (fgrid 2)) 2 2. Proof. intros i j Hi Hj _ _. entry4 i; entry4 j; vm_compute; reflexivity. Qed.
Lemma det3_reads : looks_at 3 (det3 (fgrid 3)) 3 3. Proof. intros i j Hi Hj _ _. entry4 i; entry4 j; vm_compute; reflexivity. Qed.
Lemma det4_reads : looks_at 4 (det4 (fgrid 4)) 4 4. Proof. intros i j Hi Hj _ _. entry4 i; entry4 j; vm_compute; reflexivity. Qed.
Lemma inv2_reads a b : (a < 2)%nat -> (b < 2)%nat -> looks_at 2 (inv2 (fgrid 2) a b) b a /\ mentions 2 (inv2 (fgrid 2) a b).
Proof. intros Ha Hb. split; intros i j Hi Hj; [intros Ni Nj|]; entry4 a; entry4 b; entry4 i; entry4 j; vm_compute; reflexivity. Qed.
Lemma inv3_reads a b : (a < 3)%nat -> (b < 3)%nat -> looks_at 3 (inv3 (fgrid 3) a b) b a /\ mentions 3 (inv3 (fgrid 3) a b).
Proof. intros Ha Hb. split; intros i j Hi Hj; [intros Ni Nj|]; entry4 a; entry4 b; entry4 i; entry4 j; vm_compute; reflexivity. Qed.
Lemma inv4_reads a b : (a < 4)%nat -> (b < 4)%nat -> looks_at 4 (inv4 (fgrid 4) a b) b a /\ mentions 4 (inv4 (fgrid 4) a b).
Proof. intros Ha Hb. split; intros i j Hi Hj; [intros Ni Nj|]; entry4 a; entry4 b; entry4 i; entry4 j; vm_compute; reflexivity. Qed.
Lemma env_bad n (M : nat -> nat -> T) i j e r c : looks_at n e r c -> (i < n)%nat -> (j < n)%nat -> i <> r -> j <> c -> bad (M i j) -> bad (feval (env n M) e).
Proof using AB. intros R Hi Hj Ni Nj B. apply (formula_bad _ e (i * n + j)); [apply R; assumption|]. rewrite env_at by exact Hj. exact B. Qed.
Lemma env_bad_all n (M : nat -> nat -> T) i j e : absorbing_divisor bad -> mentions n e -> (i < n)%nat -> (j < n)%nat -> bad (M i j) -> bad (feval (env n M) e).
Proof using AB. intros AD R Hi Hj B. apply (formula_bad_all _ e (i * n + j)); [exact AD|apply R; assumption|]. rewrite env_at by exact Hj. exact B. Qed.
(** the determinant of any size *)
Lemma det_bad n (M : nat -> nat -> T) i j : (i < n)%nat -> (j < n)%nat -> bad (M i j) -> (2 <= n <= 4)%nat \/ snd (lu_pivot_inplace fabs eps n M) <> sgn_zero ->
  bad (match n with 2 => det2 M | 3 => det3 M | 4 => det4 M | _ => detN fabs eps n M end).
Proof using AB.
  intros Hi Hj B Sg. destruct n as [|[|[|[|[|n]]]]]; [lia| | | | |].
  - destruct Sg as [Sg|Sg]; [lia|]. apply (detN_bad 1 M i j); assumption.
  - rewrite det2_eval. apply (env_bad 2 M i j _ 2 2 det2_reads); auto; lia.
  - rewrite det3_eval. apply (env_bad 3 M i j _ 3 3 det3_reads); auto; lia.
  - rewrite det4_eval. apply (env_bad 4 M i j _ 4 4 det4_reads); auto; lia.
  - destruct Sg as [Sg|Sg]; [lia|]. apply (detN_bad (S (S (S (S (S n))))) M i j); assumption.
Qed.
Lemma inv_bad n (M : nat -> nat -> T) i j : (2 <= n <= 4)%nat -> (i < n)%nat -> (j < n)%nat -> bad (M i j) -> forall a b, (a < n)%nat -> (b < n)%nat ->
  (a <> j /\ b <> i) \/ absorbing_divisor bad -> bad (match n with 2 => inv2 M | 3 => inv3 M | 4 => inv4 M | _ => inverse_pivot fabs n M end a b).
Proof using AB.
  intros Hn Hi Hj B a b Ha Hb X. destruct n as [|[|[|[|[|n]]]]]; try lia.
  - rewrite inv2_eval by auto. destruct X as [[Na Nb]|AD]; [apply (env_bad 2 M i j _ b a (proj1 (inv2_reads a b Ha Hb)))|apply (env_bad_all 2 M i j _ AD (proj2 (inv2_reads a b Ha Hb)))]; auto.
  - rewrite inv3_eval by auto. destruct X as [[Na Nb]|AD]; [apply (env_bad 3 M i j _ b a (proj1 (inv3_reads a b Ha Hb)))|apply (env_bad_all 3 M i j _ AD (proj2 (inv3_reads a b Ha Hb)))]; auto.
  - rewrite inv4_eval by auto. destruct X as [[Na Nb]|AD]; [apply (env_bad 4 M i j _ b a (proj1 (inv4_reads a b Ha Hb)))|apply (env_bad_all 4 M i j _ AD (proj2 (inv4_reads a b Ha Hb)))]; auto.
Qed.
Lemma determinant_value (m : mx T) d : determinant fabs eps m = Ok d ->
  d = match mrows m with 2 => det2 (mel m) | 3 => det3 (mel m) | 4 => det4 (mel m) | _ => detN fabs eps (mrows m) (mel m) end.
Proof.
  unfold determinant, require. destruct (Nat.eqb _ _); [|discriminate]. destruct (mrows m) as [|[|[|[|[|n]]]]]; cbn [bind]; intros E; try discriminate; injection E as <-; reflexivity.
Qed.
Lemma inverse_value (m r : mx T) : matrix_inverse fabs m = Ok r ->
  mel r = match mrows m with 2 => inv2 (mel m) | 3 => inv3 (mel m) | 4 => inv4 (mel m) | _ => inverse_pivot fabs (mrows m) (mel m) end.
Proof. unfold matrix_inverse, require. destruct (Nat.eqb _ _); [|discriminate]. cbn [bind]. intros E. injection E as <-. cbn [mel]. destruct (mrows m) as [|[|[|[|[|n]]]]]; reflexivity. Qed.
Lemma large_inverse_value (m r : mx T) : matrix_inverse fabs m = Ok r -> (mrows m < 2 \/ 4 < mrows m)%nat -> mel r = inverse_pivot fabs (mrows m) (mel m).
Proof. intros E H. rewrite (inverse_value m r E). destruct (mrows m) as [|[|[|[|[|n]]]]]; try lia; reflexivity. Qed.
End Absorb.
