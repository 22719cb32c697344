(** What the LU loops compute, with no law of arithmetic: every entry of the result is
    one fixed expression of entries computed before. *)
From Coq Require Import List Bool Arith Lia.
From Verif Require Import Base RotModel LUModel.
Import ListNotations.
Open Scope nat_scope.

Lemma up_inv {X : Type} (P : nat -> X -> Prop) lo hi f s : lo <= hi -> P lo s -> (forall k t, lo <= k < hi -> P k t -> P (k + 1) (f k t)) -> P hi (for_upto lo hi f s).
Proof.
  intros H. unfold for_upto. remember (hi - lo) as n eqn:En. revert lo s H En. induction n as [|n IH]; intros lo s H En P0 St; cbn [seq fold_left].
  - replace hi with lo by lia. auto.
  - apply IH; [lia|lia| |].
    + replace (S lo) with (lo + 1) by lia. apply St; [lia|auto].
    + intros k t Hk. apply St. lia.
Qed.
Lemma down_inv {X : Type} (P : nat -> X -> Prop) lo hi f s : lo <= hi -> P hi s -> (forall k t, lo <= k < hi -> P (k + 1) t -> P k (f k t)) -> P lo (for_downto lo hi f s).
Proof.
  intros H. unfold for_downto. remember (hi - lo) as n eqn:En. revert hi s H En. induction n as [|n IH]; intros hi s H En P0 St; [cbn; replace lo with hi by lia; auto|].
  rewrite seq_S, rev_app_distr. cbn [rev app fold_left]. apply (IH (hi - 1)); [lia|lia| |].
  - replace (lo + n) with (hi - 1) by lia. apply St; [lia|]. replace (hi - 1 + 1) with hi by lia. auto.
  - intros k t Hk. apply St. lia.
Qed.
Lemma up_ext {X : Type} lo hi (f g : nat -> X -> X) s : (forall k t, lo <= k < hi -> f k t = g k t) -> for_upto lo hi f s = for_upto lo hi g s.
Proof.
  intros H. unfold for_upto. remember (hi - lo) as n eqn:En. revert lo s H En. induction n as [|n IH]; intros lo s H En; cbn [seq fold_left]; auto.
  rewrite H by lia. apply IH; [intros; apply H; lia|lia].
Qed.
Lemma up_S {X : Type} lo hi (f : nat -> X -> X) s : lo <= hi -> for_upto lo (hi + 1) f s = f hi (for_upto lo hi f s).
Proof.
  intros H. unfold for_upto. replace (hi + 1 - lo) with (S (hi - lo)) by lia. rewrite seq_S, fold_left_app. cbn. do 2 f_equal. lia.
Qed.

Section LU.
Context {T : Type} {Op : Ops T}.
Notation grid := (grid (T := T)).

Lemma sum_prod_ext lo hi (f g f' g' : nat -> T) : (forall p, lo <= p < hi -> f p = f' p /\ g p = g' p) -> sum_prod lo hi f g = sum_prod lo hi f' g'.
Proof. intros H. apply up_ext. intros k t Hk. destruct (H k Hk) as [-> ->]. auto. Qed.

Ltac eqb := repeat match goal with
  | |- context [Nat.eqb ?a ?b] => destruct (Nat.eqb_spec a b)
  | H : context [Nat.eqb ?a ?b] |- _ => destruct (Nat.eqb_spec a b)
  end; cbn [andb] in *.

(** ** Doolittle (lu_inplace) *)
Definition row_step (N k : nat) (M : grid) : grid := for_upto k N (fun j M => upd M k j (sub (M k j) (sum_prod 0 k (fun p => M k p) (fun p => M p j)))) M.
Definition col_step (N k : nat) (M : grid) : grid := for_upto (k + 1) N (fun i M => upd M i k (div (sub (M i k) (sum_prod 0 k (fun p => M i p) (fun p => M p k))) (M k k))) M.
Lemma row_stepE N k M : k < N -> forall a b, row_step N k M a b = if Nat.eqb a k && (Nat.leb k b && Nat.ltb b N) then sub (M k b) (sum_prod 0 k (fun p => M k p) (fun p => M p b)) else M a b.
Proof.
  intros Hk. unfold row_step.
  apply (up_inv (fun m Q => forall a b, Q a b = if Nat.eqb a k && (Nat.leb k b && Nat.ltb b m) then sub (M k b) (sum_prod 0 k (fun p => M k p) (fun p => M p b)) else M a b)); [lia| |].
  - intros a b. destruct (Nat.eqb_spec a k); auto. destruct (Nat.leb_spec k b), (Nat.ltb_spec b k); auto; lia.
  - intros m Q Hm IH a b. unfold upd. destruct (Nat.eqb_spec a k) as [->|Na]; cbn [andb]; [|rewrite IH; destruct (Nat.eqb_spec a k); [lia|auto]].
    destruct (Nat.eqb_spec b m) as [->|Nb].
    + destruct (Nat.leb_spec k m); [|lia]. destruct (Nat.ltb_spec m (m + 1)); [|lia]. cbn [andb]. f_equal.
      * rewrite IH, Nat.eqb_refl. destruct (Nat.ltb_spec m m); [lia|]. rewrite andb_false_r. auto.
      * apply sum_prod_ext. intros p Hp. rewrite !IH. destruct (Nat.eqb_spec p k); [lia|]. destruct (Nat.leb_spec k p); [lia|]. rewrite !andb_false_r. auto.
    + rewrite IH, Nat.eqb_refl. destruct (Nat.leb_spec k b), (Nat.ltb_spec b m), (Nat.ltb_spec b (m + 1)); auto; lia.
Qed.
Lemma col_stepE N k M : k < N -> forall a b, col_step N k M a b = if Nat.eqb b k && (Nat.ltb k a && Nat.ltb a N) then div (sub (M a k) (sum_prod 0 k (fun p => M a p) (fun p => M p k))) (M k k) else M a b.
Proof.
  intros Hk. unfold col_step.
  apply (up_inv (fun m Q => forall a b, Q a b = if Nat.eqb b k && (Nat.ltb k a && Nat.ltb a m) then div (sub (M a k) (sum_prod 0 k (fun p => M a p) (fun p => M p k))) (M k k) else M a b)); [lia| |].
  - intros a b. destruct (Nat.eqb_spec b k); auto. destruct (Nat.ltb_spec k a), (Nat.ltb_spec a (k + 1)); auto; lia.
  - intros m Q Hm IH a b. unfold upd. destruct (Nat.eqb_spec b k) as [->|Nb]; [|rewrite andb_false_r, IH; destruct (Nat.eqb_spec b k); [lia|auto]]. rewrite andb_true_r.
    destruct (Nat.eqb_spec a m) as [->|Na].
    + destruct (Nat.ltb_spec k m); [|lia]. destruct (Nat.ltb_spec m (m + 1)); [|lia]. cbn [andb]. f_equal; [f_equal|].
      * rewrite IH, Nat.eqb_refl. destruct (Nat.ltb_spec m m); [lia|]. rewrite andb_false_r. auto.
      * apply sum_prod_ext. intros p Hp. rewrite !IH. destruct (Nat.eqb_spec p k); [lia|]. destruct (Nat.ltb_spec k p); [lia|]. rewrite !andb_false_r. auto.
      * rewrite IH. destruct (Nat.ltb_spec k k); [lia|]. rewrite andb_false_r. auto.
    + rewrite IH, Nat.eqb_refl. cbn [andb]. destruct (Nat.ltb_spec k a), (Nat.ltb_spec a m), (Nat.ltb_spec a (m + 1)); auto; lia.
Qed.
Theorem lu_entries N (A : grid) : let M := lu_inplace N A in forall i j, i < N -> j < N ->
  (i <= j -> M i j = sub (A i j) (sum_prod 0 i (fun p => M i p) (fun p => M p j))) /\
  (j < i -> M i j = div (sub (A i j) (sum_prod 0 j (fun p => M i p) (fun p => M p j))) (M j j)).
Proof.
  intros M. assert (G : forall i j, i < N -> j < N ->
    (i <= j -> i < N -> M i j = sub (A i j) (sum_prod 0 i (fun p => M i p) (fun p => M p j))) /\
    (j < i -> j < N -> M i j = div (sub (A i j) (sum_prod 0 j (fun p => M i p) (fun p => M p j))) (M j j)) /\
    (N <= i -> N <= j -> M i j = A i j)).
  2: { intros i j Hi Hj. destruct (G i j Hi Hj) as (G1 & G2 & _). auto. }
  unfold M, lu_inplace. change (for_upto 0 N _ A) with (for_upto 0 N (fun k M => col_step N k (row_step N k M)) A).
  apply (up_inv (fun k M => forall i j, i < N -> j < N ->
    (i <= j -> i < k -> M i j = sub (A i j) (sum_prod 0 i (fun p => M i p) (fun p => M p j))) /\
    (j < i -> j < k -> M i j = div (sub (A i j) (sum_prod 0 j (fun p => M i p) (fun p => M p j))) (M j j)) /\
    (k <= i -> k <= j -> M i j = A i j))); [lia| |].
  - intros i j Hi Hj. repeat split; auto; lia.
  - clear M. intros k M (_ & Hk) IH. set (Q := col_step N k (row_step N k M)).
    assert (Qout : forall a b, a < k \/ b < k -> Q a b = M a b).
    { intros a b H. unfold Q. rewrite col_stepE by auto. destruct (Nat.eqb_spec b k) as [->|].
      - destruct (Nat.ltb_spec k a); [lia|]. cbn [andb]. rewrite row_stepE by auto. destruct (Nat.eqb_spec a k); [lia|auto].
      - cbn [andb]. rewrite row_stepE by auto. destruct (Nat.eqb_spec a k); auto. destruct (Nat.leb_spec k b); auto; lia. }
    assert (Qin : forall a b, k < a -> k < b -> Q a b = M a b).
    { intros a b Ha Hb. unfold Q. rewrite col_stepE by auto. destruct (Nat.eqb_spec b k); [lia|]. cbn [andb]. rewrite row_stepE by auto. destruct (Nat.eqb_spec a k); [lia|auto]. }
    assert (Qrow : forall b, k <= b < N -> Q k b = sub (M k b) (sum_prod 0 k (fun p => M k p) (fun p => M p b))).
    { intros b Hb. unfold Q. rewrite col_stepE by auto. destruct (Nat.ltb_spec k k); [lia|]. rewrite andb_false_r. rewrite row_stepE, Nat.eqb_refl by auto.
      destruct (Nat.leb_spec k b); [|lia]. destruct (Nat.ltb_spec b N); [auto|lia]. }
    assert (Qcol : forall a, k < a < N -> Q a k = div (sub (M a k) (sum_prod 0 k (fun p => M a p) (fun p => M p k))) (Q k k)).
    { intros a Ha. rewrite Qrow by lia. unfold Q. rewrite col_stepE, Nat.eqb_refl by auto. destruct (Nat.ltb_spec k a); [|lia]. destruct (Nat.ltb_spec a N); [|lia]. cbn [andb].
      f_equal; [f_equal|].
      - rewrite row_stepE by auto. destruct (Nat.eqb_spec a k); [lia|auto].
      - apply sum_prod_ext. intros p Hp. rewrite !row_stepE by auto. destruct (Nat.eqb_spec a k); [lia|]. destruct (Nat.eqb_spec p k); [lia|auto].
      - rewrite row_stepE, Nat.eqb_refl by auto. destruct (Nat.leb_spec k k); [|lia]. destruct (Nat.ltb_spec k N); [auto|lia]. }
    assert (Qsum : forall m a b, m <= k -> sum_prod 0 m (fun p => Q a p) (fun p => Q p b) = sum_prod 0 m (fun p => M a p) (fun p => M p b)).
    { intros m a b Hm. apply sum_prod_ext. intros p Hp. rewrite !Qout by lia. auto. }
    intros i j Hi Hj. destruct (IH i j Hi Hj) as (I1 & I2 & I3). repeat split.
    + intros Hij Hik. destruct (Nat.eq_dec i k) as [->|].
      * rewrite Qsum, Qrow by lia. rewrite I3 by lia. auto.
      * rewrite Qsum, Qout by lia. apply I1; lia.
    + intros Hij Hjk. destruct (Nat.eq_dec j k) as [->|].
      * rewrite Qsum, Qcol by lia. rewrite I3 by lia. auto.
      * rewrite Qsum by lia. rewrite !Qout by lia. apply I2; lia.
    + intros H1 H2. rewrite Qin by lia. apply I3; lia.
Qed.

(** ** Substitutions *)
Lemma forward_entries N (LU : grid) (b : nat -> T) : let y := forward N LU b in forall i, i < N -> y i = sub (b i) (sum_prod 0 i (fun j => LU i j) y).
Proof.
  intros y. unfold y, forward. apply (up_inv (fun k y => forall i, i < k -> y i = sub (b i) (sum_prod 0 i (fun j => LU i j) y))); [lia|intros; lia|].
  clear y. intros k y Hk IH i Hi. set (z := put y k _).
  assert (Z : forall p, p < k -> z p = y p) by (intros p Hp; unfold z, put; destruct (Nat.eqb_spec p k); [lia|auto]).
  assert (E : forall m, m <= k -> sum_prod 0 m (fun j => LU i j) z = sum_prod 0 m (fun j => LU i j) y) by (intros m Hm; apply sum_prod_ext; intros p Hp; split; [auto|apply Z; lia]).
  rewrite E by lia. destruct (Nat.eq_dec i k) as [->|].
  - unfold z, put. rewrite Nat.eqb_refl. auto.
  - rewrite Z by lia. apply IH. lia.
Qed.
Lemma backward_entries N (LU : grid) (y x0 : nat -> T) : let x := backward N LU y x0 in forall i, i < N -> x i = div (sub (y i) (sum_prod (i + 1) N (fun j => LU i j) x)) (LU i i).
Proof.
  intros x. assert (G : forall i, i < N -> 0 <= i -> x i = div (sub (y i) (sum_prod (i + 1) N (fun j => LU i j) x)) (LU i i)); [|intros; apply G; lia].
  unfold x, backward. apply (down_inv (fun k x => forall i, i < N -> k <= i -> x i = div (sub (y i) (sum_prod (i + 1) N (fun j => LU i j) x)) (LU i i)) 0 N); [lia|intros; lia|].
  clear x. intros k x Hk IH i Hi Hki. set (z := put x k _).
  assert (Z : forall p, k < p -> z p = x p) by (intros p Hp; unfold z, put; destruct (Nat.eqb_spec p k); [lia|auto]).
  assert (E : sum_prod (i + 1) N (fun j => LU i j) z = sum_prod (i + 1) N (fun j => LU i j) x) by (apply sum_prod_ext; intros p Hp; split; [auto|apply Z; lia]).
  rewrite E. destruct (Nat.eq_dec i k) as [->|].
  - unfold z, put. rewrite Nat.eqb_refl. auto.
  - rewrite Z by lia. apply IH; lia.
Qed.

(** ** Right-looking elimination with row exchanges (lu_pivot_inplace) *)
(** a - f 0 * g 0 - f 1 * g 1 - ..., from the left *)
Definition sub_prods (n : nat) (a : T) (f g : nat -> T) : T := for_upto 0 n (fun p s => sub s (mul (f p) (g p))) a.
Lemma sub_prods_ext n a (f g f' g' : nat -> T) : (forall p, p < n -> f p = f' p /\ g p = g' p) -> sub_prods n a f g = sub_prods n a f' g'.
Proof. intros H. apply up_ext. intros k t Hk. destruct (H k ltac:(lia)) as [-> ->]. auto. Qed.
Lemma schurE N k M : k < N -> forall a b, schur N k M a b =
  if Nat.ltb k a && Nat.ltb a N then
    if Nat.eqb b k then div (M a k) (M k k) else
    if Nat.ltb k b && Nat.ltb b N then sub (M a b) (mul (div (M a k) (M k k)) (M k b)) else M a b
  else M a b.
Proof.
  intros Hk. unfold schur.
  apply (up_inv (fun m Q => forall a b, Q a b = if Nat.ltb k a && Nat.ltb a m then
    if Nat.eqb b k then div (M a k) (M k k) else if Nat.ltb k b && Nat.ltb b N then sub (M a b) (mul (div (M a k) (M k k)) (M k b)) else M a b else M a b)); [lia| |].
  - intros a b. destruct (Nat.ltb_spec k a), (Nat.ltb_spec a (k + 1)); auto; lia.
  - intros m Q Hm IH. set (W := upd Q m k _).
    assert (Qm : forall b, Q m b = M m b) by (intros b; rewrite IH; destruct (Nat.ltb_spec m m); [lia|]; rewrite andb_false_r; auto).
    assert (Qk : forall b, Q k b = M k b) by (intros b; rewrite IH; destruct (Nat.ltb_spec k k); [lia|]; auto).
    assert (Wm : forall b, W m b = if Nat.eqb b k then div (M m k) (M k k) else M m b) by (intros b; unfold W, upd; rewrite Nat.eqb_refl; cbn [andb]; destruct (Nat.eqb_spec b k); rewrite ?Qm, ?Qk; auto).
    assert (Wo : forall a b, a <> m -> W a b = Q a b) by (intros a b Ha; unfold W, upd; destruct (Nat.eqb_spec a m); [lia|auto]).
    assert (In : forall a b, for_upto (k + 1) N (fun j M => upd M m j (sub (M m j) (mul (M m k) (M k j)))) W a b =
      if Nat.eqb a m && (Nat.ltb k b && Nat.ltb b N) then sub (W m b) (mul (W m k) (W k b)) else W a b).
    { apply (up_inv (fun n V => forall a b, V a b = if Nat.eqb a m && (Nat.ltb k b && Nat.ltb b n) then sub (W m b) (mul (W m k) (W k b)) else W a b)); [lia| |].
      - intros a b. destruct (Nat.ltb_spec k b), (Nat.ltb_spec b (k + 1)); rewrite ?andb_false_r; auto; lia.
      - intros n V Hn IV a b. unfold upd. destruct (Nat.eqb_spec a m) as [->|]; cbn [andb]; [|rewrite IV; destruct (Nat.eqb_spec a m); [lia|auto]].
        destruct (Nat.eqb_spec b n) as [->|].
        + destruct (Nat.ltb_spec k n); [|lia]. destruct (Nat.ltb_spec n (n + 1)); [|lia]. cbn [andb]. rewrite !IV, Nat.eqb_refl. destruct (Nat.ltb_spec n n); [lia|]. destruct (Nat.ltb_spec k k); [lia|].
          destruct (Nat.eqb_spec k m); [lia|]. rewrite !andb_false_r. cbn [andb]. auto.
        + rewrite IV, Nat.eqb_refl. cbn [andb]. destruct (Nat.ltb_spec k b), (Nat.ltb_spec b n), (Nat.ltb_spec b (n + 1)); auto; lia. }
    intros a b. rewrite In. destruct (Nat.eqb_spec a m) as [->|Na].
    + destruct (Nat.ltb_spec k m); [|lia]. destruct (Nat.ltb_spec m (m + 1)); [|lia]. cbn [andb]. rewrite !Wm, Nat.eqb_refl. rewrite (Wo k) by lia. rewrite Qk.
      destruct (Nat.eqb_spec b k) as [->|]; auto. destruct (Nat.ltb_spec k k); [lia|auto].
    + cbn [andb]. rewrite Wo by auto. rewrite IH. destruct (Nat.ltb_spec k a), (Nat.ltb_spec a m), (Nat.ltb_spec a (m + 1)); auto; lia.
Qed.
Lemma swap_rowsE N r s (M : grid) : forall a b, b < N -> swap_rows N r s M a b = if Nat.eqb a s then M r b else if Nat.eqb a r then M s b else M a b.
Proof.
  assert (G : forall a b, swap_rows N r s M a b = if Nat.ltb b N then if Nat.eqb a s then M r b else if Nat.eqb a r then M s b else M a b else M a b).
  { unfold swap_rows. apply (up_inv (fun m Q => forall a b, Q a b = if Nat.ltb b m then if Nat.eqb a s then M r b else if Nat.eqb a r then M s b else M a b else M a b)); [lia|auto|].
    intros m Q Hm IH a b. cbv zeta. unfold upd.
    assert (Q1 : forall c, Q c m = M c m) by (intros c; rewrite IH; destruct (Nat.ltb_spec m m); [lia|auto]).
    destruct (Nat.eqb_spec b m) as [->|Nb].
    - rewrite !andb_true_r. destruct (Nat.ltb_spec m (m + 1)); [|lia]. destruct (Nat.eqb_spec a s), (Nat.eqb_spec a r); rewrite !Q1; auto.
    - rewrite !andb_false_r, IH. destruct (Nat.ltb_spec b m), (Nat.ltb_spec b (m + 1)); auto; lia. }
  intros a b Hb. rewrite G. destruct (Nat.ltb_spec b N); [auto|lia].
Qed.
Section Pivot.
Variables (fabs : T -> T) (eps : T) (N : nat) (A : grid).
Lemma find_pivot_range k M : k < N -> k <= snd (find_pivot fabs N k M) < N.
Proof.
  intros Hk. unfold find_pivot. apply (up_inv (fun m (s : T * nat) => k <= snd s < N)); [lia|cbn; lia|].
  intros i [mx row] Hi H. cbn in *. destruct (ltb mx (fabs (M i k))); cbn; lia.
Qed.
Definition pivoted (k : nat) (ord : nat -> nat) (M : grid) : Prop :=
  (forall i, i < N -> ord i < N) /\ (forall i j, i < N -> j < N -> ord i = ord j -> i = j) /\
  forall i j, i < N -> j < N ->
    (i <= j -> M i j = sub_prods (min k i) (A (ord i) j) (fun p => M i p) (fun p => M p j)) /\
    (j < i -> j < k -> M i j = div (sub_prods j (A (ord i) j) (fun p => M i p) (fun p => M p j)) (M j j)) /\
    (j < i -> k <= j -> M i j = sub_prods k (A (ord i) j) (fun p => M i p) (fun p => M p j)).
Lemma pivoted_swap k ord M row ord' M' : k <= row < N -> pivoted k ord M ->
  (forall i, ord' i = if Nat.eqb i row then ord k else if Nat.eqb i k then ord row else ord i) ->
  (forall a b, b < N -> M' a b = if Nat.eqb a row then M k b else if Nat.eqb a k then M row b else M a b) -> pivoted k ord' M'.
Proof.
  intros Hr (P1 & P2 & P3) Ho Hm. pose (t i := if Nat.eqb i row then k else if Nat.eqb i k then row else i).
  assert (To : forall i, ord' i = ord (t i)) by (intros i; rewrite Ho; unfold t; destruct (Nat.eqb i row); auto; destruct (Nat.eqb i k); auto).
  assert (Tm : forall a b, b < N -> M' a b = M (t a) b) by (intros a b Hb; rewrite Hm by auto; unfold t; destruct (Nat.eqb a row); auto; destruct (Nat.eqb a k); auto).
  assert (TN : forall i, i < N -> t i < N) by (intros i Hi; unfold t; destruct (Nat.eqb_spec i row); [lia|]; destruct (Nat.eqb_spec i k); lia).
  assert (Tlo : forall i, i < k -> t i = i) by (intros i Hi; unfold t; destruct (Nat.eqb_spec i row); [lia|]; destruct (Nat.eqb_spec i k); lia).
  assert (Thi : forall i, k <= i -> k <= t i) by (intros i Hi; unfold t; destruct (Nat.eqb_spec i row); [lia|]; destruct (Nat.eqb_spec i k); lia).
  assert (Tinj : forall i j, t i = t j -> i = j) by (intros i j; unfold t; destruct (Nat.eqb_spec i row), (Nat.eqb_spec j row); [lia|destruct (Nat.eqb_spec j k); lia|destruct (Nat.eqb_spec i k); lia|destruct (Nat.eqb_spec i k), (Nat.eqb_spec j k); lia]).
  split; [|split].
  - intros i Hi. rewrite To. auto.
  - intros i j Hi Hj E. rewrite !To in E. apply P2 in E; auto.
  - assert (E : forall m i j, m <= k -> i < N -> j < N -> sub_prods m (A (ord (t i)) j) (fun p => M' i p) (fun p => M' p j) = sub_prods m (A (ord (t i)) j) (fun p => M (t i) p) (fun p => M p j)).
    { intros m i j Hm' Hi Hj. apply sub_prods_ext. intros p Hp. rewrite !Tm by lia. rewrite (Tlo p) by lia. auto. }
    intros i j Hi Hj. rewrite !To, !Tm by lia. destruct (P3 (t i) j (TN i Hi) Hj) as (Q1 & Q2 & Q3). split; [|split].
    + intros Hij. rewrite E by lia. destruct (Nat.lt_ge_cases i k) as [Hik|Hik].
      * rewrite (Tlo i Hik) in *. apply Q1. auto.
      * replace (min k i) with k by lia. specialize (Thi i Hik). destruct (Nat.le_gt_cases (t i) j) as [H|H]; [rewrite Q1 by auto; f_equal; lia|apply Q3; lia].
    + intros Hij Hjk. rewrite E by lia. rewrite (Tlo j Hjk). destruct (Nat.lt_ge_cases i k) as [Hik|Hik].
      * rewrite (Tlo i Hik) in *. apply Q2; auto.
      * specialize (Thi i Hik). apply Q2; lia.
    + intros Hij Hkj. rewrite E by lia. specialize (Thi i ltac:(lia)). destruct (Nat.le_gt_cases (t i) j) as [H|H]; [rewrite Q1 by auto; f_equal; lia|apply Q3; lia].
Qed.
Lemma sub_prods_S n a f g : sub_prods (n + 1) a f g = sub (sub_prods n a f g) (mul (f n) (g n)).
Proof. apply (up_S 0 n (fun p s => sub s (mul (f p) (g p))) a). lia. Qed.
Lemma pivoted_schur k ord M : k < N -> pivoted k ord M -> pivoted (k + 1) ord (schur N k M).
Proof.
  intros Hk (P1 & P2 & P3). split; [auto|]. split; [auto|]. set (Q := schur N k M).
  assert (Qlo : forall a b, a <= k -> Q a b = M a b) by (intros a b Ha; unfold Q; rewrite schurE by auto; destruct (Nat.ltb_spec k a); [lia|auto]).
  assert (Qcol : forall a b, b < k -> Q a b = M a b).
  { intros a b Hb. unfold Q; rewrite schurE by auto. destruct (Nat.ltb k a && Nat.ltb a N); auto. destruct (Nat.eqb_spec b k); [lia|]. destruct (Nat.ltb_spec k b); [lia|auto]. }
  assert (Qk : forall a, k < a < N -> Q a k = div (M a k) (M k k)).
  { intros a Ha. unfold Q; rewrite schurE, Nat.eqb_refl by auto. destruct (Nat.ltb_spec k a); [|lia]. destruct (Nat.ltb_spec a N); [auto|lia]. }
  assert (Qin : forall a b, k < a < N -> k < b < N -> Q a b = sub (M a b) (mul (Q a k) (M k b))).
  { intros a b Ha Hb. rewrite Qk by auto. unfold Q. rewrite schurE by auto. destruct (Nat.ltb_spec k a); [|lia]. destruct (Nat.ltb_spec a N); [|lia]. destruct (Nat.eqb_spec b k); [lia|].
    destruct (Nat.ltb_spec k b); [|lia]. destruct (Nat.ltb_spec b N); [auto|lia]. }
  assert (E : forall m x i j, m <= k -> sub_prods m x (fun p => Q i p) (fun p => Q p j) = sub_prods m x (fun p => M i p) (fun p => M p j)).
  { intros m x i j Hm. apply sub_prods_ext. intros p Hp. rewrite (Qcol i p), (Qlo p j) by lia. auto. }
  intros i j Hi Hj. destruct (P3 i j Hi Hj) as (R1 & R2 & R3). split; [|split].
  - intros Hij. destruct (Nat.le_gt_cases i k) as [H|H].
    + replace (min (k + 1) i) with i by lia. rewrite E, Qlo by lia. rewrite R1 by lia. f_equal. lia.
    + replace (min (k + 1) i) with (k + 1) by lia. rewrite sub_prods_S, E, Qin by lia. rewrite R1 by lia. replace (min k i) with k by lia. rewrite (Qlo k j) by lia. auto.
  - intros Hij Hjk. destruct (Nat.eq_dec j k) as [->|].
    + rewrite E, Qk by lia. rewrite R3 by lia. rewrite (Qlo k k) by lia. auto.
    + rewrite E by lia. rewrite (Qcol i j), (Qlo j j) by lia. apply R2; lia.
  - intros Hij Hjk. rewrite sub_prods_S, E, Qin by lia. rewrite R3 by lia. rewrite (Qlo k j) by lia. auto.
Qed.
Lemma order_id : forall i, i < N -> for_upto 0 N (fun i v => put v i i) (fun _ => 0) i = i.
Proof.
  apply (up_inv (fun m (v : nat -> nat) => forall i, i < m -> v i = i)); [lia|intros; lia|]. intros k v Hk IH i Hi. unfold put. destruct (Nat.eqb_spec i k); [auto|apply IH; lia].
Qed.
Theorem lu_pivot_entries : forall M ord s, lu_pivot_inplace fabs eps N A = (M, ord, s) -> s <> sgn_zero ->
  (forall i, i < N -> ord i < N) /\ (forall i j, i < N -> j < N -> ord i = ord j -> i = j) /\
  forall i j, i < N -> j < N ->
    (i <= j -> M i j = sub_prods i (A (ord i) j) (fun p => M i p) (fun p => M p j)) /\
    (j < i -> M i j = div (sub_prods j (A (ord i) j) (fun p => M i p) (fun p => M p j)) (M j j)).
Proof.
  intros M ord s E Hs. unfold lu_pivot_inplace in E. set (st := for_upto 0 (N - 1) _ _) in E. injection E as <- <- Es.
  assert (St : ls_stop st = false) by (destruct (ls_stop st); [congruence|auto]). clear Es Hs.
  assert (G : ls_stop st = false -> pivoted (N - 1) (ls_order st) (ls_m st)).
  { unfold st. apply (up_inv (fun k s => ls_stop s = false -> pivoted k (ls_order s) (ls_m s))); [lia| |].
    - intros _. cbn [ls_order ls_m]. split; [intros i Hi; rewrite order_id; auto|]. split; [intros i j Hi Hj; rewrite !order_id; auto|].
      intros i j Hi Hj. rewrite order_id by auto. cbn [min]. repeat split; auto; lia.
    - intros k t Hk IH H. unfold lu_pivot_step in *. destruct (ls_stop t) eqn:Et; [congruence|]. specialize (IH eq_refl).
      pose proof (find_pivot_range k (ls_m t) ltac:(lia)) as Fr. destruct (find_pivot fabs N k (ls_m t)) as [mg r0]. cbn [snd] in Fr. destruct (ltb mg eps); [discriminate|]. cbn [ls_order ls_m].
      apply pivoted_schur; [lia|]. destruct (Nat.eqb_spec r0 k) as [Er|Nr]; cbn [negb]; [auto|].
      apply (pivoted_swap k (ls_order t) (ls_m t) r0); auto.
      intros a b Hb. apply swap_rowsE. auto. }
  destruct (G St) as (G1 & G2 & G3). split; [auto|]. split; [auto|]. intros i j Hi Hj. destruct (G3 i j Hi Hj) as (H1 & H2 & _). split.
  - intros Hij. rewrite H1 by auto. f_equal. lia.
  - intros Hij. apply H2; lia.
Qed.
End Pivot.
End LU.
