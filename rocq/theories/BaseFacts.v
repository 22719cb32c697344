(** Facts about the control layer: loop rules, list update. *)
From Coq Require Import List ZArith Bool Arith Lia.
From Verif Require Import Base.
Import ListNotations.

Lemma bind_ok {A B} (a : A) (f : A -> out B) : bind (Ok a) f = f a.
Proof. reflexivity. Qed.

Lemma bind_Ok_inv {A B} (x : out A) (f : A -> out B) b :
  bind x f = Ok b -> exists a, x = Ok a /\ f a = Ok b.
Proof. destruct x; simpl; intros H; try discriminate; eauto. Qed.

(** Total-correctness rule for counted loops. *)
Lemma for_n_inv {S} (I : nat -> S -> Prop) (f : nat -> S -> out S) n : forall i s,
  I i s ->
  (forall k s, i <= k < i + n -> I k s -> exists s', f k s = Ok s' /\ I (Datatypes.S k) s') ->
  exists s', for_n n i f s = Ok s' /\ I (i + n) s'.
Proof.
  induction n as [|n IH]; intros i s H0 Hstep; simpl.
  - exists s; split; auto. now rewrite Nat.add_0_r.
  - destruct (Hstep i s) as [s1 [E H1]]; [lia|auto|]. rewrite E; simpl.
    destruct (IH (Datatypes.S i) s1) as [s' [E' H']]; auto.
    + intros k s2 Hk; apply Hstep; lia.
    + exists s'; split; auto. now rewrite Nat.add_succ_r.
Qed.

Lemma loop_inv {S} (I : nat -> S -> Prop) (f : nat -> S -> out S) lo hi s :
  lo <= hi -> I lo s ->
  (forall k s, lo <= k < hi -> I k s -> exists s', f k s = Ok s' /\ I (Datatypes.S k) s') ->
  exists s', loop lo hi f s = Ok s' /\ I hi s'.
Proof.
  intros Hle H0 Hs. unfold loop.
  destruct (for_n_inv I f (hi - lo) lo s H0) as [s' [E H']].
  - intros k s1 Hk; apply Hs; lia.
  - exists s'; split; auto. now replace hi with (lo + (hi - lo)) by lia.
Qed.

(** Loop rule when the range may be empty. *)
Lemma loop_inv_max {S} (I : nat -> S -> Prop) (f : nat -> S -> out S) lo hi s :
  I lo s ->
  (forall k s, lo <= k < hi -> I k s -> exists s', f k s = Ok s' /\ I (Datatypes.S k) s') ->
  exists s', loop lo hi f s = Ok s' /\ I (Nat.max lo hi) s'.
Proof.
  intros H0 Hs. destruct (le_lt_dec lo hi) as [Hle|Hlt].
  - rewrite Nat.max_r by lia. apply loop_inv; auto.
  - rewrite Nat.max_l by lia. exists s. unfold loop.
    replace (hi - lo) with 0 by lia. simpl; auto.
Qed.

(** Rule for results that are only known a posteriori (partial correctness). *)
Lemma for_n_inv_ok {S} (I : nat -> S -> Prop) (f : nat -> S -> out S) n : forall i s s',
  for_n n i f s = Ok s' -> I i s ->
  (forall k s s', i <= k < i + n -> I k s -> f k s = Ok s' -> I (Datatypes.S k) s') ->
  I (i + n) s'.
Proof.
  induction n as [|n IH]; simpl; intros i s s' E H0 Hs.
  - injection E as <-. now rewrite Nat.add_0_r.
  - apply bind_Ok_inv in E as [s1 [E1 E2]].
    rewrite Nat.add_succ_r. apply (IH (Datatypes.S i) s1 s' E2).
    + eapply Hs; eauto; lia.
    + intros k s2 s3 Hk; apply Hs; lia.
Qed.

Lemma loop_inv_ok {S} (I : nat -> S -> Prop) (f : nat -> S -> out S) lo hi s s' :
  lo <= hi -> loop lo hi f s = Ok s' -> I lo s ->
  (forall k s s', lo <= k < hi -> I k s -> f k s = Ok s' -> I (Datatypes.S k) s') ->
  I hi s'.
Proof.
  intros Hle E H0 Hs. unfold loop in E. replace hi with (lo + (hi - lo)) by lia.
  eapply for_n_inv_ok; eauto. intros k s1 s2 Hk; apply Hs; lia.
Qed.

Lemma for_down_inv {S} (I : nat -> S -> Prop) (f : nat -> S -> out S) n lo : forall s,
  I n s ->
  (forall k s, k < n -> I (Datatypes.S k) s -> exists s', f (lo + k) s = Ok s' /\ I k s') ->
  exists s', for_down n lo f s = Ok s' /\ I 0 s'.
Proof.
  induction n as [|n IH]; intros s H0 Hs; simpl.
  - eauto.
  - destruct (Hs n s) as [s1 [E H1]]; [lia|auto|]. rewrite E; simpl.
    destruct (IH s1 H1) as [s' [E' H']]; eauto.
Qed.

(** The loop [for k = hi-1 downto lo]; [I k] holds before index k-1 is done. *)
Lemma loop_down_inv {S} (I : nat -> S -> Prop) (f : nat -> S -> out S) lo hi s :
  lo <= hi -> I hi s ->
  (forall k s, lo <= k < hi -> I (Datatypes.S k) s -> exists s', f k s = Ok s' /\ I k s') ->
  exists s', loop_down lo hi f s = Ok s' /\ I lo s'.
Proof.
  intros Hle H0 Hs. unfold loop_down.
  destruct (for_down_inv (fun k => I (lo + k)) f (hi - lo) lo s) as [s' [E H']].
  - now replace (lo + (hi - lo)) with hi by lia.
  - intros k s1 Hk H1. apply Hs; [lia|]. now rewrite Nat.add_succ_r in H1.
  - exists s'; split; auto. now rewrite Nat.add_0_r in H'.
Qed.

Lemma for_n_S {S} (f : nat -> S -> out S) n i s :
  for_n (Datatypes.S n) i f s = bind (f i s) (fun s' => for_n n (Datatypes.S i) f s').
Proof. reflexivity. Qed.

Lemma for_n_snoc {S} (f : nat -> S -> out S) n : forall i s,
  for_n (Datatypes.S n) i f s = bind (for_n n i f s) (f (i + n)).
Proof.
  induction n as [|n IH]; intros i s.
  - simpl. rewrite Nat.add_0_r. destruct (f i s); reflexivity.
  - rewrite (for_n_S f (Datatypes.S n) i s), (for_n_S f n i s).
    destruct (f i s) as [s1| |]; try reflexivity.
    cbn [bind]. rewrite IH. now rewrite Nat.add_succ_r.
Qed.

Lemma for_n_ext {S} (f g : nat -> S -> out S) n : forall i s,
  (forall k s, i <= k < i + n -> f k s = g k s) -> for_n n i f s = for_n n i g s.
Proof.
  induction n as [|n IH]; intros i s H; simpl; auto.
  rewrite H by lia. destruct (g i s); simpl; auto. apply IH. intros; apply H; lia.
Qed.

Lemma loop_ext {S} (f g : nat -> S -> out S) lo hi s :
  (forall k s, lo <= k < hi -> f k s = g k s) -> loop lo hi f s = loop lo hi g s.
Proof. intros H; apply for_n_ext; intros; apply H; lia. Qed.

(** A loop with a pure body is a fold. *)
Lemma loop_pure {S} (g : nat -> S -> S) lo hi s :
  loop lo hi (fun i s => Ok (g i s)) s
  = Ok (fold_left (fun s i => g i s) (seq lo (hi - lo)) s).
Proof.
  unfold loop. generalize (hi - lo) as n. revert lo s.
  intros lo s n; revert lo s; induction n as [|n IH]; intros lo s; simpl; auto.
Qed.

(** list update *)
Lemma list_put_Some {A} (l : list A) : forall i x,
  i < length l -> exists l', list_put l i x = Some l'.
Proof.
  induction l as [|a l IH]; intros i x H; simpl in *; [lia|].
  destruct i as [|i]; eauto. destruct (IH i x) as [l' ->]; [lia|eauto].
Qed.

Lemma list_put_length {A} (l : list A) : forall i x l',
  list_put l i x = Some l' -> length l' = length l.
Proof.
  induction l as [|a l IH]; intros i x l' H; simpl in *; [discriminate|].
  destruct i as [|i]; [injection H as <-; reflexivity|].
  destruct (list_put l i x) as [r|] eqn:E; [|discriminate].
  injection H as <-. simpl; f_equal; eauto.
Qed.

Lemma list_put_bound {A} (l : list A) : forall i x l',
  list_put l i x = Some l' -> i < length l.
Proof.
  induction l as [|a l IH]; intros i x l' H; simpl in *; [discriminate|].
  destruct i as [|i]; [lia|].
  destruct (list_put l i x) as [r|] eqn:E; [|discriminate].
  apply IH in E; lia.
Qed.

Lemma list_put_None {A} (l : list A) : forall i x,
  list_put l i x = None <-> length l <= i.
Proof.
  intros i x; split; intros H.
  - destruct (le_lt_dec (length l) i) as [|Hlt]; auto.
    destruct (list_put_Some l i x Hlt) as [l' E]; congruence.
  - destruct (list_put l i x) as [l'|] eqn:E; auto.
    apply list_put_bound in E; lia.
Qed.

Lemma nth_error_list_put {A} (l : list A) : forall i x l' k,
  list_put l i x = Some l' ->
  nth_error l' k = if Nat.eq_dec k i then Some x else nth_error l k.
Proof.
  induction l as [|a l IH]; intros i x l' k H; simpl in *; [discriminate|].
  destruct i as [|i].
  - injection H as <-. destruct k; simpl; auto.
  - destruct (list_put l i x) as [r|] eqn:E; [|discriminate].
    injection H as <-. destruct k as [|k]; simpl; auto.
    rewrite (IH _ _ _ k E). destruct (Nat.eq_dec k i), (Nat.eq_dec (S k) (S i)); auto; lia.
Qed.

Lemma list_ext {A} (l1 l2 : list A) :
  (forall i, nth_error l1 i = nth_error l2 i) -> l1 = l2.
Proof.
  revert l2; induction l1 as [|a l1 IH]; intros [|b l2] H; auto.
  - specialize (H 0); discriminate.
  - specialize (H 0); discriminate.
  - f_equal.
    + specialize (H 0); simpl in H; congruence.
    + apply IH; intros i; apply (H (S i)).
Qed.

Lemma mapO_pure {A B} (f : A -> out B) (g : A -> B) l :
  (forall a, In a l -> f a = Ok (g a)) -> mapO f l = Ok (map g l).
Proof.
  induction l as [|a l IH]; intros H; simpl; auto.
  rewrite (H a) by now left. simpl. rewrite IH; simpl; auto.
  intros; apply H; now right.
Qed.

Lemma mapO_length {A B} (f : A -> out B) l r : mapO f l = Ok r -> length r = length l.
Proof.
  revert r; induction l as [|a l IH]; intros r H; simpl in *.
  - injection H as <-; reflexivity.
  - apply bind_Ok_inv in H as [b [_ H]]. apply bind_Ok_inv in H as [bs [H1 H]].
    injection H as <-. simpl; f_equal; auto.
Qed.
