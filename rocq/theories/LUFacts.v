(** Loops and in-place updates of LUModel.v as mathcomp sums and matrices. *)
From mathcomp Require Import all_ssreflect all_algebra.
From Verif Require Import Base RotModel LUModel LUSpec.
Set Implicit Arguments.
Unset Strict Implicit.
Unset Printing Implicit Defensive.
Import GRing.Theory Num.Theory.
Local Open Scope ring_scope.

Lemma eqbE (a b : nat) : Nat.eqb a b = (a == b).
Proof. by apply/idP/idP => [/PeanoNat.Nat.eqb_eq -> //|/eqP ->]; rewrite PeanoNat.Nat.eqb_refl. Qed.

Lemma fold_inv (S : Type) (P : nat -> S -> Prop) f n lo s :
  P lo s -> (forall i t, (lo <= i < lo + n)%N -> P i t -> P i.+1 (f i t)) ->
  P (lo + n)%N (List.fold_left (fun s i => f i s) (List.seq lo n) s).
Proof.
elim: n lo s => [|n IH] lo s P0 Pf; first by rewrite addn0.
rewrite /= -addSnnS; apply: IH; first by apply: Pf => //; rewrite leqnn addnS ltnS leq_addr.
by move=> i t /andP[H1 H2]; apply: Pf; rewrite (ltnW H1) -addSnnS.
Qed.

Lemma upto_inv (S : Type) (P : nat -> S -> Prop) lo hi f s : (lo <= hi)%N ->
  P lo s -> (forall i t, (lo <= i < hi)%N -> P i t -> P i.+1 (f i t)) ->
  P hi (for_upto lo hi f s).
Proof.
move=> le P0 Pf; rewrite /for_upto minusE.
have := @fold_inv S P f (hi - lo)%N lo s P0; rewrite subnKC //; exact.
Qed.

Lemma upto_empty (S : Type) lo hi (f : nat -> S -> S) s : (hi <= lo)%N -> for_upto lo hi f s = s.
Proof. by rewrite /for_upto minusE -subn_eq0 => /eqP ->. Qed.

Lemma uptoS (S : Type) lo hi (f : nat -> S -> S) s : (lo <= hi)%N ->
  for_upto lo hi.+1 f s = f hi (for_upto lo hi f s).
Proof.
move=> le; rewrite /for_upto !minusE subSn // List.seq_S List.fold_left_app /=.
by rewrite plusE subnKC.
Qed.

Section Grid.
Variable T : Type.
Implicit Types M : grid (T := T).

Lemma updE M i j x a b : upd M i j x a b = if (a == i) && (b == j) then x else M a b.
Proof. by rewrite /upd !eqbE. Qed.

Lemma putE (A : Type) (v : nat -> A) i x a : put v i x a = if a == i then x else v a.
Proof. by rewrite /put eqbE. Qed.

Lemma swap_rowsE N r s M i j : swap_rows N r s M i j =
  if (j < N)%N then if i == r then M s j else if i == s then M r j else M i j else M i j.
Proof.
rewrite /swap_rows.
pose P k (Q : grid (T := T)) := forall i j, Q i j =
  if (j < k)%N then if i == r then M s j else if i == s then M r j else M i j else M i j.
apply: (@upto_inv _ P) => // k Q /andP[_ _] H a b.
rewrite !updE !H !ltnn ltnS.
case: (ltngtP b k) => [lt|gt|->]; rewrite ?andbF ?andbT ?ltnn //=.
by case: (eqVneq a s) => [->|ns]; case: (eqVneq _ r) => [e|nr]; rewrite ?e.
Qed.

Lemma swap_colsE N r s M i j : swap_cols N r s M i j =
  if (i < N)%N then if j == r then M i s else if j == s then M i r else M i j else M i j.
Proof.
rewrite /swap_cols.
pose P k (Q : grid (T := T)) := forall i j, Q i j =
  if (i < k)%N then if j == r then M i s else if j == s then M i r else M i j else M i j.
apply: (@upto_inv _ P) => // k Q /andP[_ _] H a b.
rewrite !updE !H !ltnn ltnS.
case: (ltngtP a k) => [lt|gt|->]; rewrite ?ltnn //=.
by case: (eqVneq b s) => [->|ns]; case: (eqVneq _ r) => [e|nr]; rewrite ?e.
Qed.

(** a loop writing element after element of a row, each value depending only on
    elements outside the written ones *)
Lemma row_loop (lo hi r : nat) (f : nat -> grid (T := T) -> T) M : (lo <= hi)%N ->
  (forall j Q, (lo <= j < hi)%N ->
     (forall a b, ~~ ((a == r) && (lo <= b < j)%N) -> Q a b = M a b) -> f j Q = f j M) ->
  forall a b, for_upto lo hi (fun j Q => upd Q r j (f j Q)) M a b =
    if (a == r) && (lo <= b < hi)%N then f b M else M a b.
Proof.
move=> le Hf.
pose P k (Q : grid (T := T)) := forall a b, Q a b = if (a == r) && (lo <= b < k)%N then f b M else M a b.
apply: (@upto_inv _ P) => // [a b|k Q lk H a b].
  by case: (leqP lo b) => lb; rewrite /= ?andbF.
rewrite updE H ltnS.
have fk : f k Q = f k M by apply: Hf => // c d /negbTE nn; rewrite H nn.
case: (eqVneq a r) => //= _; case: (ltngtP b k) => [lt|gt|->] //=.
by move: lk => /andP[-> _].
Qed.

Lemma col_loop (lo hi c : nat) (f : nat -> grid (T := T) -> T) M : (lo <= hi)%N ->
  (forall i Q, (lo <= i < hi)%N ->
     (forall a b, ~~ ((b == c) && (lo <= a < i)%N) -> Q a b = M a b) -> f i Q = f i M) ->
  forall a b, for_upto lo hi (fun i Q => upd Q i c (f i Q)) M a b =
    if (b == c) && (lo <= a < hi)%N then f a M else M a b.
Proof.
move=> le Hf.
pose P k (Q : grid (T := T)) := forall a b, Q a b = if (b == c) && (lo <= a < k)%N then f a M else M a b.
apply: (@upto_inv _ P) => // [a b|k Q lk H a b].
  by case: (leqP lo a) => lb; rewrite /= ?andbF.
rewrite updE H ltnS.
have fk : f k Q = f k M by apply: Hf => // d e /negbTE nn; rewrite H nn.
rewrite andbC; case: (eqVneq b c) => //= _; case: (ltngtP a k) => [lt|gt|->] //=.
by move: lk => /andP[-> _].
Qed.
End Grid.

Section Sums.
Variables (R : comRingType) (dv : R -> R -> R) (lt : R -> R -> bool).
Local Instance rops : Ops R := ring_ops dv lt.

Lemma sum_prodE lo hi (f g : nat -> R) : (lo <= hi)%N ->
  sum_prod lo hi f g = \sum_(lo <= p < hi) f p * g p.
Proof.
move=> le; rewrite /sum_prod.
apply: (@upto_inv _ (fun k s => s = \sum_(lo <= p < k) f p * g p)) => //; first by rewrite big_geq.
by move=> k s /andP[lk _] ->; rewrite big_nat_recr.
Qed.

Lemma sum_prod_eq lo hi (f g f' g' : nat -> R) : (lo <= hi)%N ->
  (forall p, (lo <= p < hi)%N -> f p = f' p /\ g p = g' p) -> sum_prod lo hi f g = sum_prod lo hi f' g'.
Proof.
move=> le H; rewrite !sum_prodE // !big_nat; apply: eq_bigr => p lp.
by have [-> ->] := H p lp.
Qed.
End Sums.
