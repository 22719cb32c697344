(** Doolittle's decomposition: lu_inplace computes L and U. *)
From mathcomp Require Import all_ssreflect all_algebra.
From Verif Require Import Base RotModel LUModel LUSpec LUFacts.
Set Implicit Arguments.
Unset Strict Implicit.
Unset Printing Implicit Defensive.
Import GRing.Theory.
Local Open Scope ring_scope.

Section Plain.
Variables (F : fieldType) (lt : F -> F -> bool).
Local Instance fops : Ops F := field_ops lt.
Variables (N : nat) (A : nat -> nat -> F).

(** state before column k *)
Definition plain_inv (k : nat) (M : nat -> nat -> F) : Prop := forall i j, (i < N)%N -> (j < N)%N ->
  [/\ (i <= j)%N -> (i < k)%N -> A i j = \sum_(0 <= p < i) M i p * M p j + M i j,
      (j < i)%N -> (j < k)%N -> M j j != 0 -> A i j = \sum_(0 <= p < j) M i p * M p j + M i j * M j j &
      (k <= i)%N -> (k <= j)%N -> M i j = A i j].

Definition plain_row k (M : nat -> nat -> F) : nat -> nat -> F :=
  for_upto k N (fun j M => upd M k j (sub (M k j) (sum_prod 0 k (fun p => M k p) (fun p => M p j)))) M.
Definition plain_col k (M : nat -> nat -> F) : nat -> nat -> F :=
  for_upto (k + 1) N (fun i M =>
    upd M i k (div (sub (M i k) (sum_prod 0 k (fun p => M i p) (fun p => M p k))) (M k k))) M.

Lemma plain_rowE k M a b : (k < N)%N -> plain_row k M a b =
  if (a == k) && (k <= b < N)%N then M k b - \sum_(0 <= p < k) M k p * M p b else M a b.
Proof.
move=> kN; rewrite /plain_row row_loop ?(ltnW kN) //.
  by case: ifP => // _; rewrite sum_prodE.
move=> j Q /andP[kj jN] H /=; congr (_ - _).
  by apply: H; rewrite ltnn andbF andbF.
apply: sum_prod_eq => // p /= pk; split; apply: H.
  by rewrite [(k <= p)%N]leqNgt pk andbF.
by rewrite ltn_eqF.
Qed.

Lemma plain_colE k M a b : (k < N)%N -> plain_col k M a b =
  if (b == k) && (k < a < N)%N then (M a k - \sum_(0 <= p < k) M a p * M p k) / M k k else M a b.
Proof.
move=> kN; rewrite /plain_col addn1 col_loop //.
  by case: ifP => // _; rewrite sum_prodE.
move=> j Q /andP[kj jN] H /=; congr (_ / _); last by apply: H; rewrite ltnn andbF.
congr (_ - _).
  by apply: H; rewrite ltnn andbF andbF.
apply: sum_prod_eq => // p /= pk; split; apply: H.
  by rewrite ltn_eqF.
by rewrite [(k < p)%N]ltnNge ltnW // andbF.
Qed.

Lemma plain_step k M : (k < N)%N -> plain_inv k M -> plain_inv k.+1 (plain_col k (plain_row k M)).
Proof.
move=> kN I; set Q := plain_col _ _.
have Q_out a b : ~~ ((k <= a) && (k <= b))%N -> Q a b = M a b.
  move=> H; rewrite /Q plain_colE //.
  case E1: ((b == k) && _).
    by case/andP: E1 => /eqP eb /andP[H1 _]; rewrite eb leqnn andbT (ltnW H1) in H.
  rewrite plain_rowE //; case E2: ((a == k) && _) => //.
  by case/andP: E2 => /eqP ea /andP[H1 _]; rewrite ea leqnn H1 in H.
have Q_row b : (k <= b < N)%N -> Q k b = M k b - \sum_(0 <= p < k) M k p * M p b.
  by move=> H; rewrite /Q plain_colE // ltnn andbF plain_rowE // eqxx H.
have Q_col a : (k < a < N)%N -> Q a k = (M a k - \sum_(0 <= p < k) M a p * M p k) / Q k k.
  move=> H; rewrite Q_row ?leqnn // /Q plain_colE // eqxx H /=.
  have /andP[H1 H2] := H.
  rewrite !plain_rowE // eqxx leqnn kN /= gtn_eqF //=; congr (_ / _); congr (_ - _).
  rewrite !big_nat; apply: eq_bigr => p /andP[_ pk].
  by rewrite !plain_rowE // (gtn_eqF H1) (ltn_eqF pk).
have Q_in a b : (k < a)%N -> (k < b)%N -> Q a b = M a b.
  by move=> H1 H2; rewrite /Q plain_colE // (gtn_eqF H2) /= plain_rowE // (gtn_eqF H1).
have sums m a b : (m <= k)%N ->
    \sum_(0 <= p < m) Q a p * Q p b = \sum_(0 <= p < m) M a p * M p b.
  move=> mk; rewrite !big_nat; apply: eq_bigr => p /andP[_ pm].
  have pk : (k <= p)%N = false by rewrite leqNgt (leq_trans pm mk).
  by rewrite !Q_out ?pk ?andbF.
move=> i j iN jN; have [I1 I2 I3] := I i j iN jN; split.
- move=> ij; rewrite ltnS leq_eqVlt => /orP[/eqP ik|ik]; last first.
    by rewrite sums ?(ltnW ik) // Q_out ?I1 // leqNgt ik.
  subst i; rewrite sums // Q_row ?ij // addrC subrK.
  by rewrite I3.
- move=> ij; rewrite ltnS leq_eqVlt => /orP[/eqP jk|jk]; last first.
    rewrite Q_out ?[(k <= j)%N]leqNgt ?jk ?andbF //.
    by rewrite sums ?(ltnW jk) // Q_out ?[(k <= j)%N]leqNgt ?jk ?andbF // => /(I2 ij jk).
  subst j => nz; rewrite sums // Q_col ?ij // divfK // addrC subrK.
  by rewrite I3 // ltnW.
- by move=> ki kj; rewrite Q_in // I3 // ltnW.
Qed.

Lemma plain_loop : plain_inv N (lu_inplace N A).
Proof.
rewrite /lu_inplace.
apply: (@upto_inv _ plain_inv) => //.
by move=> k M /andP[_ kN] I; apply: plain_step.
Qed.

Lemma sum_lower_upper (M : nat -> nat -> F) (i j : 'I_N) : (lower N M *m upper N M) i j =
  if (i <= j)%N then \sum_(0 <= p < i) M i p * M p j + M i j
  else \sum_(0 <= p < j) M i p * M p j + M i j * M j j.
Proof.
rewrite !mxE.
pose f p := (if (p < i)%N then M i p else (nat_of_ord i == p)%:R) * (if (p <= j)%N then M p j else 0).
have -> : \sum_(p < N) lower N M i p * upper N M p j = \sum_(0 <= p < N) f p.
  by rewrite big_mkord; apply: eq_bigr => p _; rewrite !mxE.
case: leqP => ij.
  rewrite (big_cat_nat _ (n := i)) ?(ltnW (ltn_ord i)) //=; congr (_ + _).
    rewrite !big_nat; apply: eq_bigr => p /andP[_ pi]; rewrite /f pi.
    by rewrite (leq_trans (ltnW pi) ij).
  rewrite big_ltn // /f ltnn eqxx ij mul1r big_nat big1 ?addr0 // => p /andP[ip pN].
  by rewrite ltnNge (ltnW ip) /= (ltn_eqF ip) mul0r.
rewrite (big_cat_nat _ (n := j)) ?(ltnW (ltn_ord j)) //=; congr (_ + _).
  rewrite !big_nat; apply: eq_bigr => p /andP[_ pj]; rewrite /f (ltn_trans pj ij).
  by rewrite ltnW.
rewrite big_ltn // /f ij leqnn big_nat big1 ?addr0 // => p /andP[jp pN].
by rewrite [(p <= j)%N]leqNgt jp mulr0.
Qed.

Lemma plain_correct : (forall k, (k.+1 < N)%N -> lu_inplace N A k k != 0) ->
  lower N (lu_inplace N A) *m upper N (lu_inplace N A) = to_mx N A.
Proof.
move=> nz; apply/matrixP => i j; rewrite sum_lower_upper [RHS]mxE.
have [I1 I2 _] := plain_loop (ltn_ord i) (ltn_ord j).
case: leqP => ij; first by rewrite -I1.
by rewrite -I2 // nz // (leq_ltn_trans ij).
Qed.
End Plain.
