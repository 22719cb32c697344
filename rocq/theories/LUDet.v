(** Determinants and small inverses against the determinant of mathcomp. *)
From mathcomp Require Import all_ssreflect all_fingroup all_algebra.
From Coq Require Import Ring Field.
From Verif Require Import Base RotModel LUModel LUSpec LUFacts LUPlain LUPivot.
Set Implicit Arguments.
Unset Strict Implicit.
Unset Printing Implicit Defensive.
Import Order.TTheory GRing.Theory Num.Theory.
Local Open Scope ring_scope.

Section Small.
Variables (R : comRingType) (dv : R -> R -> R) (lt : R -> R -> bool).
Local Instance rops' : Ops R := ring_ops dv lt.
Implicit Types M : nat -> nat -> R.

Definition comring_theory : @ring_theory (GRing.Zmodule.sort (GRing.Ring.zmodType (GRing.ComRing.ringType R)))
  (GRing.zero (GRing.Ring.zmodType (GRing.ComRing.ringType R))) (GRing.one (GRing.ComRing.ringType R))
  (@GRing.add (GRing.Ring.zmodType (GRing.ComRing.ringType R))) (@GRing.mul (GRing.ComRing.ringType R))
  (fun x y => x - y) (@GRing.opp (GRing.Ring.zmodType (GRing.ComRing.ringType R))) eq.
Proof.
split=> *; rewrite ?add0r ?mul1r ?mulrDl ?subrr //; first [exact: addrC|exact: addrA|exact: mulrC|exact: mulrA].
Qed.
Add Ring comring : comring_theory.
Ltac rng :=
  change (GRing.ComRing.zmodType R) with (GRing.Ring.zmodType (GRing.ComRing.ringType R));
  match goal with |- @eq _ ?x ?y => change (@eq (GRing.Zmodule.sort (GRing.Ring.zmodType (GRing.ComRing.ringType R))) x y) end; ring.

Lemma det_expand n M : \det (to_mx n.+1 M) =
  \sum_(j < n.+1) (-1) ^+ j * M 0%N j * \det (to_mx n (fun a b => M a.+1 (bump j b))).
Proof.
rewrite (expand_det_row _ ord0); apply: eq_bigr => j _.
rewrite /cofactor add0n mxE mulrA [_ * M _ _]mulrC; congr (_ * _ * \det _).
by apply/matrixP => a b; rewrite !mxE.
Qed.

Lemma det_one M : \det (to_mx 1 M) = M 0%N 0%N.
Proof. by rewrite det_expand big_ord_recl big_ord0 det_mx00 expr0 mul1r mulr1 addr0. Qed.

Lemma det_two M : \det (to_mx 2 M) = det2 M.
Proof.
rewrite det_expand !big_ord_recl big_ord0 !det_one /= /bump /= ?add1n ?add0n expr0 expr1.
rewrite /det2 /=; rng.
Qed.

Lemma det_three M : \det (to_mx 3 M) = det3 M.
Proof.
rewrite det_expand !big_ord_recl big_ord0 !det_two /det2 /= /bump /= ?add1n ?add0n expr0 expr1 expr2.
rewrite /det3 /=; rng.
Qed.

Lemma det_four M : \det (to_mx 4 M) = det4 M.
Proof.
rewrite det_expand !big_ord_recl big_ord0 !det_three /det3 /= /bump /= ?add1n ?add0n expr0 expr1 expr2 exprS expr2.
rewrite /det4 /=; rng.
Qed.

(** the closed inverses without the division: the adjugate *)
Local Notation adj_ops := (ring_ops (fun x _ : R => x) lt).
Ltac ords i := let m := fresh "m" in let H := fresh "H" in
  case: i => m H; do 4 (try (case: m H => [H|m H]; [|try by []])).
Ltac entry := rewrite !mxE !big_ord_recl big_ord0 !mxE /= /bump /= ?add1n ?add0n /=.

Lemma adj_two M : to_mx 2 M *m to_mx 2 (@inv2 R adj_ops M) = (det2 M)%:M.
Proof. by apply/matrixP => i j; ords i; ords j; entry; rewrite /det2 /inv2 /upd /= ?mulr1n ?mulr0n; rng. Qed.
Lemma adj_three M : to_mx 3 M *m to_mx 3 (@inv3 R adj_ops M) = (det3 M)%:M.
Proof. by apply/matrixP => i j; ords i; ords j; entry; rewrite /det3 /inv3 /upd /= ?mulr1n ?mulr0n; rng. Qed.
Lemma adj_four M : to_mx 4 M *m to_mx 4 (@inv4 R adj_ops M) = (det4 M)%:M.
Proof. by apply/matrixP => i j; ords i; ords j; entry; rewrite /det4 /inv4 /upd /= ?mulr1n ?mulr0n; rng. Qed.
End Small.

Section Inverse.
Variables (F : fieldType) (lt : F -> F -> bool).
Local Instance fops' : Ops F := field_ops lt.
Local Notation adj_ops := (@ring_ops F (fun x _ : F => x) lt).
Implicit Types M : nat -> nat -> F.
Ltac ords i := let m := fresh "m" in let H := fresh "H" in
  case: i => m H; do 4 (try (case: m H => [H|m H]; [|try by []])).

Lemma scale_two M : to_mx 2 (inv2 M) = (det2 M)^-1 *: to_mx 2 (@inv2 F adj_ops M).
Proof.
have E : det2 M = M 0%N 0%N * M 1%N 1%N - M 0%N 1%N * M 1%N 0%N.
  by rewrite /det2 /= [M 1%N 0%N * _]mulrC.
by apply/matrixP => i j; rewrite !mxE E; ords i; ords j; rewrite mulrC.
Qed.
Lemma scale_three M : to_mx 3 (inv3 M) = (det3 M)^-1 *: to_mx 3 (@inv3 F adj_ops M).
Proof. by apply/matrixP => i j; rewrite !mxE; ords i; ords j; rewrite mulrC. Qed.
Lemma scale_four M : to_mx 4 (inv4 M) = (det4 M)^-1 *: to_mx 4 (@inv4 F adj_ops M).
Proof. by apply/matrixP => i j; rewrite !mxE; ords i; ords j; rewrite mulrC. Qed.

Lemma inverse_of_adj n (A B C : 'M[F]_n) (d : F) : d != 0 -> C = d^-1 *: B -> A *m B = d%:M ->
  A *m C = 1%:M /\ C *m A = 1%:M.
Proof.
move=> nz -> AB; have H : A *m (d^-1 *: B) = 1%:M.
  by rewrite -scalemxAr AB scale_scalar_mx mulVf.
by split=> //; apply: mulmx1C.
Qed.
End Inverse.

Section Diagonal.
Variables (F : fieldType) (lt : F -> F -> bool).
Local Instance fops'' : Ops F := field_ops lt.
Implicit Types M : nat -> nat -> F.

Lemma diagonal_productE N M : (0 < N)%N -> diagonal_product N M = \prod_(i < N) M i i.
Proof.
move=> N0; rewrite -(big_mkord xpredT (fun i => M i i)) /diagonal_product.
apply: (@upto_inv _ (fun k s => s = \prod_(0 <= i < k) M i i)) => //; first by rewrite big_nat1.
by move=> k s /andP[k0 _] ->; rewrite big_nat_recr.
Qed.

Lemma det_lower N M : \det (lower N M) = 1.
Proof.
rewrite det_trig; last first.
  by apply/is_trig_mxP => i j ij; rewrite mxE ltnNge (ltnW ij) /= (ltn_eqF ij : (i == j) = false).
by rewrite big1 // => i _; rewrite mxE ltnn eqxx.
Qed.

Lemma det_upper N M : \det (upper N M) = \prod_(i < N) M i i.
Proof.
rewrite -det_tr det_trig; last first.
  by apply/is_trig_mxP => i j ij; rewrite !mxE leqNgt ij.
by apply: eq_bigr => i _; rewrite !mxE leqnn.
Qed.
End Diagonal.
