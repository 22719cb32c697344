(** Gauss-Jordan inversion with full pivoting: inverse_pivot. *)
From mathcomp Require Import all_ssreflect all_fingroup all_algebra.
From Verif Require Import Base RotModel LUModel LUSpec LUFacts.
Set Implicit Arguments.
Unset Strict Implicit.
Unset Printing Implicit Defensive.
Import Order.TTheory GRing.Theory Num.Theory.
Local Open Scope ring_scope.

Section Eliminate.
Variables (F : fieldType) (lt : F -> F -> bool).
Local Instance fops : Ops F := field_ops lt.
Variable N : nat.
Implicit Types (M : nat -> nat -> F) (S : nat -> bool).

Definition elim_row c M : nat -> nat -> F :=
  for_upto 0 N (fun j M' => upd M' c j (M' c j * (1 / M c c))) (upd M c c 1).

Lemma elim_rowE c M a b : (c < N)%N -> (b < N)%N -> elim_row c M a b =
  if a == c then (if b == c then 1 else M c b) / M c c else M a b.
Proof.
move=> cN bN; rewrite /elim_row row_loop //.
  by rewrite bN andbT !updE eqxx; case: (eqVneq a c) => //= _; rewrite mulrA mulr1.
by move=> j Q jN H /=; rewrite H ?ltnn ?andbF.
Qed.

Lemma eliminateE c M a b : (c < N)%N -> (a < N)%N -> (b < N)%N -> eliminate N c M a b =
  if a == c then (if b == c then 1 else M c b) / M c c
  else (if b == c then 0 else M a b) - M a c * ((if b == c then 1 else M c b) / M c c).
Proof.
move=> cN aN bN; rewrite /eliminate -/(elim_row c M).
set Q0 := elim_row c M.
have Q0c j : (j < N)%N -> Q0 c j = (if j == c then 1 else M c j) / M c c.
  by move=> jN; rewrite /Q0 elim_rowE // eqxx.
have Q0r i j : i != c -> (j < N)%N -> Q0 i j = M i j.
  by move=> ic jN; rewrite /Q0 elim_rowE // (negbTE ic).
pose P m (Q : nat -> nat -> F) := forall i j, (i < N)%N -> (j < N)%N -> Q i j =
  if (i == c) || (m <= i)%N then Q0 i j
  else (if j == c then 0 else M i j) - M i c * Q0 c j.
have : P N (for_upto 0 N (fun j M' => if Nat.eqb j c then M' else
    for_upto 0 N (fun k M1 => upd M1 j k (add (M1 j k) (mul (neg (M' j c)) (M1 c k)))) (upd M' j c zero)) Q0).
  apply: (@upto_inv _ P) => // [i j iN jN|m Q /andP[_ mN] IH i j iN jN].
    by rewrite leq0n orbT.
  rewrite eqbE; have [mc|mc] := eqVneq m c.
    rewrite IH // mc; case: (eqVneq i c) => //= ic; by case: ltngtP ic.
  rewrite row_loop //; last first.
    by move=> k Q' kN H /=; rewrite !H ?ltnn ?andbF // eq_sym (negbTE mc).
  rewrite !updE eqxx jN andbT !(eq_sym c) (negbTE mc) /= !IH // leqnn orbT eqxx /=.
  have [->|im] := eqVneq i m.
    rewrite (negbTE mc) ltnn /= (Q0r m c) // mulNr.
    by case: (eqVneq j c) => [->|jc] //=; rewrite (Q0r m j).
  by have -> : (m < i)%N = (m <= i)%N by case: ltngtP im.
move=> /(_ a b aN bN) ->; rewrite leqNgt aN /= orbF.
by case: (eqVneq a c) => [->|ac]; rewrite !Q0c.
Qed.

(** in place, column j holds column j of the left block before j is pivoted and of
    the right block afterwards *)
Definition left_block S M : 'M[F]_N := \matrix_(i, j) (if S j then (i == j)%:R else M i j).
Definition right_block S M : 'M[F]_N := \matrix_(i, j) (if S j then M i j else (i == j)%:R).
Definition elem (c : 'I_N) M : 'M[F]_N :=
  \matrix_(i, l) (if l == c then (if i == c then 1 else - M i c) / M c c else (i == l)%:R).

Lemma elem_mul c M (X : 'M[F]_N) i j : (elem c M *m X) i j =
  if i == c then X c j / M c c else X i j - M i c / M c c * X c j.
Proof.
rewrite !mxE (bigD1 c) //= !mxE eqxx.
have [->|ic] := eqVneq i c.
  rewrite big1 ?addr0 ?mul1r ?[_ * X _ _]mulrC // => l lc; rewrite !mxE (negbTE lc).
  by rewrite eq_sym (negbTE lc) mul0r.
rewrite (bigD1 i) //= !mxE (negbTE ic) eqxx mul1r big1 ?addr0.
  by rewrite addrC !mulNr.
by move=> l /andP[lc li]; rewrite !mxE (negbTE lc) eq_sym (negbTE li) mul0r.
Qed.

Lemma eliminate_blocks (c : 'I_N) S M : M c c != 0 -> S c = false ->
  left_block (put S c true) (eliminate N c M) = elem c M *m left_block S M /\
  right_block (put S c true) (eliminate N c M) = elem c M *m right_block S M.
Proof.
move=> nz Sc; split; apply/matrixP => i j; rewrite elem_mul !mxE putE eliminateE //.
  rewrite -![_ == nat_of_ord c]/(_ == c) (eq_sym c j).
  have [->|jc] := eqVneq j c.
    rewrite Sc; case: (eqVneq i c) => [_|ic]; first by rewrite divff.
    by rewrite -mulrA mulVf // mulr1 subrr.
  case: ifP => Sj; last by case: eqP => // _; rewrite mulrAC -mulrA.
  have [->|ic] := eqVneq i c; first by rewrite eq_sym (negbTE jc) mul0r.
  by rewrite mulr0 subr0.
rewrite -![_ == nat_of_ord c]/(_ == c) (eq_sym c j).
have [->|jc] := eqVneq j c.
  rewrite Sc; case: (eqVneq i c) => [_|ic] //.
  by rewrite mul1r mulr1.
case: ifP => Sj; first by case: eqP => // _; rewrite mulrAC -mulrA.
have [->|ic] := eqVneq i c; first by rewrite eq_sym (negbTE jc) mul0r.
by rewrite mulr0 subr0.
Qed.

Lemma blocks_step (c : 'I_N) S M (A : 'M[F]_N) : M c c != 0 -> S c = false ->
  right_block S M *m A = left_block S M ->
  right_block (put S c true) (eliminate N c M) *m A = left_block (put S c true) (eliminate N c M).
Proof.
by move=> nz Sc H; have [-> ->] := eliminate_blocks nz Sc; rewrite -mulmxA H.
Qed.
End Eliminate.

(** rows dominated by their diagonal with a margin [m] > 1 *)
Section GaussJordan.
Variables (F : realFieldType) (m : F).
Local Instance oops : Ops F := ordered_ops F.
Local Notation fabs := (fun x : F => `|x|).
Hypothesis m_gt1 : 1 < m.
Variable N : nat.
Implicit Types (M : nat -> nat -> F) (S : nat -> bool).

Let m_pos : 0 < m. Proof. exact: lt_trans ltr01 m_gt1. Qed.
Definition wt S k : F := if S k then m else 1.
Definition rsum S M (i : nat) (P : pred 'I_N) : F := \sum_(k < N | P k) wt S k * `|M i k|.
Definition gj_dom S M : Prop := forall i : 'I_N,
  if S i then rsum S M i xpredT <= 1 else rsum S M i (fun k => k != i) + m <= `|M i i|.

Lemma wt_ge0 S k : 0 <= wt S k.
Proof. by rewrite /wt; case: ifP => _; [apply: ltW|apply: ler01]. Qed.

Lemma rsum_ge0 S M i P : 0 <= rsum S M i P.
Proof. by apply: sumr_ge0 => k _; rewrite mulr_ge0 ?wt_ge0. Qed.

Section Step.
Variables (S : nat -> bool) (M : nat -> nat -> F) (c : 'I_N).
Hypothesis Sc : S c = false.
Hypothesis D : gj_dom S M.
Let M' := eliminate N c M.
Let S' := put S c true.
Let p := `|M c c|.
Let T := rsum S M c (fun k => k != c).

Let Tp : T + m <= p. Proof. by have := D c; rewrite Sc. Qed.
Let p_pos : 0 < p.
Proof. by apply: lt_le_trans Tp; rewrite ltr_paddl // rsum_ge0. Qed.
Let q_le1 : (T + m) / p <= 1. Proof. by rewrite ler_pdivr_mulr // mul1r. Qed.

Lemma step_offdiag (i : 'I_N) (P : pred 'I_N) : i != c ->
  rsum S' M' i (fun k => P k && (k != c)) <=
  rsum S M i (fun k => P k && (k != c)) + `|M i c| / p * rsum S M c (fun k => P k && (k != c)).
Proof.
move=> ic; rewrite /rsum mulr_sumr -big_split /=; apply: ler_sum => k /andP[_ kc].
have kc' : (nat_of_ord k == c) = false by apply/negbTE.
have ic' : (nat_of_ord i == c) = false by apply/negbTE.
rewrite /wt /S' putE kc' /M' eliminateE // kc' ic'.
rewrite -/(wt S k) [_ / p * _]mulrCA -mulrDr ler_wpmul2l ?wt_ge0 //.
apply: le_trans (ler_norm_sub _ _) _; rewrite ler_add2l !normrM normfV /p.
by rewrite -mulrA [_^-1 * _]mulrC.
Qed.

Lemma step_pivot_col (i : 'I_N) : i != c -> wt S' c * `|M' i c| = `|M i c| / p * m.
Proof.
move=> ic; have ic' : (nat_of_ord i == c) = false by apply/negbTE.
rewrite /wt /S' putE eqxx /M' eliminateE // ic' eqxx sub0r normrN !normrM normfV normr1 mul1r.
by rewrite mulrC.
Qed.

Lemma gj_step : gj_dom S' M'.
Proof.
move=> i; rewrite /S' putE -/S' -[_ == _]/(i == c).
have [->|ic] := eqVneq i c.
  rewrite /rsum (bigD1 c) //=.
  rewrite (_ : \sum_(k < N | k != c) _ = T / p).
    rewrite /wt /S' putE eqxx /M' eliminateE // eqxx normrM normfV normr1 mul1r -mulrDl.
    by rewrite addrC.
  rewrite /T /rsum mulr_suml; apply: eq_bigr => k kc.
  have kc' : (nat_of_ord k == c) = false by apply/negbTE.
  by rewrite /wt /S' putE kc' /M' eliminateE // eqxx kc' normrM normfV mulrA.
have := D i; case: ifP => Si Di.
  apply: le_trans Di; rewrite /rsum (bigD1 c) //= step_pivot_col //.
  have := step_offdiag xpredT ic; rewrite /rsum /= => H.
  apply: le_trans (ler_add (lexx _) H) _.
  rewrite [X in _ <= X](bigD1 c) //= addrCA addrC ler_add2r.
  rewrite -/(rsum S M c (fun k => k != c)) -/T addrC -mulrDr mulrAC -mulrA /wt Sc mul1r.
  by rewrite -[X in _ <= X]mulr1 ler_wpmul2l.
have ci : c != i by rewrite eq_sym.
set V := rsum S M i (fun k => (k != i) && (k != c)).
set T' := rsum S M c (fun k => (k != i) && (k != c)).
have TE : T = `|M c i| + T'.
  rewrite /T /rsum (bigD1 i) //= /wt Si mul1r; congr (_ + _).
  by apply: eq_bigl => k; rewrite andbC.
have diag : `|M i i| - `|M i c| / p * `|M c i| <= `|M' i i|.
  have ic' : (nat_of_ord i == c) = false by apply/negbTE.
  rewrite /M' eliminateE // ic'; apply: le_trans (ler_sub_dist _ _).
  by rewrite ler_add2l ler_opp2 !normrM normfV -mulrA [_^-1 * _]mulrC.
apply: le_trans diag; rewrite ler_subr_addr; apply: le_trans Di.
rewrite addrAC ler_add2r /rsum (bigD1 c) //= step_pivot_col //.
have := step_offdiag (fun k => k != i) ic; rewrite -/V -/T' => H.
rewrite [X in _ <= X](bigD1 c) //= -/(rsum S M i _) -/V /wt Sc mul1r -/(rsum S' M' i _).
rewrite addrAC; apply: le_trans (ler_add (lexx _) H) _.
rewrite [V + _]addrC addrA ler_add2r -!mulrDr -addrA -TE [m + _]addrC mulrAC -mulrA.
by rewrite -[X in _ <= X]mulr1 ler_wpmul2l.
Qed.
End Step.

(** with dominated rows the pivot is the largest diagonal element not used before *)
Lemma find_full_pivotE S M : let '(pv, r, c) := find_full_pivot fabs N M S in
  [/\ pv = `|M r c|,
      ((r == 0) && (c == 0))%N || [&& (r < N)%N, (c < N)%N, ~~ S r & ~~ S c],
      `|M 0%N 0%N| <= pv &
      forall j k, (j < N)%N -> (k < N)%N -> ~~ S j -> ~~ S k -> `|M j k| <= pv].
Proof.
pose G (Q : nat -> nat -> bool) (s : F * nat * nat) := let '(pv, r, c) := s in
  [/\ pv = `|M r c|,
      ((r == 0) && (c == 0))%N || [&& (r < N)%N, (c < N)%N, ~~ S r & ~~ S c],
      `|M 0%N 0%N| <= pv &
      forall j k, (j < N)%N -> (k < N)%N -> Q j k -> ~~ S j -> ~~ S k -> `|M j k| <= pv].
suff : G (fun j _ => (j < N)%N) (@find_full_pivot F oops fabs N M S).
  case: (find_full_pivot _ _ _ _) => [[pv r] c] [H1 H2 H3 H4]; split=> //.
  by move=> j k jN kN; apply: H4.
rewrite /find_full_pivot.
apply: (@upto_inv _ (fun n => G (fun j _ => (j < n)%N))) => // j s /andP[_ jN] H.
case: ifP => Sj.
  case: s H => [[pv r] c] [H1 H2 H3 H4]; split=> // a b aN bN; rewrite ltnS leq_eqVlt.
  by case/orP=> [/eqP ->|aj]; [rewrite Sj|apply: H4].
have : G (fun a b => (a < j)%N || (a == j) && (b < N)%N)
   (for_upto 0 N (fun k '(pivot, row, col) => if S k then (pivot, row, col) else
      if pivot < `|M j k| then (`|M j k|, j, k) else (pivot, row, col)) s).
  apply: (@upto_inv _ (fun n => G (fun a b => (a < j)%N || (a == j) && (b < n)%N))) => //.
    case: s H => [[pv r] c] [H1 H2 H3 H4]; split=> // a b aN bN.
    by rewrite ltn0 andbF orbF; apply: H4.
  move=> k [[pv r] c] /andP[_ kN] [H1 H2 H3 H4]; case: ifP => Sk.
    split=> // a b aN bN Q Sa Sb; apply: H4 => //.
    case/orP: Q => [->//|/andP[-> ]]; rewrite ltnS leq_eqVlt => /orP[/eqP e|->]; last by rewrite orbT.
    by rewrite e Sk in Sb.
  case: ifP => /= L.
    split=> //; first by rewrite jN kN Sj Sk orbT.
      by apply: le_trans (ltW L).
    move=> a b aN bN; rewrite ltnS [(b <= k)%N]leq_eqVlt andb_orr orbCA.
    case/orP => [/andP[/eqP -> /eqP -> //]|Q Sa Sb].
    by apply: le_trans (ltW L); apply: H4.
  split=> // a b aN bN; rewrite ltnS [(b <= k)%N]leq_eqVlt andb_orr orbCA.
  case/orP => [/andP[/eqP -> /eqP ->] _ _|Q].
    by rewrite leNgt L.
  exact: H4.
set s' := for_upto _ _ _ _; case: s' => [[pv r] c] [H1 H2 H3 H4]; split=> // a b aN bN.
by rewrite ltnS leq_eqVlt => Q; apply: H4 => //; rewrite bN andbT orbC.
Qed.

Lemma dom_pivot_diag S M : gj_dom S M -> (exists c : 'I_N, S c = false) ->
  exists c : 'I_N, [/\ find_full_pivot fabs N M S = (`|M c c|, nat_of_ord c, nat_of_ord c),
    S c = false & M c c != 0].
Proof.
move=> D [c0 Sc0]; have := find_full_pivotE S M.
case: (find_full_pivot _ _ _ _) => [[pv r] c] [H1 H2 H3 H4].
have big : m <= pv.
  have := D c0; rewrite Sc0 => Dc; apply: le_trans (H4 c0 c0 _ _ _ _); rewrite ?Sc0 //.
  by apply: le_trans Dc; rewrite ler_addr rsum_ge0.
have N0 : (0 < N)%N by apply: leq_ltn_trans (ltn_ord c0).
have : [&& (r < N)%N, (c < N)%N, ~~ S r & ~~ S c].
  case/orP: H2 => // /andP[/eqP r0 /eqP c0']; subst r c; rewrite N0 /= andbb.
  apply/negP => S0; have := D (Ordinal N0); rewrite /= S0 /rsum (bigD1 (Ordinal N0)) //=.
  rewrite /wt S0 -H1 => L.
  have : m * pv <= 1 by apply: le_trans L; rewrite ler_addl sumr_ge0 // => k _; rewrite mulr_ge0 ?wt_ge0.
  rewrite leNgt (lt_le_trans m_gt1) //; apply: (le_trans big).
  rewrite -[X in X <= _]mul1r; apply: ler_wpmul2r; last exact: ltW.
  exact: le_trans (ltW m_pos) big.
case/and4P => rN cN Sr Sc.
have rc : r = c.
  apply/eqP; apply/negPn/negP => nrc.
  have := D (Ordinal rN); rewrite /= (negbTE Sr) => L.
  have := H4 r r rN rN Sr Sr; rewrite H1 leNgt (lt_le_trans _ L) //.
  apply: (@le_lt_trans _ _ (rsum S M r (fun k => k != Ordinal rN))); last by rewrite ltr_addl.
  rewrite /rsum (bigD1 (Ordinal cN)) /=; last by apply: contra nrc => /eqP [->].
  rewrite /wt (negbTE Sc) mul1r ler_addl sumr_ge0 // => k _.
  by rewrite mulr_ge0 ?wt_ge0.
subst r; exists (Ordinal cN); split=> //=; first by rewrite H1.
  exact: negbTE.
by rewrite -normr_gt0 -H1; apply: lt_le_trans m_pos _.
Qed.

Definition piv_count S : nat := \sum_(k < N) S k.

Lemma piv_count_le S : (piv_count S <= N)%N.
Proof. by rewrite -[X in (_ <= X)%N]card_ord -sum1_card; apply: leq_sum => k _; case: (S k). Qed.

Lemma piv_count_free S : (piv_count S < N)%N -> exists c : 'I_N, S c = false.
Proof.
move=> lt; case: (pickP (fun c : 'I_N => ~~ S c)) => [c /negbTE|all]; first by exists c.
move: lt; rewrite /piv_count (eq_bigr (fun=> 1%N)) ?sum1_card ?card_ord ?ltnn // => k _.
by have := all k; case: (S k).
Qed.

Lemma piv_count_full S : piv_count S = N -> forall c : 'I_N, S c.
Proof.
move=> e c; apply/negPn/negP => nc.
suff : (piv_count S < N)%N by rewrite e ltnn.
rewrite /piv_count (bigD1 c) //= (negbTE nc) add0n.
apply: (@leq_ltn_trans (\sum_(k < N | k != c) 1)).
  by apply: leq_sum => k _; case: (S k).
rewrite sum1_card (_ : #|_| = N.-1) ?prednK ?(leq_ltn_trans (leq0n c)) //.
by rewrite -[in RHS](card_ord N) -(cardC1 c); apply: eq_card.
Qed.

Lemma piv_count_put S (c : 'I_N) : S c = false -> piv_count (put S c true) = (piv_count S).+1.
Proof.
move=> Sc; rewrite /piv_count (bigD1 c) //= [in RHS](bigD1 c) //= Sc putE eqxx add0n add1n.
by congr _.+1; apply: eq_bigr => k kc; rewrite putE (_ : (nat_of_ord k == c) = false) //; apply/negbTE.
Qed.

Variable A : nat -> nat -> F.
Hypothesis A_dom : forall i : 'I_N, \sum_(k < N | k != i) `|A i k| + m <= `|A i i|.

Lemma gj_start : gj_dom (fun _ => false) A.
Proof. by move=> i; rewrite /= /rsum /wt; under eq_bigr do rewrite mul1r; apply: A_dom. Qed.

Definition gj_inv k (s : inv_state (T := F)) : Prop :=
  [/\ gj_dom (is_piv s) (is_m s), piv_count (is_piv s) = k,
      (forall i, (i < k)%N -> is_rows s i = is_cols s i) &
      right_block N (is_piv s) (is_m s) *m to_mx N A = left_block N (is_piv s) (is_m s)].

Lemma gj_loop : gj_inv N (inverse_loop fabs N A).
Proof.
rewrite /inverse_loop; apply: upto_inv => // [|i s /andP[_ iN] [H1 H2 H3 H4]].
  split=> //=; first exact: gj_start.
  - by rewrite /piv_count big1.
  - have -> : right_block N (fun=> false) A = 1%:M by apply/matrixP => i j; rewrite !mxE.
    by rewrite mul1mx; apply/matrixP => i j; rewrite !mxE.
rewrite /inverse_step.
have [c [-> Sc nz]] := dom_pivot_diag H1 (piv_count_free (S := is_piv s) (eq_ind_r (fun x => (x < N)%N) iN H2)).
rewrite eqbE eqxx; split=> /=.
- exact: gj_step.
- by rewrite piv_count_put // H2.
- move=> j; rewrite ltnS leq_eqVlt !putE; case: (eqVneq j i) => //= _ ji; exact: H3.
- exact: blocks_step.
Qed.

Lemma gj_correct : to_mx N (inverse_pivot fabs N A) *m to_mx N A = 1%:M.
Proof.
rewrite /inverse_pivot; set s := inverse_loop _ _ _.
have [_ H2 H3 H4] : gj_inv N s := gj_loop.
have -> : for_upto 0 N (fun i M => if Nat.eqb (is_rows s i) (is_cols s i) then M
     else swap_cols N (is_rows s i) (is_cols s i) M) (is_m s) = is_m s.
  apply: (@upto_inv _ (fun _ M => M = is_m s)) => // i M /andP[_ iN] ->.
  by rewrite (H3 i iN) eqbE eqxx.
have full := piv_count_full H2.
have <- : right_block N (is_piv s) (is_m s) = to_mx N (is_m s).
  by apply/matrixP => i j; rewrite !mxE full.
rewrite H4; apply/matrixP => i j; rewrite !mxE full //.
Qed.
End GaussJordan.
