(** LU decomposition with partial pivoting: lu_pivot_inplace. *)
From mathcomp Require Import all_ssreflect all_fingroup all_algebra.
From Verif Require Import Base RotModel LUModel LUSpec LUFacts LUPlain.
Set Implicit Arguments.
Unset Strict Implicit.
Unset Printing Implicit Defensive.
Import Order.TTheory GRing.Theory Num.Theory GroupScope.
Local Open Scope ring_scope.

Section Pivot.
Variables (F : realFieldType) (eps : F).
Local Instance oops : Ops F := ordered_ops F.
Local Notation fabs := (fun x : F => `|x|).
Variables (N : nat) (A : nat -> nat -> F).
Hypothesis eps_pos : 0 < eps.

Lemma schurE k M a b : (k < N)%N -> schur N k M a b =
  if (k < a < N)%N then
    if b == k then M a k / M k k
    else if (k < b < N)%N then M a b - M a k / M k k * M k b else M a b
  else M a b.
Proof.
move=> kN; rewrite /schur.
pose P m (Q : nat -> nat -> F) := forall a b, Q a b =
  if (k < a < m)%N then
    if b == k then M a k / M k k
    else if (k < b < N)%N then M a b - M a k / M k k * M k b else M a b
  else M a b.
rewrite plusE addn1; apply: (@upto_inv _ P) => // [c d|i Q /andP[ki iN] H c d].
  by case: (leqP c k) => ck; rewrite /= ?andbF // ltnS leqNgt ck.
have Qk e : Q k e = M k e by rewrite H ltnn.
have Qi e : Q i e = M i e by rewrite H ltnn andbF.
rewrite row_loop //; last first.
  move=> j Q' /andP[kj jN] H' /=.
  by rewrite !H' ?eqxx ?ltnn ?andbF ?(ltn_eqF ki) //= -leqNgt.
rewrite !updE !eqxx !(ltn_eqF ki) ?(gtn_eqF ki) /= !Qk !Qi H ltnS.
case: (ltngtP c i) => [ci|ic|->] /=.
- by [].
- by [].
- rewrite ki /=; case: (eqVneq d k) => [->|dk]; first by rewrite ltnn.
  by case: ifP.
Qed.

Lemma find_pivotE k M : (k < N)%N ->
  let '(max, row) := find_pivot fabs N k M in
  [/\ (k <= row < N)%N, max = (if row == k then M k k else `|M row k|), M k k <= max &
      forall i, (k < i < N)%N -> `|M i k| <= max].
Proof.
move=> kN; rewrite /find_pivot plusE addn1.
pose P m (s : F * nat) := let '(max, row) := s in
  [/\ (k <= row < m)%N, max = (if row == k then M k k else `|M row k|), M k k <= max &
      forall i, (k < i < m)%N -> `|M i k| <= max].
apply: (@upto_inv _ P) => // [|i [max row] /andP[ki iN]] /=.
  by rewrite eqxx leqnn ltnSn; split=> // i /andP[H1]; rewrite ltnS leqNgt H1.
case=> /andP[kr ri] e H1 H2; case: ifP => c /=.
  rewrite (gtn_eqF ki) (ltnW ki) ltnSn; split=> //; first exact: le_trans (ltW c).
  move=> j /andP[kj]; rewrite ltnS leq_eqVlt => /orP[/eqP ->//|ji].
  by apply: le_trans (ltW c); apply: H2; rewrite kj.
rewrite kr (ltn_trans ri (ltnSn _)); split=> // j /andP[kj].
rewrite ltnS leq_eqVlt => /orP[/eqP ->|ji]; last by apply: H2; rewrite kj.
by rewrite leNgt c.
Qed.

(** what M means for the rows of A taken in the order [ord] *)
Definition lu_rel (k : nat) (ord : nat -> nat) (M : nat -> nat -> F) : Prop :=
  forall i j, (i < N)%N -> (j < N)%N ->
  [/\ (i <= j)%N -> (i < k)%N -> A (ord i) j = \sum_(0 <= p < i) M i p * M p j + M i j,
      (j < i)%N -> (j < k)%N -> A (ord i) j = \sum_(0 <= p < j) M i p * M p j + M i j * M j j &
      (k <= i)%N -> (k <= j)%N -> A (ord i) j = \sum_(0 <= p < k) M i p * M p j + M i j].

Lemma lu_rel_permute k ord M (t : nat -> nat) ord' M' : (k < N)%N ->
  (forall i, (i < k)%N -> t i = i) -> (forall i, (k <= i < N)%N -> (k <= t i < N)%N) ->
  (forall i, (i < N)%N -> ord' i = ord (t i)) ->
  (forall i j, (i < N)%N -> (j < N)%N -> M' i j = M (t i) j) ->
  lu_rel k ord M -> lu_rel k ord' M'.
Proof.
move=> kN t1 t2 eo em H i j iN jN.
have t3 : (k <= i)%N -> (k <= t i)%N /\ (t i < N)%N.
  by move=> ki; apply/andP; apply: t2; rewrite ki.
have tN : (t i < N)%N by case: (ltnP i k) => [/t1 -> //|/t3 []].
have sums m : (m <= k)%N ->
    \sum_(0 <= p < m) M' i p * M' p j = \sum_(0 <= p < m) M (t i) p * M p j.
  move=> mk; rewrite !big_nat; apply: eq_bigr => p /andP[_ pm].
  have pk := leq_trans pm mk; have pN := ltn_trans pk kN.
  by rewrite !em // (t1 p).
have [H1 H2 H3] := H (t i) j tN jN; rewrite !eo //; split.
- move=> ij ik; rewrite sums 1?ltnW // em //; rewrite t1 // in H1 *.
  exact: H1.
- move=> ij jk; rewrite sums 1?ltnW // !em // (t1 j) //; apply: H2 => //.
  by case: (ltnP i k) => [/t1 -> //|/t3 [ki _]]; apply: leq_trans jk _.
- move=> ki kj; rewrite sums // em //; apply: H3 => //.
  by case: (t3 ki).
Qed.

Lemma lu_rel_schur k ord M : (k < N)%N -> M k k != 0 -> lu_rel k ord M -> lu_rel k.+1 ord (schur N k M).
Proof.
move=> kN nz I; set Q := schur _ _ _.
have Q_out a b : ~~ ((k < a) && (k <= b))%N -> Q a b = M a b.
  rewrite negb_and -!leqNgt -ltnNge /Q schurE // => /orP[H|H].
    by rewrite ltnNge H.
  by rewrite (ltn_eqF H) [(k < b)%N]ltnNge (ltnW H); case: ifP.
have Q_col a : (k < a < N)%N -> Q a k = M a k / M k k.
  by move=> H; rewrite /Q schurE // H eqxx.
have Q_in a b : (k < a < N)%N -> (k < b < N)%N -> Q a b = M a b - Q a k * M k b.
  by move=> H1 H2; rewrite Q_col // /Q schurE // H1 H2 gtn_eqF //; case/andP: H2.
have sums m a b : (m <= k)%N ->
    \sum_(0 <= p < m) Q a p * Q p b = \sum_(0 <= p < m) M a p * M p b.
  move=> mk; rewrite !big_nat; apply: eq_bigr => p /andP[_ pm].
  have pk := leq_trans pm mk.
  by rewrite !Q_out // negb_and -?leqNgt -?ltnNge ?(ltnW pk) ?pk ?orbT.
move=> i j iN jN; have [I1 I2 I3] := I i j iN jN; split.
- move=> ij; rewrite ltnS => ik; rewrite sums // Q_out ?negb_and -?leqNgt ?ik //.
  move: ik; rewrite leq_eqVlt => /orP[/eqP ik|ik]; last exact: I1.
  by rewrite ik in I3 ij *; apply: I3.
- move=> ij; rewrite ltnS leq_eqVlt => /orP[/eqP jk|jk]; last first.
    by rewrite sums ?(ltnW jk) // !Q_out ?negb_and -?leqNgt -?ltnNge ?jk ?orbT //; apply: I2.
  subst j; rewrite sums // Q_col ?ij // (Q_out k k) ?ltnn // divfK //.
  by apply: I3; rewrite // ltnW.
- move=> ki kj; rewrite big_nat_recr //= sums // (Q_in i j) ?ki ?kj // (Q_out k j) ?ltnn //.
  by rewrite -addrA [Q i k * _ + _]addrC subrK; apply: I3; apply: ltnW.
Qed.

(** state before column k, unless the loop has returned 0 *)
Definition pivot_inv (k : nat) (s : lu_state (T := F)) : Prop := ls_stop s = false ->
  [/\ lu_rel k (ls_order s) (ls_m s) &
      exists2 p : 'S_N, (forall i : 'I_N, ls_order s i = p i) & ls_odd s = odd_perm p].

Lemma pivot_step k s : (k < N)%N -> pivot_inv k s -> pivot_inv k.+1 (lu_pivot_step fabs eps N k s).
Proof.
move=> kN I; rewrite /lu_pivot_step.
case: ifP => [st|/I [R [p po pp]]]; first by rewrite /pivot_inv st.
have := find_pivotE (ls_m s) kN; case: (find_pivot _ _ _ _) => max row [/andP[kr rN] e _ _].
case: ifP => // lt _ /=; rewrite !eqbE.
have big : 0 < max by apply: lt_le_trans eps_pos _; rewrite leNgt /= in lt *; rewrite lt.
have [rk|nrk] /= := eqVneq row k.
  rewrite rk eqxx in e; split; last by exists p.
  by apply: lu_rel_schur => //; rewrite -e gt_eqF.
split.
  pose t i := if i == k then row else if i == row then k else i.
  have R' : lu_rel k (put (put (ls_order s) k (ls_order s row)) row (ls_order s k))
              (swap_rows N k row (ls_m s)).
    apply: (@lu_rel_permute k (ls_order s) (ls_m s) t) => //.
    - by move=> i ik; rewrite /t !ltn_eqF // (leq_trans ik).
    - by move=> i ki; rewrite /t; case: eqP => _; [rewrite kr|case: eqP => _; rewrite ?leqnn].
    - move=> i iN; rewrite !putE /t.
      by case: (eqVneq i row) => [->|ir]; [rewrite (negbTE nrk)|case: eqP].
    - by move=> i j iN jN; rewrite swap_rowsE jN /t; case: eqP => // _; case: eqP.
  apply: lu_rel_schur => //; rewrite swap_rowsE kN eqxx.
  by rewrite (negbTE nrk) in e; rewrite -normr_gt0 -e.
exists (tperm (Ordinal kN) (Ordinal rN) * p)%g.
  move=> i; rewrite permM !putE; case: tpermP => [->|->|ik ir] /=.
  - by rewrite eqxx eq_sym (negbTE nrk); exact: (po (Ordinal rN)).
  - by rewrite eqxx; exact: (po (Ordinal kN)).
  - have -> : (nat_of_ord i == row) = false by apply/eqP => e'; apply: ir; apply/val_inj.
    have -> : (nat_of_ord i == k) = false by apply/eqP => e'; apply: ik; apply/val_inj.
    by rewrite po.
rewrite odd_mul_tperm pp (_ : (_ != _) = true) //.
by apply: contra nrk => /eqP [->].
Qed.

Lemma order0 i : (i < N)%N -> for_upto 0 N (fun i v => put v i i) (fun _ => 0%N) i = i.
Proof.
move=> iN; pose P m (v : nat -> nat) := forall i, (i < m)%N -> v i = i.
suff H : P N (for_upto 0 N (fun i v => put v i i) (fun _ => 0%N)) by exact: H.
apply: upto_inv => // m v _ H j; rewrite putE ltnS leq_eqVlt.
by case: (eqVneq j m) => [->//|_] /= /H.
Qed.

Lemma pivot_loop : forall M ord s, lu_pivot_inplace fabs eps N A = (M, ord, s) -> s <> sgn_zero ->
  lu_rel N.-1 ord M /\
  exists2 p : 'S_N, (forall i : 'I_N, ord i = p i) & s = if odd_perm p then sgn_neg else sgn_pos.
Proof.
rewrite /lu_pivot_inplace minusE subn1.
set st := for_upto 0 N.-1 _ _.
have I : pivot_inv N.-1 st.
  apply: (@upto_inv _ pivot_inv) => // [_|k s /andP[_ kN] H] /=.
    split; last by exists 1%g => [i|]; rewrite ?odd_perm1 // perm1 order0.
    move=> i j iN jN; split=> // _ _.
    by rewrite order0 // big_geq // add0r.
  by apply: pivot_step => //; case: N kN => // n kn; apply: ltnW.
move=> M ord s [<- <- <-]; case E: (ls_stop st) => // _; have [R [p po pp]] := I E; split=> //.
by exists p => //; rewrite pp.
Qed.

Lemma pivot_correct : forall M ord s, lu_pivot_inplace fabs eps N A = (M, ord, s) -> s <> sgn_zero ->
  exists p : 'S_N, [/\ forall i : 'I_N, ord i = p i,
    s = (if odd_perm p then sgn_neg else sgn_pos) &
    lower N M *m upper N M = row_perm p (to_mx N A)].
Proof.
move=> M ord s /pivot_loop H /H [R [p po ps]].
exists p; split=> //; apply/matrixP => i j; rewrite sum_lower_upper !mxE -po.
have [R1 R2 R3] := R i j (ltn_ord i) (ltn_ord j).
have NE : N = N.-1.+1 by rewrite prednK // (leq_ltn_trans (leq0n i)).
have iN : (i <= N.-1)%N by rewrite -ltnS -NE.
case: leqP => ij; last by rewrite R2 // (leq_trans ij).
move: iN; rewrite leq_eqVlt => /orP[/eqP iN|iN]; last by rewrite R1.
by rewrite R3 ?iN //; rewrite -iN.
Qed.
End Pivot.
