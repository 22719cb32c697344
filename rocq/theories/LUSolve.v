(** Forward and backward substitution; leading minors and pivots. *)
From mathcomp Require Import all_ssreflect all_fingroup all_algebra.
From Verif Require Import Base RotModel LUModel LUSpec LUFacts LUPlain LUPivot LUDet.
Set Implicit Arguments.
Unset Strict Implicit.
Unset Printing Implicit Defensive.
Import Order.TTheory GRing.Theory Num.Theory.
Local Open Scope ring_scope.

Lemma downto_inv (S : Type) (P : nat -> S -> Prop) lo hi f s : (lo <= hi)%N ->
  P hi s -> (forall i t, (lo <= i < hi)%N -> P i.+1 t -> P i (f i t)) ->
  P lo (for_downto lo hi f s).
Proof.
move=> le; rewrite /for_downto minusE.
have [n ->] : exists n, hi = (lo + n)%N by exists (hi - lo)%N; rewrite subnKC.
rewrite addKn; elim: n s => [|n IH] s Ps Pf; first by rewrite /= addn0 in Ps *.
rewrite List.seq_S List.rev_app_distr /= plusE.
apply: IH => [|i t /andP[li il]]; first by apply: Pf; rewrite ?addnS ?leq_addr ?ltnSn // -addnS.
by apply: Pf; rewrite li addnS ltnS ltnW.
Qed.

Lemma coq_nthE (T : Type) (d : T) v i : List.nth i v d = nth d v i.
Proof. by elim: v i => [|x v IH] [|i] //=. Qed.
Lemma coq_mapE (T U : Type) (f : T -> U) v : List.map f v = map f v.
Proof. by elim: v => //= x v ->. Qed.
Lemma coq_seqE lo n : List.seq lo n = iota lo n.
Proof. by elim: n lo => //= n IH lo; rewrite IH. Qed.

Section Substitution.
Variables (F : fieldType) (lt : F -> F -> bool).
Local Instance fops : Ops F := field_ops lt.
Variables (N : nat) (LU : nat -> nat -> F).

Lemma forwardE (b : nat -> F) i : (i < N)%N ->
  forward N LU b i = b i - \sum_(0 <= j < i) LU i j * forward N LU b j.
Proof.
pose P m (y : nat -> F) := forall i, (i < m)%N -> y i = b i - \sum_(0 <= j < i) LU i j * y j.
have H : P N (forward N LU b).
  apply: upto_inv => // m y _ IH k; rewrite putE ltnS leq_eqVlt.
  have same l : (l <= m)%N ->
      \sum_(0 <= j < l) LU k j * put y m (b m - \sum_(0 <= j < m) LU m j * y j) j
      = \sum_(0 <= j < l) LU k j * y j.
    move=> lm; rewrite !big_nat; apply: eq_bigr => j /andP[_ jl].
    by rewrite putE ltn_eqF // (leq_trans jl lm).
  case: (eqVneq k m) => [e _|_] /=; rewrite sum_prodE //.
    by rewrite e in same *; rewrite same.
  by move=> km; rewrite same 1?ltnW // -IH.
by move=> iN; rewrite {1}(H i iN).
Qed.

Lemma backwardE (y x : nat -> F) i : (forall j, (j < N)%N -> LU j j != 0) -> (i < N)%N ->
  \sum_(i <= j < N) LU i j * backward N LU y x j = y i.
Proof.
move=> nz.
pose P m (x : nat -> F) := forall i, (m <= i < N)%N -> \sum_(i <= j < N) LU i j * x j = y i.
have H : P 0%N (backward N LU y x).
  apply: downto_inv => // [k /andP[H1 H2]|m t /andP[_ mN] IH k /andP[mk kN]].
    by rewrite ltnNge H1 in H2.
  rewrite plusE addn1 sum_prodE //.
  pose v := ((y m - \sum_(m.+1 <= p < N) LU m p * t p) / LU m m).
  rewrite -[div _ _]/v; have same l : (m < l)%N ->
      \sum_(l <= j < N) LU k j * put t m v j = \sum_(l <= j < N) LU k j * t j.
    move=> ml; rewrite !big_nat; apply: eq_bigr => j /andP[lj _].
    by rewrite putE gtn_eqF // (leq_trans ml lj).
  move: mk; rewrite leq_eqVlt => /orP[/eqP e|mk]; last by rewrite same // IH // mk.
  subst k; rewrite big_ltn // same // putE eqxx /v mulrC divfK ?subrK //.
  exact: nz.
by move=> iN; apply: H.
Qed.

Lemma substitution (b x : nat -> F) : (forall j, (j < N)%N -> LU j j != 0) ->
  lower N LU *m upper N LU *m (\col_i backward N LU (forward N LU b) x (nat_of_ord i))
  = \col_(i < N) b i.
Proof.
move=> nz; rewrite -mulmxA.
have -> : upper N LU *m (\col_i backward N LU (forward N LU b) x (nat_of_ord i))
          = \col_(i < N) forward N LU b i.
  apply/matrixP => i k; rewrite !mxE -[RHS](backwardE _ x nz (ltn_ord i)).
  set z := backward _ _ _ _.
  pose f j := (if (i <= j)%N then LU i j else 0) * z j.
  transitivity (\sum_(0 <= j < N) f j).
    by rewrite big_mkord; apply: eq_bigr => j _; rewrite !mxE.
  rewrite (big_cat_nat _ (n := i)) ?(ltnW (ltn_ord i)) //= big_nat big1 ?add0r.
    by rewrite !big_nat; apply: eq_bigr => j /andP[ij _]; rewrite /f ij.
  by move=> j /andP[_ ji]; rewrite /f leqNgt ji mul0r.
apply/matrixP => i k; rewrite !mxE.
have Z := forwardE b (ltn_ord i); set z := forward N LU b in Z.
pose f j := (if (j < i)%N then LU i j else (nat_of_ord i == j)%:R) * z j.
transitivity (\sum_(0 <= j < N) f j).
  by rewrite big_mkord; apply: eq_bigr => j _; rewrite !mxE.
rewrite (big_cat_nat _ (n := i)) ?(ltnW (ltn_ord i)) //=.
rewrite [X in _ + X]big_ltn // [X in _ + (_ + X)]big_nat [X in _ + (_ + X)]big1 ?addr0; last first.
  by move=> j /andP[ij _]; rewrite /f ltnNge (ltnW ij) (ltn_eqF ij) mul0r.
rewrite {2}/f ltnn eqxx mul1r Z addrC.
rewrite (_ : \sum_(0 <= j < i) f j = \sum_(0 <= j < i) LU i j * z j) ?subrK //.
by rewrite !big_nat; apply: eq_bigr => j /andP[_ ji]; rewrite /f ji.
Qed.

Lemma to_col_map (f : nat -> F) : to_col N (List.map f (List.seq 0 N)) = \col_(i < N) f i.
Proof.
apply/matrixP => i j; rewrite !mxE coq_mapE coq_seqE.
by rewrite (nth_map 0%N) ?size_iota // nth_iota.
Qed.
End Substitution.

(** nonzero leading minors: no zero pivot *)
Section Minors.
Variables (F : fieldType) (lt : F -> F -> bool).
Local Instance fops2 : Ops F := field_ops lt.
Variables (N : nat) (A : nat -> nat -> F).

Lemma plain_block m : (m <= N)%N -> (forall k, (k.+1 < m)%N -> lu_inplace N A k k != 0) ->
  lower m (lu_inplace N A) *m upper m (lu_inplace N A) = to_mx m A.
Proof.
move=> mN nz; apply/matrixP => i j; rewrite sum_lower_upper [RHS]mxE.
have iN := leq_trans (ltn_ord i) mN; have jN := leq_trans (ltn_ord j) mN.
have [I1 I2 _] := plain_loop lt A iN jN.
case: leqP => ij; first by rewrite -I1.
by rewrite -I2 // nz // (leq_ltn_trans ij).
Qed.

Lemma minors_pivots m : (m <= N)%N -> (forall k, (k < m)%N -> \det (to_mx k.+1 A) != 0) ->
  forall k, (k < m)%N -> lu_inplace N A k k != 0.
Proof.
elim: m => // m IH mN D.
have {}IH k : (k < m)%N -> lu_inplace N A k k != 0.
  by apply: IH => [|l lm]; [apply: ltnW|apply: D; apply: ltnW].
move=> k; rewrite ltnS leq_eqVlt => /orP[/eqP ->|]; last exact: IH.
have := D m (ltnSn m).
rewrite -plain_block // det_mulmx det_lower det_upper mul1r prodf_seq_neq0.
move=> /allP /(_ ord_max); rewrite mem_index_enum => /(_ isT) /=; exact.
Qed.

(** and conversely *)
Lemma pivots_minors : (forall k, (k < N)%N -> lu_inplace N A k k != 0) ->
  forall k, (k < N)%N -> \det (to_mx k.+1 A) != 0.
Proof.
move=> nz k kN; rewrite -plain_block //; last first.
  by move=> l lk; apply: nz; apply: ltn_trans kN; apply: lk.
rewrite det_mulmx det_lower det_upper mul1r prodf_seq_neq0; apply/allP => i _ /=.
by apply: nz; apply: leq_trans kN; apply: ltn_ord.
Qed.
End Minors.
