(** Determinant, inverse, LU decomposition and LU solve: C24 - C30. *)
From mathcomp Require Import all_ssreflect all_fingroup all_algebra.
From Verif Require Import Base RotModel LUModel LUSpec LUFacts LUPlain LUPivot LUDet LUSolve LUDom LUInv.
Set Implicit Arguments.
Unset Strict Implicit.
Unset Printing Implicit Defensive.
Import Order.TTheory GRing.Theory Num.Theory.
Local Open Scope ring_scope.

Definition square (T : Type) (n : nat) (m : mx T) : Prop := mrows m = n /\ mcols m = n.
Definition normf (F : realFieldType) : F -> F := fun x => `|x|.

Ltac sized H := case: H => -> ->; rewrite PeanoNat.Nat.eqb_refl.

(** * C24: determinants of 2x2, 3x3 and 4x4 matrices *)
Theorem determinant_small : forall (R : comRingType) dv lt fabs eps n (m : mx R),
  square n m -> small n ->
  @determinant R (ring_ops dv lt) fabs eps m = Ok (\det (to_mx n (mel m))).
Proof.
move=> R dv lt fabs eps n m S; rewrite /small !inE /determinant; sized S.
by case/or3P => /eqP ->; rewrite /= 1?(det_two dv lt) 1?(det_three dv lt) 1?(det_four dv lt).
Qed.
Theorem determinant_product : forall (R : comRingType) dv lt fabs eps n (a b c : mx R) da db dc,
  small n -> square n a -> square n b -> square n c ->
  (forall i j, (i < n)%N -> (j < n)%N -> mel c i j = \sum_(k < n) mel a i k * mel b k j) ->
  @determinant R (ring_ops dv lt) fabs eps a = Ok da ->
  @determinant R (ring_ops dv lt) fabs eps b = Ok db ->
  @determinant R (ring_ops dv lt) fabs eps c = Ok dc -> dc = da * db.
Proof.
move=> R dv lt fabs eps n a b c da db dc sn Sa Sb Sc E.
rewrite !(determinant_small _ _ _ _ (n := n)) // => -[<-] [<-] [<-].
rewrite -det_mulmx; congr (\det _); apply/matrixP => i j; rewrite !mxE E //.
by apply: eq_bigr => k _; rewrite !mxE.
Qed.
Theorem determinant_transpose : forall (R : comRingType) dv lt fabs eps n (a b : mx R),
  small n -> square n a -> square n b ->
  (forall i j, (i < n)%N -> (j < n)%N -> mel b i j = mel a j i) ->
  @determinant R (ring_ops dv lt) fabs eps b = @determinant R (ring_ops dv lt) fabs eps a.
Proof.
move=> R dv lt fabs eps n a b sn Sa Sb E; rewrite !(determinant_small _ _ _ _ (n := n)) //.
by rewrite -[in RHS]det_tr; congr (Ok (\det _)); apply/matrixP => i j; rewrite !mxE E.
Qed.
Theorem determinant_identity : forall (R : comRingType) dv lt fabs eps n (a : mx R),
  small n -> square n a -> (forall i j, (i < n)%N -> (j < n)%N -> mel a i j = (i == j)%:R) ->
  @determinant R (ring_ops dv lt) fabs eps a = Ok 1.
Proof.
move=> R dv lt fabs eps n a sn Sa E; rewrite (determinant_small _ _ _ _ (n := n)) //.
by rewrite (_ : to_mx n _ = 1%:M) ?det1 //; apply/matrixP => i j; rewrite !mxE E.
Qed.
(** a matrix that is not square has no determinant, inverse or decomposition *)
Theorem square_required : forall (T : Type) (O : Ops T) fabs eps (m : mx T), mrows m <> mcols m ->
  determinant fabs eps m = Throw ENonSquareMatrix /\ matrix_inverse fabs m = Throw ENonSquareMatrix /\
  lu m = Throw ENonSquareMatrix /\ lu_pivot fabs eps m = Throw ENonSquareMatrix.
Proof.
move=> T O fabs eps m ne; rewrite /determinant /matrix_inverse /lu /lu_pivot.
by have -> : Nat.eqb (mrows m) (mcols m) = false by apply/negbTE; rewrite eqbE; apply/eqP.
Qed.

(** * C29: pivoted LU decomposition *)
Theorem lu_pivot_factors : forall (F : realFieldType) (eps : F) n (m : mx F) lup,
  0 < eps -> square n m -> @lu_pivot F (ordered_ops F) (@normf F) eps m = Ok lup ->
  square n (lp_lu lup) /\ mbasis (lp_lu lup) = mbasis m /\ size (lp_order lup) = n /\
  (lp_sign lup <> sgn_zero ->
   exists p : 'S_n, [/\ forall i : 'I_n, nth 0%N (lp_order lup) i = p i,
     lp_sign lup = (if odd_perm p then sgn_neg else sgn_pos) &
     lower n (mel (lp_lu lup)) *m upper n (mel (lp_lu lup)) = row_perm p (to_mx n (mel m))]).
Proof.
move=> F eps n m lup e0 S; rewrite /lu_pivot; sized S.
case E: (lu_pivot_inplace _ _ _ _) => [[M ord] s] /= [<-]; split=> //; split=> //=.
rewrite coq_mapE coq_seqE; split=> [|s0]; first by rewrite size_map size_iota.
have [p [H1 H2 H3]] := pivot_correct e0 E s0; exists p; split=> // i.
by rewrite (nth_map 0%N) ?size_iota ?nth_iota ?add0n ?H1.
Qed.
(** the determinant is the signed product of the diagonal of LU; a zero sign is the only
    way to lose it *)
Theorem lu_pivot_determinant : forall (F : realFieldType) (eps : F) n (m : mx F) lup,
  0 < eps -> square n m -> @lu_pivot F (ordered_ops F) (@normf F) eps m = Ok lup ->
  lp_sign lup <> sgn_zero ->
  \det (to_mx n (mel m)) =
    (if lp_sign lup is sgn_neg then -1 else 1) * \prod_(i < n) mel (lp_lu lup) i i /\
  forall k, (k.+1 < n)%N -> eps <= `|mel (lp_lu lup) k k|.
Proof.
move=> F eps n m lup e0 S E s0; split; last first.
  move: E s0; rewrite /lu_pivot; sized S.
  case E: (lu_pivot_inplace _ _ _ _) => [[M ord] s] /= [<-] /= s0.
  exact: (@pivot_diag F eps n (mel m) M ord s E s0).
have [_ [_ [_ /(_ s0) [p [_ sp LU]]]]] := lu_pivot_factors e0 S E.
have := congr1 (fun B => \det B) LU; rewrite /= det_mulmx det_lower det_upper mul1r => D.
rewrite row_permE det_mulmx det_perm in D.
by rewrite D sp; case: (odd_perm p); rewrite /= ?expr1 ?expr0 ?mulN1r ?opprK ?mul1r.
Qed.
(** dominated columns are decomposed without exchanges *)
Theorem lu_pivot_dominant : forall (F : realFieldType) (eps e : F) n (m : mx F),
  0 < eps -> eps <= e -> square n m -> dominant_columns e n (mel m) ->
  exists LU, @lu_pivot F (ordered_ops F) (@normf F) eps m = Ok (LP LU (iota 0 n) sgn_pos) /\
    lower n (mel LU) *m upper n (mel LU) = to_mx n (mel m) /\ \det (to_mx n (mel m)) != 0.
Proof.
move=> F eps e n m e0 ee S D; have d0 : dom e n 0 (mel m).
  move=> j /andP[_ jn]; have := D (Ordinal jn); rewrite /= big_mkord.
  by rewrite (eq_bigl (fun i : 'I_n => nat_of_ord i != j)).
have ep : 0 < e := lt_le_trans e0 ee.
have [M [ord [E Ho]]] := dom_pivot ep ee d0.
have E0 : @lu_pivot_inplace F (ordered_ops F) (@normf F) eps n (mel m) = (M, ord, sgn_pos) := E.
have E' : @lu_pivot F (ordered_ops F) (@normf F) eps m
    = Ok (LP (Mx n n (mbasis m) M) (iota 0 n) sgn_pos).
  rewrite /lu_pivot; sized S; rewrite E0 /=; congr (Ok (LP _ _ _)).
  rewrite coq_mapE coq_seqE -[RHS]map_id; apply/eq_in_map => i.
  by rewrite mem_iota => /Ho.
exists (Mx n n (mbasis m) M); split=> //.
have s0 : (sgn_pos <> sgn_zero) by [].
have [_ [_ [_ /(_ s0) [p [Hp _ LU]]]]] := lu_pivot_factors e0 S E'.
have p1 : p = 1%g.
  by apply/permP => i; apply/val_inj; rewrite perm1 /= -Hp /= nth_iota.
split; first by rewrite LU p1 row_perm1.
have [-> /= dg] := lu_pivot_determinant e0 S E' s0.
rewrite mul1r prodf_seq_neq0; apply/allP => i _ /=.
have [l|g] := ltnP i.+1 n; first by rewrite -normr_gt0; apply: lt_le_trans e0 (dg i l).
have n0 : (0 < n)%N by apply: leq_ltn_trans (ltn_ord i).
have -> : nat_of_ord i = n.-1.
  by apply/eqP; rewrite eqn_leq -ltnS prednK // ltn_ord /= -ltnS prednK.
by rewrite gt_eqF // (dom_last ep ee n0 d0 E).
Qed.

Lemma determinant_pivoted (T : Type) (O : Ops T) fabs eps n (m : mx T) : square n m -> ~~ small n ->
  determinant fabs eps m = if n == 0%N then UB else Ok (detN fabs eps n (mel m)).
Proof.
case=> S1 S2; rewrite /determinant /small !inE S1 S2 PeanoNat.Nat.eqb_refl.
by case: n S1 S2 => [|[|[|[|[|k]]]]].
Qed.
Lemma inverse_pivoted (T : Type) (O : Ops T) fabs n (m : mx T) : square n m -> ~~ small n ->
  matrix_inverse fabs m = Ok (Mx n n (mbasis m) (inverse_pivot fabs n (mel m))).
Proof.
case=> S1 S2; rewrite /matrix_inverse /small !inE S1 S2 PeanoNat.Nat.eqb_refl.
by case: n S1 S2 => [|[|[|[|[|k]]]]].
Qed.

(** * C25: determinants of matrices of the other sizes *)
Lemma detN_sign (F : realFieldType) (eps : F) n (m : mx F) lup : 0 < eps -> (0 < n)%N -> square n m ->
  @lu_pivot F (ordered_ops F) (@normf F) eps m = Ok lup ->
  @detN F (ordered_ops F) (@normf F) eps n (mel m) =
  if lp_sign lup is sgn_zero then 0 else \det (to_mx n (mel m)).
Proof.
move=> e0 n0 S E; have := lu_pivot_determinant e0 S E; move: E; have [S1 S2] := S.
rewrite /lu_pivot S1 S2 PeanoNat.Nat.eqb_refl /detN.
case E: (lu_pivot_inplace _ _ _ _) => [[M ord] s] /= [<-] /= D.
rewrite diagonal_productE //; case: s {E} D => /= D; last by rewrite mul0r.
  by have [//|-> _] := D.
by have [//|-> _] := D.
Qed.
Theorem determinant_exact_or_zero : forall (F : realFieldType) (eps : F) n (m : mx F) d,
  0 < eps -> square n m -> @determinant F (ordered_ops F) (@normf F) eps m = Ok d ->
  d = \det (to_mx n (mel m)) \/ d = 0.
Proof.
move=> F eps n m d e0 S; case sn: (small n).
  by rewrite (determinant_small _ _ _ _ S sn) => -[<-]; left.
rewrite (determinant_pivoted _ _ _ S) ?sn //; case: n S sn => // n S _ /= [<-].
case E: (@lu_pivot F (ordered_ops F) (@normf F) eps m) => [lup||].
- by rewrite (detN_sign e0 _ S E) //; case: (lp_sign lup); [left|left|right].
- by move: E; rewrite /lu_pivot; sized S; case: (lu_pivot_inplace _ _ _ _) => [[? ?] ?].
- by move: E; rewrite /lu_pivot; sized S; case: (lu_pivot_inplace _ _ _ _) => [[? ?] ?].
Qed.
(** 1x1 *)
Theorem determinant_one : forall (T : Type) (O : Ops T) fabs eps (m : mx T), square 1 m ->
  determinant fabs eps m = Ok (mul one (mel m 0%N 0%N)).
Proof. by move=> T O fabs eps m S; rewrite (determinant_pivoted _ _ _ S). Qed.
Theorem determinant_dominant : forall (F : realFieldType) (eps e : F) n (m : mx F),
  0 < eps -> eps <= e -> (0 < n)%N -> square n m -> dominant_columns e n (mel m) ->
  @determinant F (ordered_ops F) (@normf F) eps m = Ok (\det (to_mx n (mel m))) /\
  \det (to_mx n (mel m)) != 0.
Proof.
move=> F eps e n m e0 ee n0 S D; have [LU [E [_ nz]]] := lu_pivot_dominant e0 ee S D.
split=> //; case sn: (small n); first by rewrite (determinant_small _ _ _ _ S sn).
rewrite (determinant_pivoted _ _ _ S) ?sn // gtn_eqF //.
by rewrite (detN_sign e0 n0 S E).
Qed.
(** the pivot search starts with a signed element: a negative diagonal element may hide a
    nonsingular matrix, for every tolerance *)
Definition neg_diag (F : ringType) : mx F :=
  Mx 5 5 row_basis (fun i j => if Nat.eqb i j then (if Nat.eqb i 0 then -1 else 1) else 0).
Theorem determinant_refuted : forall (F : realFieldType) (eps : F), 0 < eps ->
  @determinant F (ordered_ops F) (@normf F) eps (neg_diag F) = Ok 0 /\
  \det (to_mx 5 (mel (neg_diag F))) = -1.
Proof.
move=> F eps e0; split.
  rewrite (@determinant_pivoted F (ordered_ops F) _ _ 5) //= /detN.
  have -> : @lu_pivot_inplace F (ordered_ops F) (@normf F) eps 5 (mel (neg_diag F)) =
    (mel (neg_diag F), for_upto 0 5 (fun i v => put v i i) (fun _ => 0%N), sgn_zero); last first.
    by rewrite /= mul0r.
  rewrite /lu_pivot_inplace.
  have -> : for_upto 0 (5 - 1) (@lu_pivot_step F (ordered_ops F) (@normf F) eps 5)
     (LUS (mel (neg_diag F)) (for_upto 0 5 (fun i v => put v i i) (fun _ => 0%N)) false false) =
     LUS (mel (neg_diag F)) (for_upto 0 5 (fun i v => put v i i) (fun _ => 0%N)) false true; last by [].
  have s1 : @lu_pivot_step F (ordered_ops F) (@normf F) eps 5 0
     (LUS (mel (neg_diag F)) (for_upto 0 5 (fun i v => put v i i) (fun _ => 0%N)) false false) =
     LUS (mel (neg_diag F)) (for_upto 0 5 (fun i v => put v i i) (fun _ => 0%N)) false true.
    have fp : @find_pivot F (ordered_ops F) (@normf F) 5 0 (mel (neg_diag F)) = (0, 1%N).
      by rewrite /find_pivot /for_upto /= /normf normr0 ltrN10 /= !ltxx.
    by rewrite /lu_pivot_step [ls_stop _]/= [ls_m _]/= fp /= e0.
  by rewrite /for_upto [List.seq _ _]/= [List.fold_left _ [:: 0;1;2;3]%N _]/= -/(for_upto 0 5 _ _) s1.
rewrite det_trig; first by rewrite !big_ord_recr big_ord0 !mxE /= !mulr1 mul1r.
apply/is_trig_mxP => i j ij; rewrite mxE /= eqbE.
by rewrite (ltn_eqF ij).
Qed.

(** * C29, refuted half: sign 0 does not mean singular, nor the converse *)
Definition all_ones (F : ringType) : mx F := Mx 2 2 row_basis (fun _ _ => 1).
Theorem lu_pivot_sign_refuted : forall (F : realFieldType) (eps : F), 0 < eps -> eps <= 1 ->
  (exists lup, @lu_pivot F (ordered_ops F) (@normf F) eps (neg_diag F) = Ok lup /\
     lp_sign lup = sgn_zero /\ \det (to_mx 5 (mel (neg_diag F))) != 0) /\
  (exists lup, @lu_pivot F (ordered_ops F) (@normf F) eps (all_ones F) = Ok lup /\
     lp_sign lup = sgn_pos /\ \det (to_mx 2 (mel (all_ones F))) = 0).
Proof.
move=> F eps e0 e1; split.
  have [D1 D2] := determinant_refuted e0.
  case E: (@lu_pivot F (ordered_ops F) (@normf F) eps (neg_diag F)) => [lup||].
  - exists lup; split=> //; rewrite D2 oppr_eq0 oner_neq0; split=> //.
    rewrite (@determinant_pivoted F (ordered_ops F) _ _ 5) // in D1; move: D1 => /= [].
    rewrite (@detN_sign F eps 5 (neg_diag F) lup) //.
    by case: (lp_sign lup) => // /eqP; rewrite D2 oppr_eq0 oner_eq0.
  - by move: E; rewrite /lu_pivot [Nat.eqb _ _]/=; case: (lu_pivot_inplace _ _ _ _) => [[? ?] ?].
  - by move: E; rewrite /lu_pivot [Nat.eqb _ _]/=; case: (lu_pivot_inplace _ _ _ _) => [[? ?] ?].
have fp : @find_pivot F (ordered_ops F) (@normf F) 2 0 (mel (all_ones F)) = (1, 0%N).
  by rewrite /find_pivot /for_upto /= /normf normr1 ltxx.
rewrite (det_two (fun x y => x / y) (fun x y => x < y)) /det2 /= subrr.
rewrite /lu_pivot [Nat.eqb _ _]/= /lu_pivot_inplace.
set st := for_upto 0 (Nat.sub _ _) _ _.
have [s1 s2] : ls_stop st = false /\ ls_odd st = false.
  rewrite /st /for_upto [List.seq _ _]/= [List.fold_left _ _ _]/= /lu_pivot_step [ls_stop _]/= [ls_m _]/= fp.
  by rewrite /= ltNge e1.
by rewrite s1 s2; eexists; split=> //.
Qed.

(** * C26: inverses of 2x2, 3x3 and 4x4 matrices *)
Theorem inverse_small : forall (F : fieldType) lt fabs n (m : mx F),
  square n m -> small n -> \det (to_mx n (mel m)) != 0 ->
  exists B, @matrix_inverse F (field_ops lt) fabs m = Ok (Mx n n (mbasis m) B) /\
    inverse_of n (mel m) B.
Proof.
move=> F lt fabs n m S; rewrite /small !inE /matrix_inverse /inverse_of; sized S.
case/or3P => /eqP -> nz.
- exists (@inv2 F (field_ops lt) (mel m)); split=> //.
  rewrite (det_two (fun x y => x / y) lt) in nz.
  by apply: (inverse_of_adj nz (scale_two lt _)); apply: adj_two.
- exists (@inv3 F (field_ops lt) (mel m)); split=> //.
  rewrite (det_three (fun x y => x / y) lt) in nz.
  by apply: (inverse_of_adj nz (scale_three lt _)); apply: adj_three.
- exists (@inv4 F (field_ops lt) (mel m)); split=> //.
  rewrite (det_four (fun x y => x / y) lt) in nz.
  by apply: (inverse_of_adj nz (scale_four lt _)); apply: adj_four.
Qed.

(** * C27: inverses of matrices of the other sizes *)
Theorem inverse_dominant : forall (F : realFieldType) (e : F) n (m : mx F),
  1 < e -> square n m -> dominant_rows e n (mel m) -> ~~ small n ->
  exists B, @matrix_inverse F (ordered_ops F) (@normf F) m = Ok (Mx n n (mbasis m) B) /\
    inverse_of n (mel m) B.
Proof.
move=> F e n m e1 S D sn; rewrite (inverse_pivoted _ _ S) //; eexists; split=> //.
have H := gj_correct e1 D; split=> //; apply: mulmx1C; exact: H.
Qed.
Theorem inverse_one : forall (F : fieldType) lt fabs (m : mx F), square 1 m -> mel m 0%N 0%N != 0 ->
  exists B, @matrix_inverse F (field_ops lt) fabs m = Ok (Mx 1 1 (mbasis m) B) /\
    inverse_of 1 (mel m) B.
Proof.
move=> F lt fabs m S nz; rewrite (inverse_pivoted _ _ S) //; eexists; split=> //.
move: (mel m) nz => M nz; rewrite /inverse_of.
have fp (Q : nat -> nat -> F) : let '(_, r, c) := @find_full_pivot F (field_ops lt) fabs 1 Q (fun _ => false) in
    r = 0%N /\ c = 0%N.
  by rewrite /find_full_pivot /for_upto /=; case: ifP.
have -> : to_mx 1 (@inverse_pivot F (field_ops lt) fabs 1 M) = ((M 0%N 0%N)^-1)%:M.
  apply/matrixP => i j; rewrite !mxE !ord1 /= /inverse_pivot /inverse_loop /inverse_step /for_upto /=.
  have := fp M; case: (find_full_pivot _ _ _ _) => [[pv r] c] [-> ->] /=.
  by rewrite /eliminate /for_upto /= mul1r mul1r.
have -> : to_mx 1 M = (M 0%N 0%N)%:M by apply/matrixP => i j; rewrite !mxE !ord1.
by rewrite -!scalar_mxM mulfV // mulVf.
Qed.

(** evaluation of products of rational matrices *)
Definition entry (n : nat) (A B : nat -> nat -> rat) (i j : nat) : rat :=
  foldr (fun k s => A i k * B k j + s) 0 (iota 0 n).
Lemma entryE n A B (i j : 'I_n) : (to_mx n A *m to_mx n B) i j = entry n A B i j.
Proof.
rewrite mxE (eq_bigr (fun k : 'I_n => A i k * B k j)) => [|k _]; last by rewrite !mxE.
rewrite -(big_mkord xpredT (fun k => A i k * B k j)) /entry /index_iota subn0.
by elim: (iota 0 n) => [|k s IH]; rewrite ?big_nil ?big_cons //= IH.
Qed.
Definition is_one (n : nat) (f : nat -> nat -> rat) : bool :=
  all (fun i => all (fun j => f i j == (if i == j then 1 else 0)) (iota 0 n)) (iota 0 n).
Lemma is_oneE n A B : is_one n (entry n A B) <-> to_mx n A *m to_mx n B = 1%:M.
Proof.
split=> [/allP H|E].
  apply/matrixP => i j; rewrite entryE [RHS]mxE.
  have /allP Hi : all (fun j => entry n A B i j == (if nat_of_ord i == j then 1 else 0)) (iota 0 n).
    by apply: H; rewrite mem_iota /= add0n ltn_ord.
  have /eqP -> : entry n A B i j == (if nat_of_ord i == j then 1 else 0) by apply: Hi; rewrite mem_iota /= add0n ltn_ord.
  by rewrite -[_ == _]/(i == j); case: eqP.
apply/allP => i; rewrite mem_iota /= add0n => iN; apply/allP => j; rewrite mem_iota /= add0n => jN.
rewrite -(entryE A B (Ordinal iN) (Ordinal jN)) E mxE -[_ == Ordinal jN]/(i == j).
by case: (i == j).
Qed.
Lemma det_of_inverse n A B : is_one n (entry n A B) -> \det (to_mx n A) != 0.
Proof.
move=> /is_oneE E; have := congr1 (fun B => \det B) E; rewrite /= det_mulmx det1 => H.
by apply/eqP => d0; move/eqP: H; rewrite d0 mul0r eq_sym oner_eq0.
Qed.

Lemma wrong_inverse (m : mx rat) : square 5 m ->
  is_one 5 (entry 5 (mel m) (@inverse_pivot rat (ordered_ops rat_realFieldType)
    (@normf rat_realFieldType) 5 (mel m))) = false ->
  exists m', @matrix_inverse rat (ordered_ops rat_realFieldType) (@normf rat_realFieldType) m = Ok m' /\
    ~ inverse_of 5 (mel m) (mel m').
Proof.
move=> S W; rewrite (inverse_pivoted _ _ S) //; eexists; split=> //=.
by case=> /is_oneE; rewrite W.
Qed.

(** [0.5*I] and a cyclic permutation matrix, 5x5 *)
Definition half_identity : mx rat :=
  Mx 5 5 row_basis (fun i j => if Nat.eqb i j then 1%:Q / 2%:Q else 0).
Definition cycle : mx rat :=
  Mx 5 5 row_basis (fun i j => if Nat.eqb j (Nat.modulo (i + 1) 5) then 1 else 0).
Theorem inverse_refuted : forall m, m = half_identity \/ m = cycle ->
  \det (to_mx 5 (mel m)) != 0 /\
  exists m', @matrix_inverse rat (ordered_ops rat_realFieldType) (@normf rat_realFieldType) m = Ok m' /\
    ~ inverse_of 5 (mel m) (mel m').
Proof.
move=> m [->|->]; split.
- apply: (@det_of_inverse 5 _ (fun i j => if Nat.eqb i j then 2%:Q else 0)); by vm_compute.
- by apply: wrong_inverse; [|vm_compute].
- apply: (@det_of_inverse 5 _ (fun i j => if Nat.eqb i (Nat.modulo (j + 1) 5) then 1 else 0)); by vm_compute.
- by apply: wrong_inverse; [|vm_compute].
Qed.

(** * C28: LU decomposition without pivoting *)
Theorem lu_factors : forall (F : fieldType) lt n (m m' : mx F),
  square n m -> @lu F (field_ops lt) m = Ok m' ->
  (forall k, (k.+1 < n)%N -> mel m' k k != 0) ->
  square n m' /\ mbasis m' = mbasis m /\
  lower n (mel m') *m upper n (mel m') = to_mx n (mel m).
Proof.
move=> F lt n m m' S; rewrite /lu; sized S; case=> <- nz; split=> //; split=> //=.
exact: plain_correct.
Qed.
(** no zero pivot is met exactly when no leading principal minor is zero *)
Theorem lu_leading_minors : forall (F : fieldType) lt n (m m' : mx F),
  square n m -> @lu F (field_ops lt) m = Ok m' ->
  ((forall k, (k < n)%N -> \det (to_mx k.+1 (mel m)) != 0) <->
   (forall k, (k < n)%N -> mel m' k k != 0)).
Proof.
move=> F lt n m m' S; rewrite /lu; sized S; case=> <-; split=> /=.
  by move=> D; apply: minors_pivots.
exact: pivots_minors.
Qed.

(** * C30: lu_solve *)
Lemma lu_solve_ok (F : fieldType) lt n (LU : mx F) (x b r : seq F) : square n LU ->
  @lu_solve_to F (field_ops lt) LU x b = Ok r -> (forall k, (k < n)%N -> mel LU k k != 0) ->
  size r = n /\ lower n (mel LU) *m upper n (mel LU) *m to_col n r = to_col n b.
Proof.
case=> S1 S2; rewrite /lu_solve_to S1 S2 PeanoNat.Nat.eqb_refl [require _ _]/=.
rewrite !eqbE; case: eqP => //= xs; case: eqP => //= bs [<-] nz.
rewrite -[List.length b]/(size b) in bs *; rewrite -bs.
split; first by rewrite coq_mapE coq_seqE size_map size_iota.
rewrite to_col_map; have := substitution lt (el b) (el x) nz => ->.
by apply/matrixP => i j; rewrite !mxE /el coq_nthE.
Qed.
(** the solution does not depend on the vector the result is written to (which may be b) *)
Theorem lu_solve_solves : forall (F : fieldType) lt n (m m' : mx F) (x b r : seq F),
  square n m -> @lu F (field_ops lt) m = Ok m' ->
  (forall k, (k < n)%N -> \det (to_mx k.+1 (mel m)) != 0) ->
  @lu_solve_to F (field_ops lt) m' x b = Ok r \/ @lu_solve F (field_ops lt) m' b = Ok r ->
  size r = n /\ to_mx n (mel m) *m to_col n r = to_col n b.
Proof.
move=> F lt n m m' x b r S E D H.
have nz := (lu_leading_minors S E).1 D.
have [S' [_ LU]] := lu_factors S E (fun k kn => nz k (ltnW kn)).
rewrite -LU; case: H => H; exact: (lu_solve_ok S' H nz).
Qed.
Theorem lu_solve_total : forall (F : fieldType) lt n (m : mx F) (x b : seq F), square n m ->
  (exists r, @lu_solve_to F (field_ops lt) m x b = Ok r) <-> size x = n /\ size b = n.
Proof.
move=> F lt n m x b [S1 S2]; rewrite /lu_solve_to S1 S2 PeanoNat.Nat.eqb_refl [require _ _]/= !eqbE.
split=> [[r]|[xs bs]]; last first.
  by rewrite -[List.length x]/(size x) -[List.length b]/(size b) xs bs !eqxx /=; eexists.
by case: eqP => //= ->; case: eqP.
Qed.
Theorem lu_pivot_solve_solves : forall (F : realFieldType) (eps : F) n (m : mx F) lup (x b r : seq F),
  0 < eps -> square n m -> @lu_pivot F (ordered_ops F) (@normf F) eps m = Ok lup ->
  \det (to_mx n (mel m)) != 0 ->
  @lu_pivot_solve_to F (ordered_ops F) lup x b = Ok r \/ @lu_pivot_solve F (ordered_ops F) lup b = Ok r ->
  size r = n /\ to_mx n (mel m) *m to_col n r = to_col n b.
Proof.
move=> F eps n m lup x b r e0 S E D H.
have [S' [_ [so]]] := lu_pivot_factors e0 S E.
have {H} : exists x', @lu_pivot_solve_to F (ordered_ops F) lup x' b = Ok r.
  by case: H => H; [exists x|eexists; exact: H].
case=> x' H; have s0 : lp_sign lup <> sgn_zero.
  move=> e; move: H; rewrite /lu_pivot_solve_to e !eqbE.
  by case: eqP => // _; case: eqP.
move=> /(_ s0) [p [po _ LU]]; have [DE _] := lu_pivot_determinant e0 S E s0.
have nz k : (k < n)%N -> mel (lp_lu lup) k k != 0.
  move=> kn; move: D; rewrite DE mulf_eq0 negb_or => /andP[_].
  by rewrite prodf_seq_neq0 => /allP /(_ (Ordinal kn)); rewrite mem_index_enum => /(_ isT).
move: H; rewrite /lu_pivot_solve_to; case: S' => S1 S2; rewrite S2 !eqbE.
case: eqP => //= xs; case: eqP => //= bs.
have -> : (if lp_sign lup is sgn_zero then false else true) = true by case: (lp_sign lup) s0.
rewrite -[List.length b]/(size b) in bs *; rewrite -bs /= => -[<-].
split; first by rewrite coq_mapE coq_seqE size_map size_iota.
rewrite to_col_map; set y := \col_i _.
have Q := @substitution F (fun x y => x < y) n (mel (lp_lu lup))
  (fun i => @el F (ordered_ops F) b (List.nth i (lp_order lup) 0%N)) (@el F (ordered_ops F) x') nz.
rewrite LU row_permE -mulmxA -/y in Q.
apply: (can_inj (mulKmx (unitmx_perm F p))).
rewrite Q; apply/matrixP => i j; rewrite -row_permE !mxE.
by rewrite /el !coq_nthE po.
Qed.
(** sizes are checked, and a zero sign is refused *)
Theorem lu_pivot_solve_total : forall (F : realFieldType) (eps : F) n (m : mx F) lup (x b : seq F),
  0 < eps -> square n m -> @lu_pivot F (ordered_ops F) (@normf F) eps m = Ok lup ->
  (exists r, @lu_pivot_solve_to F (ordered_ops F) lup x b = Ok r) <->
  size x = n /\ size b = n /\ lp_sign lup <> sgn_zero.
Proof.
move=> F eps n m lup x b e0 S E; have [[_ S2] _] := lu_pivot_factors e0 S E.
rewrite /lu_pivot_solve_to S2 !eqbE; split=> [[r]|[xs [bs s0]]].
  case: eqP => //= ->; case: eqP => //= e; case: (lp_sign lup) => //= _; split=> //; by split.
rewrite -[List.length x]/(size x) -[List.length b]/(size b) xs bs !eqxx /=.
by case: (lp_sign lup) s0 => //= _; eexists.
Qed.

(** * Concrete cases meeting the hypotheses *)
Definition tridiagonal (n : nat) : mx rat := Mx n n row_basis (fun i j =>
  if Nat.eqb i j then 3%:Q else if Nat.eqb i (j + 1) then 1%:Q / 2%:Q
  else if Nat.eqb j (i + 1) then -1 else 0).
Definition exchange : mx rat := Mx 2 2 col_basis (fun i j => if Nat.eqb i j then 0 else 1 + 1).
Notation rF := rat_realFieldType.
Notation rops := (ordered_ops rat_realFieldType).

Example det_case : square 3 (tridiagonal 3) /\ small 3 /\
  @determinant rat rops (@normf rF) 1 (tridiagonal 3) = Ok (30%:Q) /\
  \det (to_mx 3 (mel (tridiagonal 3))) != 0.
Proof.
have S : square 3 (tridiagonal 3) by [].
have E : @determinant rat rops (@normf rF) 1 (tridiagonal 3) = Ok (30%:Q).
  by congr (Ok _); apply/eqP; vm_compute.
split; [exact: S|split; [by []|split; [exact: E|]]].
have D := @determinant_small [comRingType of rat] (fun x y => x / y) (fun x y => x < y) (@normf rF) 1 3
  (tridiagonal 3) S isT.
by have [<-] := etrans (esym E) D; vm_compute.
Qed.
Example minors_case : forall k, (k < 3)%N -> \det (to_mx k.+1 (mel (tridiagonal 3))) != 0.
Proof.
case=> [|[|[|]]] // _.
- by rewrite det_mx11 mxE; vm_compute.
- by rewrite (det_two (R := [comRingType of rat]) (fun x y => x / y) (fun x y => x < y)); vm_compute.
- by have [_ [_ [_]]] := det_case.
Qed.
Example dominant_case : dominant_columns (1%:Q / 2%:Q) 5 (mel (tridiagonal 5)) /\
  dominant_rows (5%:Q / 4%:Q) 5 (mel (tridiagonal 5)) /\ 1 < 5%:Q / 4%:Q.
Proof.
split; [move=> j|split; [move=> i|by vm_compute]].
  by case: j => [[|[|[|[|[|//]]]]] jn]; rewrite big_mkcond !big_ord_recl big_ord0; vm_compute.
by case: i => [[|[|[|[|[|//]]]]] jn]; rewrite big_mkcond !big_ord_recl big_ord0; vm_compute.
Qed.
(** an exchange of rows, and the solution of a system *)
Example exchange_case : exists lup,
  @lu_pivot rat rops (@normf rF) (1%:Q / 2%:Q) exchange = Ok lup /\
  lp_order lup = [:: 1%N; 0%N] /\ lp_sign lup = sgn_neg /\
  \det (to_mx 2 (mel exchange)) != 0 /\
  exists r, @lu_pivot_solve rat rops lup [:: 1%:Q; 3%:Q] = Ok r /\ r == [:: 3%:Q / 2%:Q; 1%:Q / 2%:Q].
Proof.
have : (match @lu_pivot rat rops (@normf rF) (1%:Q / 2%:Q) exchange with
  | Ok lup => (lp_order lup == [:: 1%N; 0%N]) && (match lp_sign lup with sgn_neg => true | _ => false end) &&
      match @lu_pivot_solve rat rops lup [:: 1%:Q; 3%:Q] with
      | Ok r => r == [:: 3%:Q / 2%:Q; 1%:Q / 2%:Q] | _ => false end
  | _ => false end) by vm_compute.
case: (@lu_pivot rat rops (@normf rF) (1%:Q / 2%:Q) exchange); [move=> lup|by []|by []].
case/andP => /andP[/eqP o]; case sg: (lp_sign lup); [by []|move=> _|by []].
case R: (@lu_pivot_solve rat rops lup [:: 1%:Q; 3%:Q]) => [r||]; [move=> re|by []|by []].
exists lup; split; [reflexivity|split; [exact: o|split; [exact: sg|split]]].
  rewrite (det_two (R := [comRingType of rat]) (fun x y => x / y) (fun x y => x < y)); by vm_compute.
by exists r; split; [exact: R|].
Qed.

Print Assumptions determinant_small.
Print Assumptions determinant_product.
Print Assumptions determinant_transpose.
Print Assumptions determinant_identity.
Print Assumptions square_required.
Print Assumptions lu_pivot_factors.
Print Assumptions lu_pivot_determinant.
Print Assumptions lu_pivot_dominant.
Print Assumptions determinant_exact_or_zero.
Print Assumptions determinant_one.
Print Assumptions determinant_dominant.
Print Assumptions determinant_refuted.
Print Assumptions lu_pivot_sign_refuted.
Print Assumptions inverse_small.
Print Assumptions inverse_dominant.
Print Assumptions inverse_one.
Print Assumptions inverse_refuted.
Print Assumptions lu_factors.
Print Assumptions lu_leading_minors.
Print Assumptions lu_solve_solves.
Print Assumptions lu_solve_total.
Print Assumptions lu_pivot_solve_solves.
Print Assumptions lu_pivot_solve_total.
