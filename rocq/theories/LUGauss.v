(** Runs of inverse_pivot with arbitrary pivots. *)
From mathcomp Require Import all_ssreflect all_fingroup all_algebra.
From Verif Require Import Base RotModel LUModel LUSpec LUFacts LUInv.
Set Implicit Arguments.
Unset Strict Implicit.
Unset Printing Implicit Defensive.
Import Order.TTheory GRing.Theory Num.Theory.
Local Open Scope ring_scope.

Section Run.
Variables (F : fieldType) (lt : F -> F -> bool) (fabs : F -> F) (n : nat).
Local Instance rops : Ops F := field_ops lt.
Local Notation N := n.+1.
Implicit Types (M A : nat -> nat -> F) (S : nat -> bool).

(** the state of the main loop after k steps *)
Definition gj_state A k : inv_state (T := F) :=
  for_upto 0 k (inverse_step fabs N) (IS A (fun _ => 0%N) (fun _ => 0%N) (fun _ => false)).
(** the element chosen in step k: unused row and column, not zero *)
Definition sound_pivot (s : inv_state (T := F)) : Prop :=
  let '(_, r, c) := find_full_pivot fabs N (is_m s) (is_piv s) in
  [/\ (r < N)%N, (c < N)%N, is_piv s r = false, is_piv s c = false & is_m s r c != 0].

Lemma left_swap (r c : 'I_N) S M : S r = false -> S c = false ->
  left_block N S (swap_rows N r c M) = perm_mx (tperm r c) *m left_block N S M.
Proof.
move=> Sr Sc; rewrite -row_permE; apply/matrixP => i j; rewrite !mxE swap_rowsE ltn_ord.
rewrite -![nat_of_ord i == _]/(i == _).
case: (tpermP r c i) => [->|->|/eqP ir /eqP ic].
- rewrite eqxx; case: ifP => // Sj; case: eqP => [e|_]; first by rewrite -e Sr in Sj.
  by case: eqP => // e; rewrite -e Sc in Sj.
- rewrite eqxx; case: ifP => Sj.
    case: eqP => [e|_]; first by rewrite -e Sc in Sj.
    by case: eqP => // e; rewrite -e Sr in Sj.
  by case: eqP => // ->.
- by rewrite (negbTE ir) (negbTE ic).
Qed.
Lemma right_swap (r c : 'I_N) S M : S r = false -> S c = false ->
  right_block N S (swap_rows N r c M) *m perm_mx (tperm r c) = perm_mx (tperm r c) *m right_block N S M.
Proof.
move=> Sr Sc; rewrite -row_permE -[tperm r c in LHS]invgK -col_permE tpermV; apply/matrixP => i j; rewrite !mxE swap_rowsE ltn_ord.
rewrite -![nat_of_ord i == _]/(i == _).
have Sj : S (tperm r c j) = S j by case: tpermP => [->|->|_ _] //; rewrite Sr Sc.
rewrite Sj; case: ifP => Sj'.
  have -> : tperm r c j = j by rewrite tpermD //; apply/eqP => e; rewrite -e ?Sr ?Sc in Sj'.
  case: (tpermP r c i) => [->|->|/eqP ir /eqP ic]; rewrite ?eqxx ?(negbTE ir) ?(negbTE ic) //.
  by case: eqP => // ->.
by rewrite -{1}(tpermK r c i) (inj_eq perm_inj).
Qed.

Definition swaps (rows cols : nat -> nat) (k : nat) : {perm 'I_N} :=
  (\prod_(i < k) tperm (inord (rows i)) (inord (cols i)))%g.
Lemma swapsS rows cols k : swaps rows cols k.+1 = (swaps rows cols k * tperm (inord (rows k)) (inord (cols k)))%g.
Proof. by rewrite /swaps big_ord_recr. Qed.
Lemma swaps_ext rows cols rows' cols' k : (forall i, (i < k)%N -> rows i = rows' i /\ cols i = cols' i) ->
  swaps rows cols k = swaps rows' cols' k.
Proof. by move=> H; apply: eq_bigr => i _; have [-> ->] := H i (ltn_ord i). Qed.

Variable A : nat -> nat -> F.
Definition run_inv k (s : inv_state (T := F)) : Prop :=
  [/\ piv_count N (is_piv s) = k &
      right_block N (is_piv s) (is_m s) *m (perm_mx (swaps (is_rows s) (is_cols s) k)^-1 *m to_mx N A) = left_block N (is_piv s) (is_m s)].

Lemma run_start : run_inv 0 (gj_state A 0).
Proof.
split; first by rewrite /piv_count big1.
have -> : right_block N (fun=> false) A = 1%:M by apply/matrixP => i j; rewrite !mxE.
rewrite /swaps big_ord0 invg1 perm_mx1 !mul1mx; apply/matrixP => i j; rewrite !mxE //.
Qed.
Lemma gj_stateS k : gj_state A k.+1 = inverse_step fabs N k (gj_state A k).
Proof. by rewrite /gj_state uptoS. Qed.

Lemma run_step k s : run_inv k s -> sound_pivot s -> run_inv k.+1 (inverse_step fabs N k s).
Proof.
case=> H1 H2; rewrite /sound_pivot /inverse_step; case: (find_full_pivot _ _ _ _) => [[pv r] c] [rN cN Sr Sc nz].
set M1 := if Nat.eqb r c then is_m s else swap_rows N r c (is_m s).
pose ro : 'I_N := Ordinal rN; pose co : 'I_N := Ordinal cN.
split=> /=; first by rewrite (@piv_count_put N _ co) ?H1.
have E : swaps (put (is_rows s) k r) (put (is_cols s) k c) k.+1 = (swaps (is_rows s) (is_cols s) k * tperm ro co)%g.
  rewrite swapsS !putE eqxx; congr (_ * tperm _ _)%g; try by apply/val_inj; rewrite /= inordK.
  by apply: swaps_ext => i ik; rewrite !putE (ltn_eqF ik).
have nz1 : M1 c c != 0.
  rewrite /M1 eqbE; have [e|ne] := eqVneq r c; first by rewrite -[X in is_m s X c]e.
  by rewrite swap_rowsE cN (eq_sym c r) (negbTE ne) eqxx.
apply: (@blocks_step F lt N co) => //; rewrite E invMg tpermV perm_mxM -mulmxA.
rewrite /M1 eqbE; have [e|ne] := eqVneq r c.
  have -> : ro = co by apply/val_inj.
  by rewrite tperm1 perm_mx1 mul1mx.
by rewrite mulmxA (@right_swap ro co) // -mulmxA H2 (@left_swap ro co).
Qed.

Lemma run_all : (forall k, (k < N)%N -> sound_pivot (gj_state A k)) -> forall k, (k <= N)%N -> run_inv k (gj_state A k).
Proof.
move=> H; elim=> [|k IH] kN; first exact: run_start.
by rewrite gj_stateS; apply: run_step; [apply: IH; apply: ltnW|apply: H].
Qed.

Lemma run_bounds : (forall k, (k < N)%N -> sound_pivot (gj_state A k)) -> forall k, (k <= N)%N -> forall i, (i < k)%N ->
  (is_rows (gj_state A k) i < N)%N /\ (is_cols (gj_state A k) i < N)%N.
Proof.
move=> H; elim=> [|k IH] kN i //; rewrite gj_stateS /inverse_step.
have := H k kN; rewrite /sound_pivot; case: (find_full_pivot _ _ _ _) => [[pv r] c] [rN cN _ _ _] /=.
rewrite ltnS !putE; case: (eqVneq i k) => [_ _|ne ik] //.
by apply: IH; [apply: ltnW|rewrite ltn_neqAle ne].
Qed.

Lemma swap_cols_mx (r c : 'I_N) M : to_mx N (swap_cols N r c M) = to_mx N M *m perm_mx (tperm r c).
Proof.
rewrite -[tperm r c]invgK -col_permE tpermV; apply/matrixP => i j; rewrite !mxE swap_colsE ltn_ord.
rewrite -![nat_of_ord j == _]/(j == _).
by case: (tpermP r c j) => [->|->|/eqP ir /eqP ic]; rewrite ?eqxx ?(negbTE ir) ?(negbTE ic) //; case: eqP => // ->.
Qed.

(** A * inverse_pivot(A) is the permutation matrix of the square of the exchanges *)
Lemma run_correct : (forall k, (k < N)%N -> sound_pivot (gj_state A k)) ->
  let p := swaps (is_rows (gj_state A N)) (is_cols (gj_state A N)) N in
  to_mx N A *m to_mx N (inverse_pivot fabs N A) = perm_mx (p * p)%g.
Proof.
move=> H p; have [H1 H2] := run_all H (leqnn N).
have full := piv_count_full H1.
have HM : to_mx N (is_m (gj_state A N)) *m (perm_mx p^-1 *m to_mx N A) = 1%:M.
  have -> : to_mx N (is_m (gj_state A N)) = right_block N (is_piv (gj_state A N)) (is_m (gj_state A N)).
    by apply/matrixP => i j; rewrite !mxE full.
  by rewrite H2; apply/matrixP => i j; rewrite !mxE full.
have HB : to_mx N (inverse_pivot fabs N A) = to_mx N (is_m (gj_state A N)) *m perm_mx p.
  rewrite /inverse_pivot -/(gj_state A N); move: (is_m (gj_state A N)) => M0.
  apply: (@upto_inv _ (fun k M => to_mx N M = to_mx N M0 *m perm_mx (swaps (is_rows (gj_state A N)) (is_cols (gj_state A N)) k))) => //.
    by rewrite /swaps big_ord0 perm_mx1 mulmx1.
  move=> k M /andP[_ kN] IH; have [rN cN] := run_bounds H (leqnn N) kN.
  rewrite swapsS perm_mxM mulmxA -IH eqbE; have [->|ne] := eqVneq; first by rewrite tperm1 perm_mx1 mulmx1.
  by rewrite -(swap_cols_mx (inord _) (inord _)) !inordK.
have AM : to_mx N A *m to_mx N (is_m (gj_state A N)) = perm_mx p.
  have := mulmx1C HM; rewrite -mulmxA => E.
  by rewrite -[LHS]mul1mx -perm_mx1 -(mulgV p) perm_mxM -mulmxA E mulmx1.
by rewrite HB mulmxA AM -perm_mxM.
Qed.
End Run.

Section Ordered.
Variables (F : realFieldType) (n : nat).
Local Instance oops2 : Ops F := ordered_ops F.
Local Notation N := n.+1.
Local Notation fabs := (fun x : F => `|x|).
Local Notation lto := (fun x y : F => x < y).
Implicit Types (M A : nat -> nat -> F) (S : nat -> bool).

(** the search returned the first element although its row and column are used *)
Definition stale (s : inv_state (T := F)) : bool :=
  let '(_, r, c) := find_full_pivot fabs N (is_m s) (is_piv s) in [&& r == 0%N, c == 0%N & is_piv s 0%N].

Lemma sound_or_stale A k s : to_mx N A \in unitmx -> (k < N)%N -> run_inv n A k s -> ~~ stale s -> sound_pivot lto fabs n s.
Proof.
move=> uA kN [H1 H2]; rewrite /stale /sound_pivot.
have := find_full_pivotE N (is_piv s) (is_m s); case: (find_full_pivot _ _ _ _) => [[pv r] c] [P1 P2 P3 P4] ns.
have B : [&& (r < N)%N, (c < N)%N, ~~ is_piv s r & ~~ is_piv s c].
  case/orP: P2 => // /andP[/eqP r0 /eqP c0]; move: ns; rewrite r0 c0 /= => ->.
  by [].
case/and4P: B => rN cN /negbTE Sr /negbTE Sc; split=> //; apply/eqP => z.
have pv0 : pv = 0 by rewrite P1 z normr0.
have L0 : row (Ordinal rN) (left_block N (is_piv s) (is_m s)) = 0.
  apply/rowP => j; rewrite !mxE; case: ifP => Sj.
    by case: eqP => // e; move: Sj; rewrite -e /= Sr.
  by apply/eqP; rewrite -normr_le0 -pv0; apply: P4; rewrite ?Sr ?Sj.
have R0 : row (Ordinal rN) (right_block N (is_piv s) (is_m s)) = 0.
  set Q := perm_mx _ *m _ in H2; have uQ : Q \in unitmx by rewrite unitmx_mul unitmx_perm uA.
  by rewrite -[LHS](mulmxK uQ) -row_mul H2 L0 mul0mx.
have /rowP/(_ (Ordinal rN)) := R0; rewrite !mxE /= Sr eqxx => /eqP; by rewrite oner_eq0.
Qed.

Lemma sound_unless_stale A : to_mx N A \in unitmx -> (forall k, (k < N)%N -> ~~ stale (gj_state lto fabs n A k)) ->
  forall k, (k < N)%N -> sound_pivot lto fabs n (gj_state lto fabs n A k).
Proof.
move=> uA ns; suff H : forall k, (k <= N)%N -> run_inv n A k (gj_state lto fabs n A k).
  by move=> k kN; apply: (sound_or_stale uA kN); [apply: H; apply: ltnW|apply: ns].
elim=> [|k IH] kN; first exact: run_start.
have I := IH (ltnW kN); rewrite gj_stateS; apply: run_step => //.
exact: (sound_or_stale uA kN I (ns k kN)).
Qed.

(** symmetric matrices whose quadratic form is at least m > 1 times the squared length *)
Section Definite.
Variables (m : F) (A : nat -> nat -> F).
Hypothesis m1 : 1 < m.
Hypothesis symA : forall i j : 'I_N, A i j = A j i.
Hypothesis posA : forall x : 'rV[F]_N, m * (x *m x^T) 0 0 <= (x *m to_mx N A *m x^T) 0 0.
Local Lemma m0 : 0 < m. Proof. exact: lt_trans ltr01 m1. Qed.

Definition spd_inv k (s : inv_state (T := F)) : Prop :=
  [/\ piv_count N (is_piv s) = k, (forall i, (i < k)%N -> is_rows s i = is_cols s i) &
      right_block N (is_piv s) (is_m s) *m to_mx N A = left_block N (is_piv s) (is_m s)].

Section State.
Variables (S : nat -> bool) (M : nat -> nat -> F).
Let R := right_block N S M.
Let L := left_block N S M.
Hypothesis RA : R *m to_mx N A = L.
Let G := R *m to_mx N A *m R^T.

Local Lemma GE i j : G i j = \sum_b L i b * R j b.
Proof. by rewrite /G RA mxE; apply: eq_bigr => b _; rewrite [R^T _ _]mxE. Qed.
Local Lemma Gfree (i j : 'I_N) : S i = false -> S j = false -> G i j = M i j.
Proof.
move=> Si Sj; rewrite GE (bigD1 j) //= big1 ?addr0 => [|b bj].
  by rewrite !mxE Sj eqxx mulr1.
rewrite !mxE; case: ifP => Sb; last by rewrite (eq_sym j) (negbTE bj) mulr0.
by case: eqP => [e|_]; [rewrite -e Si in Sb|rewrite mul0r].
Qed.
Local Lemma Gused (i : 'I_N) : S i -> G i i = M i i.
Proof.
move=> Si; rewrite GE (bigD1 i) //= big1 ?addr0 => [|b bi].
  by rewrite !mxE Si eqxx mul1r.
by rewrite !mxE; case: ifP => Sb; rewrite (eq_sym i) (negbTE bi) ?mul0r ?mulr0.
Qed.
Local Lemma Gsym i j : G i j = G j i.
Proof.
have GT : G^T = G.
  rewrite /G !trmx_mul trmxK mulmxA; congr (_ *m _ *m _).
  by apply/matrixP => a b; rewrite !mxE symA.
by rewrite -[in LHS]GT mxE.
Qed.
Local Lemma quad (x : 'rV[F]_N) : m * ((x *m R) *m (x *m R)^T) 0 0 <= (x *m G *m x^T) 0 0.
Proof. by have := posA (x *m R); rewrite !trmx_mul /G !mulmxA. Qed.
Local Lemma norm_ge (x : 'rV[F]_N) (j : 'I_N) : x 0 j ^+ 2 <= (x *m x^T) 0 0.
Proof.
rewrite mxE (bigD1 j) //= mxE -expr2 ler_addl; apply: sumr_ge0 => b _; by rewrite mxE -expr2 sqr_ge0.
Qed.
Local Lemma delta_quad (X : 'M[F]_N) (i : 'I_N) : ((delta_mx 0 i : 'rV[F]_N) *m X *m (delta_mx 0 i : 'rV[F]_N)^T) 0 0 = X i i.
Proof. by rewrite -rowE trmx_delta -colE !mxE. Qed.

Local Lemma pair_quad (X : 'M[F]_N) (i j : 'I_N) (e : F) (x : 'rV[F]_N) : x = delta_mx 0 i + e *: delta_mx 0 j ->
  (x *m X *m x^T) 0 0 = X i i + e * X i j + (e * X j i + e ^+ 2 * X j j).
Proof.
move=> ->; rewrite linearD linearZ /= !trmx_delta mulmxDr !mulmxDl -!scalemxAl -!scalemxAr -!rowE -!colE. rewrite !mxE.
by rewrite mulrA -expr2 -!addrA; congr (_ + _); rewrite addrCA.
Qed.
Lemma free_diag (i : 'I_N) : S i = false -> m <= M i i.
Proof.
move=> Si; have := quad (delta_mx 0 i); rewrite delta_quad Gfree //; apply: le_trans.
rewrite -[X in X <= _]mulr1 (ler_pmul2l m0); apply: le_trans (norm_ge _ i).
by rewrite -rowE !mxE Si eqxx expr1n.
Qed.
Lemma used_diag (i : 'I_N) : S i -> `|M i i| < 1.
Proof.
move=> Si; have := quad (delta_mx 0 i); rewrite delta_quad Gused // => Q.
have Q2 : m * M i i ^+ 2 <= M i i.
  apply: le_trans Q; rewrite (ler_pmul2l m0); apply: le_trans (norm_ge _ i).
  by rewrite -rowE !mxE Si.
have pos : 0 <= M i i by apply: le_trans Q2; rewrite mulr_ge0 ?sqr_ge0 // (ltW m0).
rewrite ger0_norm // ltNge; apply/negP => ge1.
have : M i i < m * M i i ^+ 2; last by rewrite ltNge Q2.
rewrite expr2 mulrA; apply: lt_le_trans (_ : m * M i i <= _).
  by rewrite -[X in X < _]mul1r ltr_pmul2r // (lt_le_trans ltr01).
by rewrite -[X in X <= _]mulr1 ler_pmul2l ?mulr_gt0 ?m0 // (lt_le_trans ltr01).
Qed.
Lemma free_off (i j : 'I_N) : i != j -> S i = false -> S j = false -> `|M i j| < Num.max (M i i) (M j j).
Proof.
move=> ij Si Sj.
have step (e : F) : e ^+ 2 = 1 -> 0 < M i i + M j j + e * M i j *+ 2.
  move=> e2; have := quad (delta_mx 0 i + e *: delta_mx 0 j).
  set x : 'rV[F]_N := _ + _; have -> : (x *m G *m x^T) 0 0 = M i i + M j j + e * M i j *+ 2.
    rewrite (pair_quad G (erefl x)) !Gfree // e2 mul1r -(Gfree Sj Si) Gsym Gfree // mulr2n.
    by rewrite -!addrA; congr (_ + _); rewrite [in RHS]addrC addrA.
  apply: lt_le_trans; rewrite (pmulr_rgt0 _ m0); apply: lt_le_trans (norm_ge _ i).
  rewrite mulmxDl -scalemxAl -!rowE !mxE Si eqxx (eq_sym j) (negbTE ij) mulr0 addr0 expr1n.
  exact: ltr01.
have N1 : (-1 : F) ^+ 2 = 1 by rewrite sqrrN expr1n.
have [P1 P2] := (step 1 (expr1n _ _), step (-1) N1).
rewrite ltr_norml; apply/andP; split.
  rewrite -subr_gt0 opprK -(pmulrn_lgt0 _ (isT : (0 < 2)%N)) mulrnDl.
  apply: lt_le_trans P1 _; rewrite mul1r [X in _ <= X]addrC ler_add2r mulr2n ler_add // le_maxr lexx ?orbT //.
rewrite -subr_gt0 -(pmulrn_lgt0 _ (isT : (0 < 2)%N)) mulrnBl.
apply: lt_le_trans P2 _; rewrite mulN1r mulNrn ler_add2r mulr2n ler_add // le_maxr lexx ?orbT //.
Qed.
End State.

Lemma spd_step k s : (k < N)%N -> spd_inv k s -> spd_inv k.+1 (inverse_step fabs N k s).
Proof.
move=> kN [H1 H2 H3]; rewrite /inverse_step.
have := find_full_pivotE N (is_piv s) (is_m s); case: (find_full_pivot _ _ _ _) => [[pv r] c] [P1 P2 P3 P4].
have [c0 Sc0] : exists c : 'I_N, is_piv s c = false by apply: piv_count_free; rewrite H1.
have big : m <= pv.
  apply: le_trans (free_diag H3 Sc0) _; apply: le_trans (ler_norm _) _; apply: P4; by rewrite ?Sc0.
have : [&& (r < N)%N, (c < N)%N, ~~ is_piv s r & ~~ is_piv s c].
  case/orP: P2 => // /andP[/eqP r0 /eqP c0']; subst r c; rewrite /= andbb; apply/negP => S0.
  have := used_diag H3 (i := ord0) S0; rewrite -P1 ltNge; case/negP; exact: le_trans (ltW m1) big.
case/and4P => rN cN /negbTE Sr /negbTE Sc.
pose ro : 'I_N := Ordinal rN; pose co : 'I_N := Ordinal cN.
have rc : r = c.
  apply/eqP; apply/negPn/negP => ne; have := @free_off _ _ H3 ro co ne Sr Sc; rewrite -P1 lt_maxr.
  have le i : (i < N)%N -> is_piv s i = false -> is_m s i i <= pv.
    by move=> iN Si; apply: le_trans (ler_norm _) _; apply: P4; rewrite ?Si.
  by rewrite !ltNge !le.
subst c; rewrite eqbE eqxx; split=> /=.
- by rewrite (@piv_count_put N _ ro) ?H1.
- by move=> i; rewrite ltnS leq_eqVlt !putE; case: (eqVneq i k) => //= _ ik; apply: H2.
- apply: (@blocks_step F _ N ro) => //=; have := free_diag H3 (i := ro) Sr; rewrite /= => g.
  by rewrite gt_eqF // (lt_le_trans m0).
Qed.

Lemma spd_correct : to_mx N (inverse_pivot fabs N A) *m to_mx N A = 1%:M.
Proof.
rewrite /inverse_pivot; set s := inverse_loop _ _ _.
have [H1 H2 H3] : spd_inv N s.
  rewrite /s /inverse_loop; apply: upto_inv => // [|i t /andP[_ iN] It]; last exact: spd_step.
  split=> //=; first by rewrite /piv_count big1.
  have -> : right_block N (fun=> false) A = 1%:M by apply/matrixP => i j; rewrite !mxE.
  by rewrite mul1mx; apply/matrixP => i j; rewrite !mxE.
have -> : for_upto 0 N (fun i M => if Nat.eqb (is_rows s i) (is_cols s i) then M
     else swap_cols N (is_rows s i) (is_cols s i) M) (is_m s) = is_m s.
  apply: (@upto_inv _ (fun _ M => M = is_m s)) => // i M /andP[_ iN] ->.
  by rewrite (H2 i iN) eqbE eqxx.
have full := piv_count_full H1.
have <- : right_block N (is_piv s) (is_m s) = to_mx N (is_m s).
  by apply/matrixP => i j; rewrite !mxE full.
rewrite H3; apply/matrixP => i j; rewrite !mxE full //.
Qed.
End Definite.
End Ordered.
