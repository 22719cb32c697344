(** C27: what inverse() returns for matrices that are not 2x2, 3x3 or 4x4. *)
From mathcomp Require Import all_ssreflect all_fingroup all_algebra.
From Verif Require Import Base RotModel LUModel LUSpec LUFacts LUInv LUGauss PropLU.
Set Implicit Arguments.
Unset Strict Implicit.
Unset Printing Implicit Defensive.
Import Order.TTheory GRing.Theory Num.Theory.
Local Open Scope ring_scope.

(** * Specification *)
(** [A * B] is the matrix of the permutation p *)
Definition product_is (F : fieldType) n (A B : nat -> nat -> F) (p : {perm 'I_n}) : Prop :=
  to_mx n A *m to_mx n B = perm_mx p.
(** symmetric, with x A x' >= m x x' for every row x *)
Definition positive (F : realFieldType) (m : F) n (A : nat -> nat -> F) : Prop :=
  (forall i j, (i < n)%N -> (j < n)%N -> A i j = A j i) /\
  (forall x : 'rV[F]_n, m * (x *m x^T) 0 0 <= (x *m to_mx n A *m x^T) 0 0).

(** the row and column chosen in step k, the matrix and the marks there *)
Section Choice.
Variables (F : fieldType) (lt : F -> F -> bool) (fabs : F -> F) (n : nat) (A : nat -> nat -> F).
Local Instance cops : Ops F := field_ops lt.
Definition before k := gj_state lt fabs n A k.
Definition chosen k : nat * nat :=
  let '(_, r, c) := find_full_pivot fabs n.+1 (is_m (before k)) (is_piv (before k)) in (r, c).
(** no chosen row or column was used in an earlier step, and no chosen element is zero *)
Definition good_choices : Prop := forall k, (k < n.+1)%N ->
  let '(r, c) := chosen k in
  [/\ (r < n.+1)%N, (c < n.+1)%N, is_piv (before k) r = false, is_piv (before k) c = false
    & is_m (before k) r c != 0].
(** the exchanges (row_k col_k) of all steps, the first one first *)
Definition exchanges : {perm 'I_n.+1} :=
  (\prod_(k < n.+1) tperm (inord (chosen k).1) (inord (chosen k).2))%g.
End Choice.

Section Facts.
Variables (F : fieldType) (lt : F -> F -> bool) (fabs : F -> F) (n : nat) (A : nat -> nat -> F).
Local Instance cops2 : Ops F := field_ops lt.
Lemma good_sound : good_choices lt fabs n A -> forall k, (k < n.+1)%N -> sound_pivot lt fabs n (gj_state lt fabs n A k).
Proof.
move=> H k kN; have := H k kN; rewrite /chosen /sound_pivot /before.
by case: (find_full_pivot _ _ _ _) => [[pv r] c].
Qed.
Lemma recorded k : (forall i, (i < k)%N -> is_rows (gj_state lt fabs n A k) i = (chosen lt fabs n A i).1 /\
  is_cols (gj_state lt fabs n A k) i = (chosen lt fabs n A i).2).
Proof.
elim: k => // k IH i; rewrite ltnS leq_eqVlt gj_stateS /inverse_step.
case E: (find_full_pivot _ _ _ _) => [[pv r] c] /=; rewrite !putE; case: (eqVneq i k) => [-> _|_ ik] /=.
  by rewrite /chosen /before E.
exact: IH.
Qed.
Lemma exchangesE : exchanges lt fabs n A =
  swaps n (is_rows (gj_state lt fabs n A n.+1)) (is_cols (gj_state lt fabs n A n.+1)) n.+1.
Proof. by apply: eq_bigr => i _; have [-> ->] := recorded (ltn_ord i). Qed.
End Facts.

(** * Theorems *)
(** Whenever the choices are good, A * inverse(A) is the matrix of the square of the
    product of the exchanges: the columns are exchanged in the wrong order. *)
Theorem inverse_exchanges : forall (F : fieldType) lt fabs n (m : mx F),
  square n.+1 m -> ~~ small n.+1 -> good_choices lt fabs n (mel m) ->
  exists B, @matrix_inverse F (field_ops lt) fabs m = Ok (Mx n.+1 n.+1 (mbasis m) B) /\
    product_is (mel m) B (exchanges lt fabs n (mel m) * exchanges lt fabs n (mel m))%g.
Proof.
move=> F lt fabs n m S sn G; rewrite (inverse_pivoted _ _ S) //; eexists; split=> //.
rewrite /product_is exchangesE; exact: (run_correct (good_sound G)).
Qed.

(** so the result is the inverse exactly when the product of the exchanges is its own inverse *)
Theorem inverse_iff_involution : forall (F : fieldType) lt fabs n (m : mx F),
  square n.+1 m -> ~~ small n.+1 -> good_choices lt fabs n (mel m) ->
  exists B, @matrix_inverse F (field_ops lt) fabs m = Ok (Mx n.+1 n.+1 (mbasis m) B) /\
    (inverse_of n.+1 (mel m) B <-> (exchanges lt fabs n (mel m) * exchanges lt fabs n (mel m) = 1)%g).
Proof.
move=> F lt fabs n m S sn G; have [B [E P]] := inverse_exchanges S sn G; exists B; split=> //.
rewrite /product_is in P; split=> [[AB _]|e].
  apply/permP => i; move: P; rewrite AB => /matrixP/(_ i (exchanges lt fabs n (mel m) (exchanges lt fabs n (mel m) i))).
  rewrite !mxE permM perm1 eqxx; case: eqP => // _ /eqP; by rewrite eq_sym oner_eq0.
have AB : to_mx n.+1 (mel m) *m to_mx n.+1 B = 1%:M by rewrite P e perm_mx1.
by split=> //; apply: mulmx1C.
Qed.

(** an invertible matrix: the only bad choice is the first element after its row is used *)
Theorem inverse_exchanges_ordered : forall (F : realFieldType) n (m : mx F),
  square n.+1 m -> ~~ small n.+1 -> \det (to_mx n.+1 (mel m)) != 0 ->
  (forall k, (k < n.+1)%N -> is_piv (before (fun x y : F => x < y) (@normf F) n (mel m) k) 0 ->
     chosen (fun x y : F => x < y) (@normf F) n (mel m) k <> (0%N, 0%N)) ->
  exists B, @matrix_inverse F (ordered_ops F) (@normf F) m = Ok (Mx n.+1 n.+1 (mbasis m) B) /\
    let p := exchanges (fun x y : F => x < y) (@normf F) n (mel m) in
    product_is (mel m) B (p * p)%g /\ (inverse_of n.+1 (mel m) B <-> (p * p = 1)%g).
Proof.
move=> F n m S sn d H.
have G : good_choices (fun x y : F => x < y) (@normf F) n (mel m).
  move=> k kN; have := @sound_unless_stale F n (mel m); rewrite unitmxE unitfE d => /(_ isT).
  have ns k' : (k' < n.+1)%N -> ~~ stale n (gj_state (fun x y : F => x < y) (fun x => `|x|) n (mel m) k').
    move=> k'N; have := H k' k'N; rewrite /chosen /stale /before /normf.
    case: (find_full_pivot _ _ _ _) => [[pv r] c] K; apply/negP => /and3P[/eqP r0 /eqP c0 p0].
    by apply: (K p0); rewrite r0 c0.
  move=> /(_ ns k kN); rewrite /sound_pivot /chosen /before /normf.
  by case: (find_full_pivot _ _ _ _) => [[pv r] c].
have [B [E P]] := inverse_exchanges S sn G; have [B' [E' I]] := inverse_iff_involution S sn G.
exists B; split=> //; split=> //; have [<-] : Ok (Mx n.+1 n.+1 (mbasis m) B') = Ok (Mx n.+1 n.+1 (mbasis m) B) by rewrite -E' -E.
exact: I.
Qed.

(** symmetric matrices that stretch every vector by more than 1 *)
Theorem inverse_positive : forall (F : realFieldType) (e : F) n (m : mx F),
  1 < e -> square n m -> positive e n (mel m) -> ~~ small n ->
  exists B, @matrix_inverse F (ordered_ops F) (@normf F) m = Ok (Mx n n (mbasis m) B) /\
    inverse_of n (mel m) B.
Proof.
move=> F e n m e1 S [sym pos] sn; rewrite (inverse_pivoted _ _ S) //; eexists; split=> //.
case: n S sym pos sn => [|n] S sym pos sn.
  by split; rewrite [LHS]thinmx0 [RHS]thinmx0.
have H : to_mx n.+1 (@inverse_pivot F (ordered_ops F) (@normf F) n.+1 (mel m)) *m to_mx n.+1 (mel m) = 1%:M.
  by apply: (@spd_correct F n e (mel m) e1) => // i j; apply: sym; apply: ltn_ord.
by split=> //; apply: mulmx1C.
Qed.

(** * Examples *)
Local Notation rF := rat_realFieldType.
Local Notation rlt := (fun x y : rat => x < y).
(** twice the cyclic matrix of size 5: all choices are good, the result is not the inverse *)
Definition two_cycle : mx rat :=
  Mx 5 5 row_basis (fun i j => if Nat.eqb j (Nat.modulo (i + 1) 5) then 1 + 1 else 0).
(** the identity doubled, with the first two rows exchanged: one exchange *)
Definition one_exchange : mx rat :=
  Mx 5 5 row_basis (fun i j => let k := if Nat.eqb i 0 then 1%N else if Nat.eqb i 1 then 0%N else i in
     if Nat.eqb j k then 1 + 1 else 0).
Definition good_choicesb n (A : nat -> nat -> rat) : bool :=
  all (fun k => let '(r, c) := chosen rlt (@normf rF) n A k in
    [&& (r < n.+1)%N, (c < n.+1)%N, ~~ is_piv (before rlt (@normf rF) n A k) r,
        ~~ is_piv (before rlt (@normf rF) n A k) c & is_m (before rlt (@normf rF) n A k) r c != 0]) (iota 0 n.+1).
Lemma good_choicesE n A : good_choicesb n A -> good_choices rlt (@normf rF) n A.
Proof.
move=> /allP H k kN; have /H : k \in iota 0 n.+1 by rewrite mem_iota add0n.
by case: (chosen _ _ _ _ _) => r c /and5P[? ? /negbTE ? /negbTE ? ?].
Qed.
Example good_choices_cases : square 5 two_cycle /\ square 5 one_exchange /\ ~~ small 5 /\
  good_choices rlt (@normf rF) 4 (mel two_cycle) /\ good_choices rlt (@normf rF) 4 (mel one_exchange).
Proof. by split=> //; split=> //; split=> //; split; apply: good_choicesE; vm_compute. Qed.
Example chosen_cases :
  [seq chosen rlt (@normf rF) 4 (mel two_cycle) k | k <- iota 0 5] = [:: (0, 1); (0, 2); (0, 3); (0, 4); (0, 0)]%N /\
  [seq chosen rlt (@normf rF) 4 (mel one_exchange) k | k <- iota 0 5] = [:: (0, 1); (0, 0); (2, 2); (3, 3); (4, 4)]%N.
Proof. by vm_compute. Qed.

Lemma prod_of (f : nat -> nat * nat) l : [seq f k | k <- iota 0 5] = l ->
  (\prod_(k < 5) tperm (inord (f k).1) (inord (f k).2) = \prod_(x <- l) tperm (inord x.1) (inord x.2) :> {perm 'I_5})%g.
Proof.
move=> <-; rewrite big_map -(big_mkord xpredT (fun k => tperm (inord (f k).1) (inord (f k).2))) /index_iota subn0.
by [].
Qed.
Lemma tperm5 a b c : (a < 5)%N -> (b < 5)%N -> (c < 5)%N ->
  tperm (inord a) (inord b) (inord c : 'I_5) = inord (if c == a then b else if c == b then a else c).
Proof.
move=> a5 b5 c5; have E x y : (x < 5)%N -> (y < 5)%N -> ((inord x : 'I_5) == inord y) = (x == y).
  by move=> x5 y5; rewrite -(inj_eq val_inj) /= !inordK.
case: (eqVneq c a) => [->|ca]; first by rewrite tpermL.
case: (eqVneq c b) => [->|cb]; first by rewrite tpermR.
by rewrite tpermD // E // eq_sym.
Qed.
(** the first one is wrong, the second one is right *)
Example exchanges_cases :
  let p := exchanges rlt (@normf rF) 4 (mel two_cycle) in
  let q := exchanges rlt (@normf rF) 4 (mel one_exchange) in
  (p * p != 1)%g /\ (q * q = 1)%g /\ (q != 1)%g.
Proof.
have [E1 E2] := chosen_cases; move=> p q.
have -> : p = (\prod_(x <- [:: (0, 1); (0, 2); (0, 3); (0, 4); (0, 0)]%N) tperm (inord x.1) (inord x.2))%g by apply: prod_of.
have -> : q = (\prod_(x <- [:: (0, 1); (0, 0); (2, 2); (3, 3); (4, 4)]%N) tperm (inord x.1) (inord x.2))%g by apply: prod_of.
clear; rewrite !big_cons !big_nil /= !tperm1 !mulg1; split; [|split].
- apply/eqP => /permP/(_ (inord 0)); rewrite perm1 !permM.
  rewrite !tperm5 //= => /(congr1 val); by rewrite /= !inordK.
- by rewrite tperm2.
- apply/eqP => /permP/(_ (inord 0)); rewrite perm1 tperm5 //= => /(congr1 val); by rewrite /= !inordK.
Qed.
(** e*I + 1, where every element of the second term is 1, of any size *)
Example positive_case (F : realFieldType) (e : F) n :
  positive e n (fun i j => (if i == j then e else 0) + 1).
Proof.
split=> [i j _ _|x]; first by rewrite eq_sym.
have -> : to_mx n (fun i j => (if i == j then e else 0) + 1) = e%:M + const_mx 1.
  by apply/matrixP => i j; rewrite !mxE -[nat_of_ord i == _]/(i == j); case: (i == j).
rewrite mulmxDr mulmxDl mul_mx_scalar -scalemxAl [X in _ <= X]mxE [X in _ <= X + _]mxE ler_addl.
have -> : const_mx 1 = (const_mx 1 : 'cV[F]_n) *m (const_mx 1 : 'rV[F]_n).
  by apply/matrixP => i j; rewrite !mxE big_ord1 !mxE mulr1.
have -> : (const_mx 1 : 'rV[F]_n) = (const_mx 1 : 'cV[F]_n)^T by rewrite trmx_const.
rewrite mulmxA -mulmxA -trmx_mul; move: (x *m const_mx 1) => y.
by rewrite mxE big_ord1 [y^T _ _]mxE -expr2 sqr_ge0.
Qed.
Example inverse_positive_case : exists B,
  @matrix_inverse rat (ordered_ops rF) (@normf rF) (Mx 6 6 row_basis (fun i j => (if i == j then 1 + 1 else 0) + 1)) =
    Ok (Mx 6 6 row_basis B) /\ inverse_of 6 (fun i j => (if i == j then 1 + 1 else 0) + 1) B.
Proof. by apply: (@inverse_positive rF (1 + 1)) => //; apply: positive_case. Qed.

Print Assumptions inverse_exchanges.
Print Assumptions inverse_iff_involution.
Print Assumptions inverse_exchanges_ordered.
Print Assumptions inverse_positive.
Print Assumptions exchanges_cases.
