(** Matrices whose diagonal dominates the columns: pivoting finds every pivot on
    the diagonal. *)
From mathcomp Require Import all_ssreflect all_fingroup all_algebra.
From Verif Require Import Base RotModel LUModel LUSpec LUFacts LUPlain LUPivot LUDet.
Set Implicit Arguments.
Unset Strict Implicit.
Unset Printing Implicit Defensive.
Import Order.TTheory GRing.Theory Num.Theory.
Local Open Scope ring_scope.

(** every pivot used is at least eps in magnitude *)
Section Diagonal.
Variables (F : realFieldType) (eps : F) (N : nat).
Local Instance oops' : Ops F := ordered_ops F.
Local Notation fabs := (fun x : F => `|x|).
Hypothesis eps_pos : 0 < eps.

Lemma pivot_diag A M ord s : lu_pivot_inplace fabs eps N A = (M, ord, s) -> s <> sgn_zero ->
  forall k, (k.+1 < N)%N -> eps <= `|M k k|.
Proof.
rewrite /lu_pivot_inplace minusE subn1; set st := for_upto 0 N.-1 _ _.
pose P k (t : lu_state (T := F)) := ls_stop t = false -> forall i, (i < k)%N -> eps <= `|ls_m t i i|.
have I : P N.-1 st.
  apply: (@upto_inv _ P) => // k t /andP[_ kN'] IH; rewrite /lu_pivot_step.
  have kN : (k < N)%N by case: N kN' => // n kn; apply: ltnW.
  case: ifP => [st1|/IH H]; first by rewrite /P st1.
  have := @find_pivotE F N k (ls_m t) kN.
  case: (find_pivot _ _ _ _) => max row [/andP[kr rN] e _ _].
  case: ifP => // lt _ i; rewrite ltnS /= eqbE => ik.
  have big : eps <= max by rewrite leNgt /= in lt *; rewrite lt.
  rewrite schurE // ltnNge ik /=; move: ik; rewrite leq_eqVlt => /orP[/eqP ->|ik].
    have [rk|nrk] /= := eqVneq row k.
      by rewrite rk eqxx in e; apply: le_trans big _; rewrite e ler_norm.
    by rewrite swap_rowsE kN eqxx; rewrite (negbTE nrk) in e; rewrite -e.
  have [rk|nrk] /= := eqVneq row k; first exact: H.
  by rewrite swap_rowsE (ltn_trans ik kN) (ltn_eqF ik) (ltn_eqF (leq_trans ik kr)); apply: H.
case=> <- _ <-; case E: (ls_stop st) => // _ k kN; apply: I => //.
by case: N kN => // n; rewrite ltnS.
Qed.
End Diagonal.

Section Dominant.
Variables (F : realFieldType) (e : F).
Local Instance oops : Ops F := ordered_ops F.
Local Notation fabs := (fun x : F => `|x|).
Hypothesis e_pos : 0 < e.
Variable N : nat.
Implicit Types M : nat -> nat -> F.

Definition dom k M : Prop := forall j, (k <= j < N)%N ->
  \sum_(k <= i < N | i != j) `|M i j| + e <= M j j.

Lemma dom_diag k M : (k < N)%N -> dom k M -> e <= M k k.
Proof.
move=> kN /(_ k); rewrite leqnn kN => /(_ isT); apply: le_trans.
by rewrite ler_addr sumr_ge0.
Qed.

Lemma dom_col k M i : (k < i < N)%N -> dom k M -> `|M i k| < M k k.
Proof.
move=> /andP[ki iN] /(_ k); rewrite leqnn (ltn_trans ki iN) => /(_ isT); apply: lt_le_trans.
apply: (@le_lt_trans _ _ (\sum_(k <= l < N | l != k) `|M l k|)); last by rewrite ltr_addl.
rewrite big_mkcond (bigD1_seq i) ?iota_uniq ?mem_index_iota ?(ltnW ki) //= (gtn_eqF ki) /=.
by rewrite ler_addl sumr_ge0 // => l _; case: ifP.
Qed.

Lemma dom_schur k M : (k < N)%N -> dom k M -> dom k.+1 (schur N k M).
Proof.
move=> kN D j /andP[kj jN].
have pk : 0 < M k k := lt_le_trans e_pos (dom_diag kN D).
have Dk := D k; rewrite leqnn kN in Dk; have {}Dk := Dk isT.
have Dj := D j; rewrite (ltnW kj) jN in Dj; have {}Dj := Dj isT.
rewrite big_ltn_cond // (ltn_eqF kj) /= in Dj.
set S := \sum_(k.+1 <= i < N | i != j) `|M i j| in Dj.
pose q := `|M k j| / M k k.
have q0 : 0 <= q by rewrite /q divr_ge0 // ltW.
set C := \sum_(k <= i < N | i != k) `|M i k| in Dk.
have CE : C = `|M j k| + \sum_(k.+1 <= i < N | i != j) `|M i k|.
  rewrite /C big_ltn_cond // eqxx /= big_nat_cond.
  rewrite (eq_bigl (fun i => (k < i < N)%N)); last first.
    by move=> i; case: (ltnP k i) => //= ki; rewrite (gtn_eqF ki) andbT.
  rewrite -big_nat (bigD1_seq j) ?iota_uniq ?mem_index_iota ?kj ?jN //=.
have Cq : C * q <= `|M k j|.
  rewrite /q mulrA ler_pdivr_mulr // mulrC ler_wpmul2l //.
  by apply: le_trans Dk; rewrite ler_addl ltW.
have E i : (k < i < N)%N -> schur N k M i j = M i j - M i k / M k k * M k j.
  by move=> H; rewrite schurE // H gtn_eqF // kj jN.
have absE i : `|M i k / M k k * M k j| = `|M i k| * q.
  by rewrite !normrM normfV (gtr0_norm pk) /q -!mulrA [`|M k j| / _]mulrC.
have sumle : \sum_(k.+1 <= i < N | i != j) `|schur N k M i j|
             <= S + (\sum_(k.+1 <= i < N | i != j) `|M i k|) * q.
  rewrite mulr_suml /S -big_split /= big_nat_cond [X in _ <= X]big_nat_cond.
  apply: ler_sum => i /andP[H _]; rewrite (E i H) -absE.
  by rewrite (le_trans (ler_norm_sub _ _)).
have Ej : schur N k M j j = M j j - M j k / M k k * M k j by apply: E; rewrite kj.
have diag : M j j - `|M j k| * q <= schur N k M j j.
  by rewrite Ej ler_add2l ler_opp2 -absE; exact: ler_norm.
apply: le_trans diag; rewrite ler_subr_addr addrAC.
apply: le_trans Dj; rewrite ler_add2r; apply: le_trans (ler_add sumle (lexx _)) _.
by rewrite -addrA -mulrDl [_ + `|M j k|]addrC -CE addrC ler_add2r.
Qed.

Lemma find_pivot_dom k M : (k < N)%N -> dom k M -> find_pivot fabs N k M = (M k k, k).
Proof.
move=> kN D; have := @find_pivotE F N k M kN.
case: (find_pivot _ _ _ _) => max row [/andP[kr rN] eM ge _].
move: kr; rewrite leq_eqVlt => /orP[/eqP rk|kr]; first by rewrite -rk eqxx in eM *; rewrite eM.
have := dom_col (M := M) (k := k) (i := row); rewrite kr rN => /(_ isT D).
by rewrite (gtn_eqF kr) in eM; rewrite -eM ltNge ge.
Qed.

Variable eps : F.
Hypothesis eps_e : eps <= e.
Variable A : nat -> nat -> F.

Lemma dom_pivot : dom 0 A -> exists M ord, lu_pivot_inplace fabs eps N A = (M, ord, sgn_pos) /\
  forall i, (i < N)%N -> ord i = i.
Proof.
move=> D; rewrite /lu_pivot_inplace minusE subn1.
set o := for_upto 0 N _ _; set st := for_upto 0 N.-1 _ _.
have [H1 H2 H3 H4] : [/\ dom N.-1 (ls_m st), ls_order st = o, ls_odd st = false & ls_stop st = false].
  apply: (@upto_inv _ (fun k s => [/\ dom k (ls_m s), ls_order s = o, ls_odd s = false & ls_stop s = false])) => //.
  move=> k s /andP[_ kN'] [I1 I2 I3 I4]; rewrite /lu_pivot_step I4.
  have kN : (k < N)%N by case: N kN' => // n kn; apply: ltnW.
  rewrite find_pivot_dom // eqbE eqxx /= ltNge (le_trans eps_e (dom_diag kN I1)) /=.
  by split=> //; apply: dom_schur.
exists (ls_m st), (ls_order st); split; first by rewrite H3 H4.
by move=> i iN; rewrite H2; apply: order0.
Qed.

Lemma dom_last : (0 < N)%N -> dom 0 A -> forall M ord s,
  lu_pivot_inplace fabs eps N A = (M, ord, s) -> 0 < M N.-1 N.-1.
Proof.
move=> N0 D M ord s; rewrite /lu_pivot_inplace minusE subn1.
set o := for_upto 0 N _ _; set st := for_upto 0 N.-1 _ _.
have [H1 H4] : dom N.-1 (ls_m st) /\ ls_stop st = false.
  apply: (@upto_inv _ (fun k s => dom k (ls_m s) /\ ls_stop s = false)) => //.
  move=> k t /andP[_ kN'] [I1 I4]; rewrite /lu_pivot_step I4.
  have kN : (k < N)%N by case: N kN' => // n kn; apply: ltnW.
  rewrite find_pivot_dom // eqbE eqxx /= ltNge (le_trans eps_e (dom_diag kN I1)) /=.
  by split=> //; apply: dom_schur.
case=> <- _ _; apply: lt_le_trans e_pos _; apply: dom_diag H1.
by rewrite prednK.
Qed.
End Dominant.
