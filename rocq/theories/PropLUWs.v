(** An lu_pivot_result used again and again: C78. *)
From Coq Require Import List Bool Arith Lia.
From Verif Require Import Base RotModel LUModel LUWsModel.
Import ListNotations.
Open Scope nat_scope.

(** * The order array stays inside the matrix, whatever the element type *)
Section Order.
Context {T : Type} {Op : Ops T} (fabs : T -> T) (eps : T).

Lemma for_upto_inv {S : Type} (P : S -> Prop) lo hi (f : nat -> S -> S) s :
  P s -> (forall i s, lo <= i < hi -> P s -> P (f i s)) -> P (for_upto lo hi f s).
Proof.
  unfold for_upto. intros H0 HS.
  assert (G : forall l, (forall i, In i l -> lo <= i < hi) -> forall s, P s -> P (fold_left (fun s i => f i s) l s)).
  { induction l as [|i l IH]; cbn; intros Hl s' Hs'; [exact Hs'|].
    apply IH; [intros j Hj; apply Hl; now right|apply HS; [apply Hl; now left|exact Hs']]. }
  apply G; [intros i Hi; apply in_seq in Hi; lia|exact H0].
Qed.
Lemma for_upto_ext {S : Type} lo hi (f g : nat -> S -> S) s :
  (forall i s, lo <= i < hi -> f i s = g i s) -> for_upto lo hi f s = for_upto lo hi g s.
Proof.
  unfold for_upto. intros H.
  assert (G : forall l, (forall i, In i l -> lo <= i < hi) -> forall s,
    fold_left (fun s i => f i s) l s = fold_left (fun s i => g i s) l s).
  { induction l as [|i l IH]; cbn; intros Hl s'; [reflexivity|].
    rewrite (H i s') by (apply Hl; now left). apply IH. intros j Hj. apply Hl. now right. }
  apply G. intros i Hi. apply in_seq in Hi. lia.
Qed.
Lemma find_pivot_row N k (M : grid) : k < N -> k <= snd (find_pivot fabs N k M) < N.
Proof.
  intros Hk. unfold find_pivot.
  apply (for_upto_inv (fun s => k <= snd s < N)); [cbn; lia|].
  intros i [mx row] Hi H. cbn in *. destruct (ltb mx (fabs (M i k))); cbn; lia.
Qed.
Lemma order_in_range N (M : grid) : forall i, i < N -> snd (fst (lu_pivot_inplace fabs eps N M)) i < N.
Proof.
  unfold lu_pivot_inplace. cbn [fst snd].
  assert (O : forall i, i < N -> for_upto 0 N (fun i v => put v i i) (fun _ => 0) i < N).
  { apply (for_upto_inv (fun v : nat -> nat => forall i, i < N -> v i < N)); [intros i Hi; lia|].
    intros i v Hi Hv j Hj. unfold put. destruct (Nat.eqb j i); [lia|auto]. }
  apply (for_upto_inv (fun s : @lu_state T => forall i, i < N -> ls_order s i < N)); [exact O|].
  intros k s Hk Hs i Hi. unfold lu_pivot_step. destruct (ls_stop s); [auto|].
  assert (R := find_pivot_row N k (ls_m s) ltac:(lia)).
  destruct (find_pivot fabs N k (ls_m s)) as [mx row]. cbn in R.
  destruct (ltb mx eps); cbn; [auto|]. destruct (Nat.eqb row k); cbn; [auto|].
  unfold put. destruct (Nat.eqb i row); [apply Hs; lia|]. destruct (Nat.eqb i k); [apply Hs; lia|auto].
Qed.
End Order.

(** * C78 *)
(** What a caller is told when lu_solve is called with the result of a fresh lu_pivot *)
Definition told {T : Type} (o : out (list T)) (a : @ws_answer T) : Prop :=
  match o with Ok r => a = Solution r | Throw e => a = Refused e | UB => False end.

Section History.
Context {T : Type} {Op : Ops T} (fabs : T -> T) (eps : T).
Implicit Types (w : @workspace T) (A m : mx T).

(** lu_pivot(ws) in place: refused exactly when lu is not square, outside memory exactly
    when lu has more rows than order has entries, and otherwise what lu_pivot of the
    matrix held in lu returns, with the entries of order past its size left alone *)
Theorem workspace_decompose : forall w,
  (mrows (ws_lu w) <> mcols (ws_lu w) -> ws_decompose fabs eps w = Throw ENonSquareMatrix) /\
  (mrows (ws_lu w) = mcols (ws_lu w) -> length (ws_order w) < mrows (ws_lu w) -> ws_decompose fabs eps w = UB) /\
  (mrows (ws_lu w) = mcols (ws_lu w) -> mrows (ws_lu w) <= length (ws_order w) ->
   exists lup w', lu_pivot fabs eps (ws_lu w) = Ok lup /\ ws_decompose fabs eps w = Ok w' /\
     ws_lu w' = lp_lu lup /\ ws_sign w' = Some (lp_sign lup) /\
     ws_order w' = lp_order lup ++ skipn (mrows (ws_lu w)) (ws_order w)).
Proof.
  intros w. unfold ws_decompose, lu_pivot. split; [|split].
  - intros H. apply Nat.eqb_neq in H. rewrite H. reflexivity.
  - intros H L. apply Nat.eqb_eq in H. apply Nat.ltb_lt in L. now rewrite H, L.
  - intros H L. apply Nat.eqb_eq in H. apply Nat.ltb_ge in L. rewrite H, L. cbn.
    destruct (lu_pivot_inplace fabs eps (mrows (ws_lu w)) (mel (ws_lu w))) as [[A o] s].
    eexists _, _. repeat split.
Qed.

Lemma step_capacity w c w' a : ws_step fabs eps w c = Some (w', a) ->
  length (ws_order w') = length (ws_order w) /\ ws_dyn w' = ws_dyn w /\
  (ws_dyn w = false -> mrows (ws_lu w') = mrows (ws_lu w) /\ mcols (ws_lu w') = mcols (ws_lu w)).
Proof.
  destruct c as [A| |x b]; cbn [ws_step].
  - unfold ws_put. destruct (ws_dyn w) eqn:D; cbn.
    + intros E. injection E as <- <-. cbn. repeat split; congruence.
    + destruct (Nat.eqb (mrows (ws_lu w)) (mrows A)) eqn:E1; cbn;
        [destruct (Nat.eqb (mcols (ws_lu w)) (mcols A)) eqn:E2; cbn|]; intros E; injection E as <- <-; auto.
      apply Nat.eqb_eq in E1. apply Nat.eqb_eq in E2. cbn. auto.
  - destruct (workspace_decompose w) as [H1 [H2 H3]].
    destruct (Nat.eq_dec (mrows (ws_lu w)) (mcols (ws_lu w))) as [Q|Q].
    2:{ rewrite (H1 Q). intros E. injection E as <- <-. auto. }
    destruct (le_lt_dec (mrows (ws_lu w)) (length (ws_order w))) as [L|L].
    2:{ rewrite (H2 Q L). discriminate. }
    unfold ws_decompose. apply Nat.eqb_eq in Q. rewrite Q.
    destruct (Nat.ltb_spec (length (ws_order w)) (mrows (ws_lu w))) as [|_]; [lia|]. cbn.
    destruct (lu_pivot_inplace fabs eps (mrows (ws_lu w)) (mel (ws_lu w))) as [[A o] s].
    intros E. injection E as <- <-. cbn. rewrite app_length, map_length, seq_length, skipn_length. split; [lia|auto].
  - destruct (ws_solve w x b); intros E; [injection E as <- <-; auto|injection E as <- <-; auto|discriminate].
Qed.
Lemma run_capacity cs : forall w w' l, ws_run fabs eps w cs = Some (w', l) ->
  length (ws_order w') = length (ws_order w) /\ ws_dyn w' = ws_dyn w /\
  (ws_dyn w = false -> mrows (ws_lu w') = mrows (ws_lu w) /\ mcols (ws_lu w') = mcols (ws_lu w)).
Proof.
  induction cs as [|c cs IH]; intros w w' l.
  - cbn. intros E. injection E as <- <-. auto.
  - cbn [ws_run]. destruct (ws_step fabs eps w c) as [[w1 a]|] eqn:S; [|discriminate].
    destruct (ws_run fabs eps w1 cs) as [[w2 l2]|] eqn:R; [|discriminate].
    intros E. injection E as <- <-. apply step_capacity in S. apply IH in R.
    destruct S as [S1 [S2 S3]], R as [R1 [R2 R3]]. split; [congruence|split; [congruence|]].
    intros D. rewrite S2 in R3. specialize (S3 D). specialize (R3 D). intuition congruence.
Qed.

(** solving with a freshly decomposed workspace *)
Lemma solve_fresh w A lup : mrows A = mcols A -> lu_pivot fabs eps A = Ok lup ->
  ws_lu w = lp_lu lup -> ws_sign w = Some (lp_sign lup) ->
  (exists tail, ws_order w = lp_order lup ++ tail) ->
  forall x b, ws_solve w x b = lu_pivot_solve_to lup x b.
Proof.
  intros Q E L S [tail O] x b. unfold lu_pivot in E. rewrite Q, Nat.eqb_refl in E. cbv beta iota delta [require bind] in E.
  assert (R := order_in_range fabs eps (mcols A) (mel A)).
  destruct (lu_pivot_inplace fabs eps (mcols A) (mel A)) as [[B o] s]. cbn in R. injection E as <-.
  unfold ws_solve, lu_pivot_solve_to. rewrite L, S, O. cbn [lp_lu lp_order lp_sign mrows mcols mel].
  destruct (Nat.eqb_spec (mcols A) (length x)) as [X|X]; [cbv beta iota delta [require bind]|reflexivity].
  destruct (Nat.eqb_spec (mcols A) (length b)) as [Y|Y]; [cbv beta iota delta [require bind]|reflexivity].
  destruct s; [| |reflexivity].
  all: rewrite <- Y, Nat.ltb_irrefl, app_length, map_length, seq_length; cbn [orb].
  all: destruct (Nat.ltb_spec (mcols A + length tail) (mcols A)) as [|_]; [lia|cbn [orb]].
  all: rewrite firstn_app, map_length, seq_length, Nat.sub_diag, firstn_O, app_nil_r.
  all: rewrite firstn_all2 by (rewrite map_length, seq_length; lia).
  all: assert (F : forallb (fun k => Nat.ltb k (mcols A)) (map o (seq 0 (mcols A))) = true)
    by (apply forallb_forall; intros k Hk; apply in_map_iff in Hk; destruct Hk as [i [<- Hi]];
        apply in_seq in Hi; apply Nat.ltb_lt, R; lia).
  all: rewrite F; cbn [negb]; f_equal; apply map_ext_in; intros i Hi.
  all: f_equal; unfold forward; apply for_upto_ext; intros j y Hj.
  all: rewrite app_nth1 by (rewrite map_length, seq_length; lia); reflexivity.
Qed.

Lemma run_app cs1 : forall cs2 (w w1 : workspace) l1, ws_run fabs eps w cs1 = Some (w1, l1) ->
  ws_run fabs eps w (cs1 ++ cs2) =
  match ws_run fabs eps w1 cs2 with Some (w2, l2) => Some (w2, l1 ++ l2) | None => None end.
Proof.
  induction cs1 as [|c cs1 IH]; intros cs2 w w1 l1.
  - cbn. intros E. injection E as <- <-. destruct (ws_run fabs eps w cs2) as [[]|]; reflexivity.
  - cbn [ws_run app]. destruct (ws_step fabs eps w c) as [[v a]|]; [|discriminate].
    destruct (ws_run fabs eps v cs1) as [[v2 l2]|] eqn:R; [|discriminate].
    intros E. injection E as <- <-. rewrite (IH cs2 v v2 l2 R).
    destruct (ws_run fabs eps v2 cs2) as [[]|]; reflexivity.
Qed.

(** Any history of putting, decomposing and solving that has stayed inside memory may
    be followed by putting a square matrix A and decomposing it.  That is inside memory
    exactly when A has no more rows than the matrix the workspace was made from; then
    every later lu_solve, in any number, answers what it answers with lu_pivot(A). *)
Theorem workspace_reuse : forall dyn m0 cs w l A,
  ws_run fabs eps (ws_make dyn m0) cs = Some (w, l) ->
  mrows A = mcols A -> (dyn = true \/ mrows A = mrows m0 /\ mcols A = mcols m0) ->
  (mrows m0 < mrows A -> ws_run fabs eps w [Put A; Decompose] = None) /\
  (mrows A <= mrows m0 -> exists w' lup,
     lu_pivot fabs eps A = Ok lup /\
     ws_run fabs eps w [Put A; Decompose] = Some (w', [Done; Done]) /\
     forall qs, exists as_,
       ws_run fabs eps w' (map (fun q => Solve (fst q) (snd q)) qs) = Some (w', as_) /\
       Forall2 (fun q a => told (lu_pivot_solve_to lup (fst q) (snd q)) a) qs as_).
Proof.
  intros dyn m0 cs w l A R Q S. apply run_capacity in R. cbn in R. rewrite repeat_length in R.
  destruct R as [C [D F]].
  assert (P : ws_put w A = Ok (WS (ws_dyn w) (Mx (mrows A) (mcols A) (mbasis (ws_lu w)) (mel A)) (ws_order w) (ws_sign w))).
  { unfold ws_put. destruct (ws_dyn w) eqn:E; [reflexivity|].
    destruct S as [S|[S1 S2]]; [congruence|]. destruct (F (eq_sym D)) as [F1 F2].
    rewrite F1, F2, S1, S2, !Nat.eqb_refl. reflexivity. }
  set (v := WS (ws_dyn w) _ (ws_order w) (ws_sign w)) in P.
  destruct (workspace_decompose v) as [_ [H2 H3]]. cbn in H2, H3. split.
  - intros L. cbn [ws_run ws_step]. rewrite P, H2; [reflexivity|exact Q|lia].
  - intros L. destruct H3 as [lup [w' [E [E' [W1 [W2 W3]]]]]]; [exact Q|lia|].
    assert (E2 : exists lup2, lu_pivot fabs eps A = Ok lup2 /\ lp_order lup2 = lp_order lup /\ lp_sign lup2 = lp_sign lup /\
              mrows (lp_lu lup2) = mrows (lp_lu lup) /\ mcols (lp_lu lup2) = mcols (lp_lu lup) /\ mel (lp_lu lup2) = mel (lp_lu lup)).
    { unfold lu_pivot in *. cbn [mrows mcols mel v ws_lu mbasis] in E. rewrite Q, Nat.eqb_refl in *. cbv beta iota delta [require bind] in *.
      destruct (lu_pivot_inplace fabs eps (mcols A) (mel A)) as [[B o] s]. injection E as <-.
      eexists. split; [reflexivity|]. repeat split. }
    destruct E2 as [lup2 [E2 [G1 [G2 [G3 [G4 G5]]]]]]. exists w', lup2. split; [exact E2|split].
    + cbn [ws_run ws_step]. rewrite P, E'. reflexivity.
    + assert (K : forall x b, ws_solve w' x b = lu_pivot_solve_to lup2 x b).
      { intros x b. rewrite (solve_fresh w' (ws_lu v) lup Q E W1 W2 (ex_intro _ _ W3)).
        unfold lu_pivot_solve_to. now rewrite G1, G2, G4, G5. }
      induction qs as [|[x b] qs [as_ [IH1 IH2]]].
      * exists []. split; [reflexivity|constructor].
      * cbn [map ws_run ws_step fst snd]. rewrite K.
        assert (NU : lu_pivot_solve_to lup2 x b <> UB).
        { unfold lu_pivot_solve_to.
          destruct (Nat.eqb (mcols (lp_lu lup2)) (length x)); cbn; [|discriminate].
          destruct (Nat.eqb (mcols (lp_lu lup2)) (length b)); cbn; [|discriminate].
          destruct (lp_sign lup2); discriminate. }
        destruct (lu_pivot_solve_to lup2 x b) as [r|e|] eqn:Z; [| |congruence]; rewrite IH1; eexists;
          (split; [reflexivity|constructor; [cbn; rewrite Z; reflexivity|exact IH2]]).
Qed.

(** Without a decomposition since the workspace was made, solving reads a sign that was
    never set: this needs sizes that fit, nothing else. *)
Theorem workspace_undecomposed : forall dyn m0 cs w l x b,
  ws_run fabs eps (ws_make dyn m0) cs = Some (w, l) -> ~ In Decompose cs ->
  ws_solve w x b = UB <-> mcols (ws_lu w) = length x /\ mcols (ws_lu w) = length b.
Proof.
  intros dyn m0 cs w l x b R N.
  assert (S : ws_sign w = None).
  { assert (G : forall cs v w l, ws_sign v = None -> ~ In Decompose cs -> ws_run fabs eps v cs = Some (w, l) -> ws_sign w = None).
    { clear. induction cs as [|c cs IH]; intros v w l S N.
      - cbn. intros E. injection E as <- <-. exact S.
      - cbn [ws_run]. destruct (ws_step fabs eps v c) as [[v1 a]|] eqn:Z; [|discriminate].
        destruct (ws_run fabs eps v1 cs) as [[v2 l2]|] eqn:Y; [|discriminate].
        intros E. injection E as <- <-. apply (IH v1 v2 l2); [|intros I; apply N; now right|exact Y].
        destruct c as [A| |x b]; cbn [ws_step] in Z.
        + unfold ws_put in Z. destruct (_ || _); cbn in Z; injection Z as <- <-; exact S.
        + exfalso. apply N. now left.
        + destruct (ws_solve v x b); [| |discriminate]; injection Z as <- <-; exact S. }
    exact (G cs (ws_make dyn m0) w l eq_refl N R). }
  unfold ws_solve. rewrite S.
  destruct (Nat.eqb_spec (mcols (ws_lu w)) (length x)); cbn; [|split; [discriminate|tauto]].
  destruct (Nat.eqb_spec (mcols (ws_lu w)) (length b)); cbn; [|split; [discriminate|tauto]].
  tauto.
Qed.
End History.

From mathcomp Require Import all_ssreflect all_fingroup all_algebra.
From Verif Require Import LUSpec PropLU.
Set Implicit Arguments.
Unset Strict Implicit.
Unset Printing Implicit Defensive.
Import Order.TTheory GRing.Theory Num.Theory.
Local Open Scope ring_scope.

(** In an ordered field: a solution handed out after A was put and decomposed solves A,
    for every history before; and with vectors of the right size the answer is a solution
    unless the decomposition flagged A. *)
Theorem workspace_solves : forall (F : realFieldType) (eps : F) dyn (m0 : mx F) cs w l (A : mx F) n qs w' l' (x b r : seq F),
  0 < eps -> square n A -> (dyn = true \/ mrows A = mrows m0 /\ mcols A = mcols m0) -> (n <= mrows m0)%N ->
  @ws_run F (ordered_ops F) (@normf F) eps (ws_make dyn m0) cs = Some (w, l) ->
  @ws_run F (ordered_ops F) (@normf F) eps w
    ([:: Put A; Decompose] ++ [seq Solve q.1 q.2 | q <- qs] ++ [:: Solve x b]) = Some (w', rcons l' (Solution r)) ->
  \det (to_mx n (mel A)) != 0 ->
  size r = n /\ to_mx n (mel A) *m to_col n r = to_col n b.
Proof.
move=> F eps dyn m0 cs w l A n qs w' l' x b r e0 S Sz L R.
have Q : mrows A = mcols A by case: S => -> ->.
have [_ H] := @workspace_reuse F (ordered_ops F) (@normf F) eps dyn m0 cs w l A R Q Sz.
have L' : (mrows A <= mrows m0)%coq_nat by apply/ssrnat.leP; case: S => ->.
have [w1 [lup [E [E1 K]]]] := H L'; have [as_ [K1 K2]] := K (qs ++ [:: (x, b)]).
rewrite (@run_app F (ordered_ops F) (@normf F) eps _ _ _ _ _ E1) -[[:: Solve x b]]/[seq Solve q.1 q.2 | q <- [:: (x, b)]] -map_cat K1.
move=> [_ Ea] D; have {K K1} : told (@lu_pivot_solve_to F (ordered_ops F) lup x b) (Solution r).
  have [bs [a [Eb [P T]]]] : exists bs a, as_ = rcons bs a /\ size bs = size qs /\ told (@lu_pivot_solve_to F (ordered_ops F) lup x b) a.
    clear -K2; elim: qs as_ K2 => [|q qs IH] as_ /= K2; inversion K2 as [|q1 y q2 l3 Hq Hl]; subst.
      by inversion Hl; subst; exists [::], y.
    have [bs [a [-> [P T]]]] := IH _ Hl; by exists (y :: bs), a; split=> //=; rewrite P.
  by move: Ea; rewrite Eb -!rcons_cons => /rcons_inj [_ <-].
rewrite /told; case Z : (@lu_pivot_solve_to F (ordered_ops F) lup x b) => [r'|e|] // [->].
by apply: (lu_pivot_solve_solves (x := x) e0 S E D); left; exact: Z.
Qed.

(** * What is not checked, and concrete cases *)
Notation wrun := (@ws_run rat rops (@normf rF) (1%:Q / 100%:Q)).
Definition two (a b c d : rat) : mx rat := Mx 2 2 row_basis (fun i j =>
  if Nat.eqb i 0 then (if Nat.eqb j 0 then a else b) else (if Nat.eqb j 0 then c else d)).
Definition spd : mx rat := two 4%:Q 2%:Q 2%:Q 3%:Q.
Definition other : mx rat := two 1%:Q 1%:Q 1%:Q 2%:Q.
Definition rhs : seq rat := [:: 8%:Q; 4%:Q].
Definition last_answer (o : option (@workspace rat * seq (@ws_answer rat))) : seq rat :=
  if o is Some (_, l) then (if last Done l is Solution r then r else [::]) else [::].
Definition answered (o : option (@workspace rat * seq (@ws_answer rat))) : seq bool :=
  if o is Some (_, l) then [seq if a is Refused _ then false else true | a <- l] else [::].

Lemma not_solution (A : mx rat) (r b : seq rat) :
  mel A 1%N 0%N * nth 0 r 0 + mel A 1%N 1%N * nth 0 r 1 != nth 0 b 1 ->
  to_mx 2 (mel A) *m to_col 2 r <> to_col 2 b.
Proof.
move=> N /matrixP /(_ 1 0); rewrite !mxE !big_ord_recl big_ord0 !mxE /= addr0 => E.
by move/eqP: N; apply; exact: E.
Qed.

Definition wrong (A : mx rat) (b : seq rat) (o : option (@workspace rat * seq (@ws_answer rat))) : bool :=
  if o is Some (_, [:: Done; Done; Solution r])
  then mel A 1%N 0%N * nth 0 r 0 + mel A 1%N 1%N * nth 0 r 1 != nth 0 b 1 else false.
Lemma wrong_ex A b o : wrong A b o -> exists w l r, o = Some (w, rcons l (Solution r)) /\
  to_mx 2 (mel A) *m to_col 2 r <> to_col 2 b.
Proof.
case: o => [[w [//|[|e|r0] [//|[|e'|r1] [//|[|e2|r] [|//]]]]]|//] // N.
by exists w, [:: Done; Done], r; split=> //; exact: not_solution.
Qed.

(** decomposing again decomposes the factors: the answer solves another system *)
Theorem workspace_twice_refuted : exists w l r,
  wrun (ws_make false spd) [:: Decompose; Decompose; Solve rhs rhs] = Some (w, rcons l (Solution r)) /\
  to_mx 2 (mel spd) *m to_col 2 r <> to_col 2 rhs.
Proof. by apply: wrong_ex; vm_compute. Qed.
(** a matrix put and not decomposed is used as if it held factors, without an error *)
Theorem workspace_stale_refuted : exists w l r,
  wrun (ws_make true spd) [:: Decompose; Put other; Solve rhs rhs] = Some (w, rcons l (Solution r)) /\
  to_mx 2 (mel other) *m to_col 2 r <> to_col 2 rhs.
Proof. by apply: wrong_ex; vm_compute. Qed.
(** a larger matrix is accepted by the assignment, and decomposing it writes outside order *)
Definition grown (o : option (@workspace rat * seq (@ws_answer rat))) : bool :=
  if o is Some (w, [:: Done; Solution r]) then ws_dyn w else false.
Lemma grown_ex o : grown o -> exists w r, o = Some (w, [:: Done; Solution r]) /\ ws_dyn w = true.
Proof. by case: o => [[w [//|[|e|r0] [//|[|e'|r] [|//]]]]|//] // D; exists w, r. Qed.
Theorem workspace_grow_refuted : forall A : mx rat, mrows A = 3%N -> mcols A = 3%N ->
  exists w r w', wrun (ws_make true spd) [:: Decompose; Solve rhs rhs] = Some (w, [:: Done; Solution r]) /\
  wrun w [:: Put A] = Some (w', [:: Done]) /\ wrun w [:: Put A; Decompose] = None.
Proof.
move=> A R C.
have G : grown (wrun (ws_make true spd) [:: Decompose; Solve rhs rhs]) by vm_compute.
have [w [r [Z D]]] := grown_ex G; clear G.
have [H _] := @workspace_reuse rat rops (@normf rF) (1%:Q / 100%:Q) true spd
  [:: Decompose; Solve rhs rhs] _ _ A Z (etrans R (esym C)) (or_introl erefl).
exists w, r; eexists; split; first by exact: Z.
clear Z; split; first by rewrite /= /ws_put D.
by apply: H; rewrite R; apply/ssrnat.leP.
Qed.

(** a workspace made from one matrix, refused once, used with two others *)
Definition story : seq (@ws_call rat) :=
  [:: Decompose; Solve rhs rhs; Put (Mx 1 2 row_basis (fun _ _ => 1)); Decompose; Put other].
Example workspace_case :
  answered (wrun (ws_make true spd) (story ++ [:: Put exchange; Decompose; Solve rhs rhs; Solve rhs [:: 2%:Q; 6%:Q]]))
    = [:: true; true; true; false; true; true; true; true; true] /\
  last_answer (wrun (ws_make true spd) (story ++ [:: Put exchange; Decompose; Solve rhs rhs; Solve rhs [:: 2%:Q; 6%:Q]]))
    == [:: 3%:Q; 1%:Q] /\
  \det (to_mx 2 (mel exchange)) != 0.
Proof.
split; [by vm_compute|split; [by vm_compute|]].
by have [lup [_ [_ [_ [D _]]]]] := exchange_case.
Qed.

Print Assumptions workspace_decompose.
Print Assumptions workspace_reuse.
Print Assumptions workspace_undecomposed.
Print Assumptions workspace_solves.
Print Assumptions workspace_twice_refuted.
Print Assumptions workspace_stale_refuted.
Print Assumptions workspace_grow_refuted.
Print Assumptions workspace_case.
