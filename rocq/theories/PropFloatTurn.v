(** C90: rotate_vector and projections of vectors in IEEE arithmetic. *)
From Coq Require Import ZArith Bool List Arith Lia Reals Lra.
From Flocq Require Import Core BinarySingleNaN.
From Verif Require Import Base RInst MiscModel MatModel MatSpec MatOps RotModel RotFacts QuatModel VecModel LUModel XfModel MiscSpec FloatModel FloatFacts FloatNorm FloatDot PropFloat PropFloatLU FloatExpr PropFloatForm PropFloatNorm FloatRot PropFloatRot FrameFacts PropFloatFrame PropFloatRigid.
Import ListNotations.
Open Scope R_scope.

(** ** Specification.  [turn c s n], the rotation about [n] by the angle with cosine [c] and sine [s], [unit_within]: PropFloatRot.v;
    [image x A], the row vector [x] times [A]: PropFloatRigid.v; [norm]: FloatRot.v *)

Section IEEE.
Context (prec emax : Z) {Hprec : Prec_gt_0 prec} {Hmax : Prec_lt_emax prec emax}.
Notation F := (binary_float prec emax).
Notation u := (u_round prec).
Notation eta := (eta_min prec emax).
Notation val := (@B2R prec emax).
Notation vals := (vals prec emax).
Notation fin x := (is_finite x = true).
Context (U256 : u <= / 256).

(** *** Formulas on larger arguments *)
Lemma high_mono (r r' : nat -> R) e : (forall k, Rabs (r k) <= Rabs (r' k)) -> high prec emax r e <= high prec emax r' e.
Proof.
  intros H. pose proof (u_pos prec) as U. induction e; cbn [high]; try lra; auto.
  1,2: apply Rmult_le_compat_l; lra.
  apply Rplus_le_compat_r, Rmult_le_compat_l; [lra|]. apply Rmult_le_compat; auto; apply high_pos.
Qed.
Lemma small_mono (r r' : nat -> R) e : (forall k, Rabs (r k) <= Rabs (r' k)) -> small prec emax r' e -> small prec emax r e.
Proof.
  intros H. induction e; cbn [small]; auto; intros (A & B & C); repeat split; auto; eapply Rle_lt_trans; [apply (high_mono r r' _ H)| |apply (high_mono r r' _ H)| |apply (high_mono r r' _ H)|]; exact C.
Qed.
Lemma eighth_power : 1 <= (1 + u) ^ 8 <= 1 + 817 / 100 * u.
Proof.
  destruct (eight_bits prec emax U256) as (U & _ & _ & _ & [P1 P4]). split; [apply one_le_pow; lra|]. replace ((1 + u) ^ 8) with ((1 + u) ^ 4 * (1 + u) ^ 4) by ring.
  apply Rle_trans with ((1 + 81 / 20 * u) * (1 + 81 / 20 * u)); [apply Rmult_le_compat; lra|]. assert (u * u <= / 256 * u) by (apply Rmult_le_compat_r; lra). lra.
Qed.

(** *** rotate_vector *)
Definition turn_env (v n : list F) (c s : F) (k : nat) : F := match k with 0%nat => el v 0 | 1%nat => el v 1 | 2%nat => el v 2 | 3%nat => el n 0 | 4%nat => el n 1 | 5%nat => el n 2 | 6%nat => c | 7%nat => s | _ => zero end.
Definition turn_formula (i : nat) : formula :=
  let d := FAdd (FAdd (FMul (FVar 0) (FVar 3)) (FMul (FVar 1) (FVar 4))) (FMul (FVar 2) (FVar 5)) in
  let par := FMul (FVar (3 + i)) d in
  let cr := match i with
            | 0%nat => FSub (FMul (FVar 4) (FVar 2)) (FMul (FVar 5) (FVar 1))
            | 1%nat => FSub (FMul (FVar 5) (FVar 0)) (FMul (FVar 3) (FVar 2))
            | _ => FSub (FMul (FVar 3) (FVar 1)) (FMul (FVar 4) (FVar 0)) end in
  FAdd (FAdd (FMul (FSub (FVar i) par) (FVar 6)) (FMul cr (FVar 7))) par.
Lemma turn_eval (MO : MathOps F) v n a r : rotate_vector v n a = Ok r -> length r = 3%nat /\ forall i, (i < 3)%nat -> el r i = feval (turn_env v n (mcos a) (msin a)) (turn_formula i).
Proof.
  intros E. unfold rotate_vector in E. apply check_ok, check_ok, ok_inj in E. subst r. split; [reflexivity|]. intros i Hi. destruct i as [|[|[|i]]]; [..|lia]; reflexivity.
Qed.
Theorem rotate_vector_accuracy : forall (MO : MathOps F) v n a r e d, rotate_vector v n a = Ok r ->
  let c := mcos a : F in let s := msin a : F in fin c -> fin s -> (forall k, (k < 3)%nat -> fin (el v k) /\ fin (el n k)) ->
  Rabs (val c * val c + val s * val s - 1) <= e -> e <= / 64 -> unit_within 3 d (vals n) -> d <= / 64 -> 11 * norm 3 (vals v) + 1 < bpow radix2 emax ->
  length r = 3%nat /\ forall i, (i < 3)%nat -> fin (el r i) /\ Rabs (vals r i - image (vals v) (turn (val c) (val s) (vals n)) i) <= 34 * u * norm 3 (vals v) + 15 * eta.
Proof.
  intros MO v n a r e d E c s Fc Fs Fv He E64 Hd D64 Fit. destruct (eight_bits prec emax U256) as (U & [Et Eu] & B9 & _). destruct eighth_power as [P1 P8].
  destruct (turn_eval MO v n a r E) as [Lr Ev]. fold c s in Ev. split; [auto|].
  set (L := norm 3 (vals v)) in *. set (x := vals v) in *. set (y := vals n) in *. assert (L0 : 0 <= L) by apply norm_pos.
  assert (N1 : norm 3 y <= 101 / 100). { apply sq_le; [lra|]. rewrite norm_sq. unfold unit_within in Hd. apply Rabs_le_inv in Hd. lra. } pose proof (norm_pos 3 y) as N0.
  pose proof (sq_pos (val c)). pose proof (sq_pos (val s)). apply Rabs_le_inv in He.
  assert (AB : forall t, t * t <= 1 + / 64 -> Rabs t <= 101 / 100) by (intros t Ht; apply sq_le; [lra|]; rewrite <- Rabs_mult, Rabs_pos_eq by apply sq_pos; lra).
  assert (C1 : Rabs (val c) <= 101 / 100) by (apply AB; lra). assert (S1 : Rabs (val s) <= 101 / 100) by (apply AB; lra).
  assert (X1 : forall k, (k < 3)%nat -> Rabs (x k) <= L) by (intros; apply norm_term; auto). assert (Y1 : forall k, (k < 3)%nat -> Rabs (y k) <= 101 / 100) by (intros; eapply Rle_trans; [apply norm_term; eauto|auto]).
  set (rho := turn_env v n c s). set (rr := fun k => val (rho k)).
  assert (R0 : rr 0%nat = x 0%nat /\ rr 1%nat = x 1%nat /\ rr 2%nat = x 2%nat /\ rr 3%nat = y 0%nat /\ rr 4%nat = y 1%nat /\ rr 5%nat = y 2%nat /\ rr 6%nat = val c /\ rr 7%nat = val s) by (repeat split).
  destruct R0 as (R0 & R1 & R2 & R3 & R4 & R5 & R6 & R7).
  assert (Pl : forall i, plain (turn_formula i)) by (intros [|[|i]]; cbn; tauto).
  assert (Fin : forall i, (i < 3)%nat -> fin (el r i)).
  { intros i Hi. rewrite Ev by auto. apply formula_fits; [apply Pl| |].
    - intros k. fold rho. unfold rho. destruct k as [|[|[|[|[|[|[|[|k]]]]]]]]; cbn [turn_env]; auto; apply Fv; lia.
    - set (r' := fun k => if (k <? 3)%nat then L else 101 / 100). apply (small_mono _ r').
      + intros k. change (val (turn_env v n c s k)) with (rr k). unfold r'. destruct k as [|[|[|[|[|[|[|[|k]]]]]]]]; cbn [Nat.ltb Nat.leb]; rewrite ?R0, ?R1, ?R2, ?R3, ?R4, ?R5, ?R6, ?R7, ?(Rabs_pos_eq L), ?(Rabs_pos_eq (101 / 100)) by lra; auto.
        unfold rr, rho. cbn [turn_env]. cbn. rewrite Rabs_R0. lra.
      + assert (RL : Rabs L = L) by (apply Rabs_pos_eq; auto). assert (R1' : Rabs (101 / 100) = 101 / 100) by (apply Rabs_pos_eq; lra).
        assert (Hb : forall f, plain f -> (steps f <= 8)%nat -> size r' f <= 10 * L -> tiny eta r' f <= 16 -> high prec emax r' f < bpow radix2 emax).
        { intros f Pf Sf Zf Tf. eapply Rle_lt_trans; [apply high_bound; auto|]. pose proof (size_pos r' f). pose proof (tiny_pos prec emax r' f).
          assert (EP : (1 + u) ^ steps f <= (1 + u) ^ 8) by (apply pow_up; auto; lra). assert (ET : 0 <= eta * tiny eta r' f <= eta * 16) by (split; [apply Rmult_le_pos; lra|apply Rmult_le_compat_l; lra]).
          assert ((1 + u) ^ steps f * (size r' f + eta * tiny eta r' f) <= 104 / 100 * (10 * L + eta * 16)) by (apply Rmult_le_compat; try lra; apply Rle_trans with 1; [lra|apply one_le_pow; lra]). lra. }
        destruct i as [|[|[|i]]]; [..|lia]; cbn [turn_formula small plus]; repeat split; (apply Hb; [cbn; tauto|cbn; lia| |]); cbn [size tiny]; unfold r'; cbn [Nat.ltb Nat.leb]; rewrite ?RL, ?R1'; lra. }
  intros i Hi. split; [auto|]. pose proof (Fin i Hi) as Fi. rewrite Ev in Fi by auto. pose proof (formula_near prec emax _ _ (Pl i) Fi) as N. cbv zeta in N. fold rho in N. fold rr in N. rewrite <- Ev in N by auto.
  assert (Ex : feval (T:=R) rr (turn_formula i) = image x (turn (val c) (val s) y) i).
  { clear N Fi. destruct i as [|[|[|i]]]; [..|lia]; cbn [turn_formula feval plus add sub mul ROps]; rewrite ?R0, ?R1, ?R2, ?R3, ?R4, ?R5, ?R6, ?R7; unfold image, turn; cbn [rsum Nat.eqb]; ring. }
  rewrite Ex in N. change (val (el r i)) with (vals r i) in N. unfold near in N. eapply Rle_trans; [exact N|].
  (* the sum of the absolute values *)
  assert (Dd : 0 <= Rabs (x 0%nat) * Rabs (y 0%nat) + Rabs (x 1%nat) * Rabs (y 1%nat) + Rabs (x 2%nat) * Rabs (y 2%nat) <= 101 / 100 * L).
  { split; [repeat apply Rplus_le_le_0_compat; apply Rmult_le_pos; apply Rabs_pos|]. pose proof (cauchy 3 (fun k => Rabs (x k)) (fun k => Rabs (y k))) as Cy. rewrite !norm_abs in Cy. cbn [rsum] in Cy. rewrite Rplus_0_l in Cy. eapply Rle_trans; [apply Rle_abs|]. eapply Rle_trans; [exact Cy|]. rewrite Rmult_comm. apply Rmult_le_compat_r; auto. }
  set (D := Rabs (x 0%nat) * Rabs (y 0%nat) + Rabs (x 1%nat) * Rabs (y 1%nat) + Rabs (x 2%nat) * Rabs (y 2%nat)) in *.
  assert (Cd : forall j k, (j < 3)%nat -> (k < 3)%nat -> j <> k -> 0 <= Rabs (y j) * Rabs (x k) + Rabs (y k) * Rabs (x j) <= 101 / 100 * L).
  { intros j k Hj Hk Njk. split; [apply Rplus_le_le_0_compat; apply Rmult_le_pos; apply Rabs_pos|].
    pose proof (cauchy 3 (fun t => if Nat.eqb t j then Rabs (y j) else if Nat.eqb t k then Rabs (y k) else 0) (fun t => if Nat.eqb t j then Rabs (x k) else if Nat.eqb t k then Rabs (x j) else 0)) as Cy.
    assert (Q1 : norm 3 (fun t => if Nat.eqb t j then Rabs (y j) else if Nat.eqb t k then Rabs (y k) else 0) <= norm 3 y).
    { rewrite <- (norm_abs 3 y). apply norm_le. intros t Ht. destruct (Nat.eqb_spec t j); [subst; rewrite Rabs_Rabsolu; lra|]. destruct (Nat.eqb_spec t k); [subst; rewrite Rabs_Rabsolu; lra|]. rewrite Rabs_R0. apply Rabs_pos. }
    assert (Q2 : norm 3 (fun t => if Nat.eqb t j then Rabs (x k) else if Nat.eqb t k then Rabs (x j) else 0) <= L).
    { apply sq_le; [auto|]. unfold L. rewrite !norm_sq. assert (Sx : forall z, Rabs z * Rabs z = z * z) by (intros z; rewrite <- Rabs_mult; apply Rabs_pos_eq, sq_pos). pose proof (sq_pos (x 0%nat)). pose proof (sq_pos (x 1%nat)). pose proof (sq_pos (x 2%nat)).
      destruct j as [|[|[|j]]]; [..|lia]; (destruct k as [|[|[|k]]]; [..|lia]); try congruence; cbn [rsum Nat.eqb]; rewrite !Sx; lra. }
    apply Rle_trans with (Rabs (rsum 3 (fun t => (if Nat.eqb t j then Rabs (y j) else if Nat.eqb t k then Rabs (y k) else 0) * (if Nat.eqb t j then Rabs (x k) else if Nat.eqb t k then Rabs (x j) else 0)))).
    - eapply Rle_trans; [|apply Rle_abs]. destruct j as [|[|[|j]]]; [..|lia]; (destruct k as [|[|[|k]]]; [..|lia]); try congruence; cbn [rsum Nat.eqb]; lra.
    - eapply Rle_trans; [exact Cy|]. apply Rle_trans with (norm 3 y * L); [apply Rmult_le_compat; auto using norm_pos|apply Rmult_le_compat_r; auto]. }
  assert (Sz : 0 <= size rr (turn_formula i) <= 413 / 100 * L).
  { split; [apply size_pos|].
    assert (G : forall xi yi cr, 0 <= xi <= L -> 0 <= yi <= 101 / 100 -> 0 <= cr <= 101 / 100 * L -> (xi + yi * D) * Rabs (val c) + cr * Rabs (val s) + yi * D <= 413 / 100 * L).
    { intros xi yi cr Hx Hy Hc. assert (YD : 0 <= yi * D <= 101 / 100 * (101 / 100 * L)) by (split; [apply Rmult_le_pos; tauto|apply Rmult_le_compat; tauto]).
      assert ((xi + yi * D) * Rabs (val c) <= (L + 101 / 100 * (101 / 100 * L)) * (101 / 100)) by (apply Rmult_le_compat; try lra; apply Rabs_pos). assert (cr * Rabs (val s) <= 101 / 100 * L * (101 / 100)) by (apply Rmult_le_compat; try lra; apply Rabs_pos). lra. }
    pose proof (Cd 1%nat 2%nat ltac:(lia) ltac:(lia) ltac:(lia)) as C12. pose proof (Cd 2%nat 0%nat ltac:(lia) ltac:(lia) ltac:(lia)) as C20. pose proof (Cd 0%nat 1%nat ltac:(lia) ltac:(lia) ltac:(lia)) as C01.
    destruct i as [|[|[|i]]]; [..|lia]; cbn [turn_formula size plus]; rewrite ?R0, ?R1, ?R2, ?R3, ?R4, ?R5, ?R6, ?R7; fold D; apply G; auto; split; auto using Rabs_pos. }
  assert (Tz : 0 <= tiny eta rr (turn_formula i) <= 27 / 2).
  { split; [apply tiny_pos|].
    assert (G : forall yi, 0 <= yi <= 101 / 100 -> (3 * yi + 1) * Rabs (val c) + 2 * Rabs (val s) + 2 + (3 * yi + 1) <= 27 / 2).
    { intros yi Hy. assert ((3 * yi + 1) * Rabs (val c) <= (3 * (101 / 100) + 1) * (101 / 100)) by (apply Rmult_le_compat; try lra; apply Rabs_pos). lra. }
    destruct i as [|[|[|i]]]; [..|lia]; cbn [turn_formula tiny size plus]; rewrite ?R0, ?R1, ?R2, ?R3, ?R4, ?R5, ?R6, ?R7;
    match goal with |- _ <= _ => idtac end;
    [pose proof (G (Rabs (y 0%nat)) ltac:(split; [apply Rabs_pos|apply Y1; lia]))|pose proof (G (Rabs (y 1%nat)) ltac:(split; [apply Rabs_pos|apply Y1; lia]))|pose proof (G (Rabs (y 2%nat)) ltac:(split; [apply Rabs_pos|apply Y1; lia]))]; lra. }
  assert (St : steps (turn_formula i) = 8%nat) by (destruct i as [|[|[|i]]]; [..|lia]; reflexivity). rewrite St.
  assert (((1 + u) ^ 8 - 1) * size rr (turn_formula i) <= 817 / 100 * u * (413 / 100 * L)) by (apply Rmult_le_compat; lra).
  assert ((1 + u) ^ 8 * tiny eta rr (turn_formula i) * eta <= 104 / 100 * (27 / 2) * eta) by (apply Rmult_le_compat_r; [lra|]; apply Rmult_le_compat; lra).
  assert (0 <= u * L) by (apply Rmult_le_pos; lra). lra.
Qed.
Theorem rotate_vector_length : forall (MO : MathOps F) v n a r e d, rotate_vector v n a = Ok r ->
  let c := mcos a : F in let s := msin a : F in fin c -> fin s -> (forall k, (k < 3)%nat -> fin (el v k) /\ fin (el n k)) ->
  Rabs (val c * val c + val s * val s - 1) <= e -> e <= / 64 -> unit_within 3 d (vals n) -> d <= / 64 -> 11 * norm 3 (vals v) + 1 < bpow radix2 emax ->
  Rabs (norm 3 (vals r) - norm 3 (vals v)) <= (9 * e + 18 * d + 60 * u) * norm 3 (vals v) + 27 * eta.
Proof.
  intros MO v n a r e d E c s Fc Fs Fv He E64 Hd D64 Fit. destruct (eight_bits prec emax U256) as (U & [Et Eu] & _).
  destruct (rotate_vector_accuracy MO v n a r e d E Fc Fs Fv He E64 Hd D64 Fit) as [_ A]. fold c s in A. set (X := image (vals v) (turn (val c) (val s) (vals n))) in *. set (L := norm 3 (vals v)) in *. pose proof (norm_pos 3 (vals v)) as L0. fold L in L0.
  assert (E0 : 0 <= e) by (eapply Rle_trans; [apply Rabs_pos|exact He]). assert (D0 : 0 <= d) by (eapply Rle_trans; [apply Rabs_pos|exact Hd]).
  pose proof (turn_near_orthogonal (val c) (val s) (vals n) e d He Hd ltac:(lra) ltac:(lra)) as NO. pose proof (almost_isometry 3 _ _ (vals v) NO ltac:(lra)) as Iso. replace (INR 3) with 3 in Iso by (cbn; lra). change (Rabs (norm 3 X - L) <= 3 * (3 * e + 6 * d) * L) in Iso.
  assert (UL : 0 <= u * L) by (apply Rmult_le_pos; lra).
  assert (Ds : norm 3 (fun k => vals r k - X k) <= 60 * u * L + 27 * eta).
  { apply Rle_trans with (norm 3 (fun _ => 34 * u * L + 15 * eta)); [apply norm_le; intros i Hi; apply A; auto|]. rewrite norm_const by lra. destruct sqrt3 as [S0 S3]. assert (sqrt (INR 3) * (34 * u * L + 15 * eta) <= 1733 / 1000 * (34 * u * L + 15 * eta)) by (apply Rmult_le_compat_r; lra). lra. }
  pose proof (norm_dist 3 (vals r) X) as ND. replace (norm 3 (vals r) - L) with ((norm 3 (vals r) - norm 3 X) + (norm 3 X - L)) by ring. eapply Rle_trans; [apply Rabs_triang|]. lra.
Qed.

(** *** project_to_hplane, for vectors of any size *)
Definition inner (n : nat) (a b : nat -> R) : R := rsum n (fun k => a k * b k).
Theorem project_to_hplane_accuracy : forall v n w d, vproject_to_hplane v n = Ok w -> let k := length v in INR k * u <= / 64 ->
  (forall i, (i < k)%nat -> fin (el w i)) -> unit_within k d (vals n) -> d <= / 64 -> let ku := INR k * u in let V := norm k (vals v) in
  length w = k /\ norm k (fun i => vals w i - (vals v i - inner k (vals v) (vals n) * vals n i)) <= (3 * ku + 4 * u) * V + 4 * INR k * eta /\
  Rabs (inner k (vals w) (vals n)) <= (2 * d + 4 * ku + 5 * u) * V + 5 * INR k * eta.
Proof.
  intros v n w d E k Ku Fw Hd D64 ku V. destruct (eight_bits prec emax U256) as (U & [Et Eu] & _). unfold vproject_to_hplane in E. apply bind_ok in E. destruct E as (dt & Ed & E).
  unfold vsub in E. apply check_ok, ok_inj in E. fold k in E.
  assert (K1 : (1 <= k)%nat). { unfold vdot, check_vmin, require in Ed. destruct (Nat.leb_spec 1 (length v)); [auto|discriminate]. }
  assert (Lw : length w = k) by (subst w; apply map_length || (unfold elems; rewrite map_length, seq_length; reflexivity)).
  assert (Ln : length n = k). { unfold vdot, check_vmin, check_vsame, require in Ed. destruct (Nat.leb 1 (length v)); [|discriminate]. destruct (Nat.leb 1 (length n)); [|discriminate]. destruct (Nat.eqb_spec (length v) (length n)); [auto|discriminate]. }
  assert (Ew : forall i, (i < k)%nat -> el w i = sub (el v i) (mul (el n i) dt)).
  { intros i Hi. rewrite <- E. unfold elems, el at 1. rewrite (nth_indep _ zero (sub (el v 0) (el (vscale dt n) 0))) by (rewrite map_length, seq_length; auto). rewrite map_nth with (f := fun i => sub (el v i) (el (vscale dt n) i)). rewrite seq_nth by auto. cbn [plus]. f_equal.
    unfold vscale, elems, el at 1. rewrite Ln. rewrite (nth_indep _ zero (mul (el n 0) dt)) by (rewrite map_length, seq_length; auto). rewrite map_nth with (f := fun i => mul (el n i) dt). rewrite seq_nth by auto. reflexivity. }
  split; [auto|].
  assert (Fd : fin dt). { pose proof (Fw 0%nat ltac:(lia)) as F0. rewrite Ew in F0 by lia. apply (sub_err prec emax) in F0. destruct F0 as (_ & F0 & _). apply (mul_err prec emax) in F0. tauto. }
  destruct (dot_accuracy prec emax v n dt Ed Fd) as [_ Acc]. unfold accurate in Acc. fold k in Acc.
  set (x := vals v) in *. set (y := vals n) in *. set (D := inner k x y). change (rsum k (fun k0 => x k0 * y k0)) with D in Acc. set (N := norm k y). pose proof (norm_pos k y) as N0. fold N in N0. pose proof (norm_pos k x) as V0. fold V in V0.
  assert (NN : Rabs (N * N - 1) <= d) by (unfold N; rewrite norm_sq; exact Hd).
  assert (N1 : N <= 101 / 100). { apply sq_le; [lra|]. apply Rabs_le_inv in NN. lra. }
  assert (Ik : 1 <= INR k) by (change 1 with (INR 1); apply le_INR; auto). assert (KU : 0 <= ku <= / 64) by (split; [apply Rmult_le_pos; lra|exact Ku]).
  assert (VN : V * N <= 101 / 100 * V) by (rewrite Rmult_comm; apply Rmult_le_compat_r; auto).
  assert (D1 : Rabs D <= 101 / 100 * V) by (eapply Rle_trans; [apply cauchy|exact VN]).
  assert (S1 : 0 <= rsum k (fun k0 => Rabs (x k0 * y k0)) <= 101 / 100 * V).
  { split; [apply rsum_nonneg; intros; apply Rabs_pos|]. pose proof (cauchy k (fun t => Rabs (x t)) (fun t => Rabs (y t))) as Cy. rewrite !norm_abs in Cy. fold V N in Cy. rewrite (rsum_ext k _ (fun t => Rabs (x t) * Rabs (y t))) by (intros; apply Rabs_mult). eapply Rle_trans; [apply Rle_abs|]. eapply Rle_trans; [exact Cy|exact VN]. }
  destruct (growth u k ltac:(lra) ltac:(lra)) as [G1 G2]. assert (G0 : 1 <= (1 + u) ^ k) by (apply one_le_pow; lra).
  set (eps := 2 * ku * (101 / 100 * V) + 2 * (INR k * eta)). assert (KV : 0 <= ku * V) by (apply Rmult_le_pos; lra). assert (KE : 0 <= INR k * eta) by (apply Rmult_le_pos; lra). assert (UV : 0 <= u * V) by (apply Rmult_le_pos; lra).
  assert (Eps : Rabs (val dt - D) <= eps).
  { eapply Rle_trans; [exact Acc|]. assert (((1 + u) ^ k - 1) * rsum k (fun k0 => Rabs (x k0 * y k0)) <= 2 * ku * (101 / 100 * V)) by (apply Rmult_le_compat; try tauto; unfold ku; lra).
    assert (INR k * (1 + u) ^ k * eta <= 2 * (INR k * eta)). { replace (INR k * (1 + u) ^ k * eta) with ((1 + u) ^ k * (INR k * eta)) by ring. apply Rmult_le_compat_r; auto. } unfold eps. lra. }
  assert (EP0 : 0 <= eps) by (unfold eps; lra).
  set (A := (1 + u) * eps + u * (101 / 100 * V)). assert (UE : 0 <= u * eps <= / 256 * eps) by (split; [apply Rmult_le_pos; lra|apply Rmult_le_compat_r; lra]). assert (A0 : 0 <= A) by (unfold A; lra). assert (UA : 0 <= u * A <= / 256 * A) by (split; [apply Rmult_le_pos; lra|apply Rmult_le_compat_r; lra]). assert (UEt : 0 <= u * eta <= / 256 * eta) by (split; [apply Rmult_le_pos; lra|apply Rmult_le_compat_r; lra]).
  assert (One : forall i, (i < k)%nat -> Rabs (vals w i - (x i - D * y i)) <= (u * Rabs (x i) + (u * (101 / 100 * V) + (1 + u) * A) * Rabs (y i)) + (1 + u) * eta).
  { intros i Hi. unfold PropFloat.vals. change (nth i w zero) with (el w i). pose proof (Fw i Hi) as Fi. rewrite Ew in * by auto.
    destruct (sub_err prec emax _ _ Fi) as (_ & Fm & d2 & Hd2 & V2). destruct (mul_err prec emax _ _ Fm) as (_ & _ & d1 & e1 & Hd1 & He1 & V1). rewrite V2, V1.
    change (val (el v i)) with (x i). change (val (el n i)) with (y i). set (p := y i * val dt * (1 + d1) + e1).
    assert (Hp : Rabs (p - D * y i) <= A * Rabs (y i) + eta).
    { unfold p. replace (y i * val dt * (1 + d1) + e1 - D * y i) with ((((val dt - D) * (1 + d1)) + D * d1) * y i + e1) by ring. eapply Rle_trans; [apply Rabs_triang|]. apply Rplus_le_compat; [|auto]. rewrite Rabs_mult. apply Rmult_le_compat_r; [apply Rabs_pos|].
      eapply Rle_trans; [apply Rabs_triang|]. rewrite !Rabs_mult. assert (Rabs (1 + d1) <= 1 + u) by (eapply Rle_trans; [apply Rabs_triang|]; rewrite Rabs_R1; lra).
      assert (Rabs (val dt - D) * Rabs (1 + d1) <= eps * (1 + u)) by (apply Rmult_le_compat; auto using Rabs_pos). assert (Rabs D * Rabs d1 <= 101 / 100 * V * u) by (apply Rmult_le_compat; auto using Rabs_pos). unfold A. lra. }
    replace ((x i - p) * (1 + d2) - (x i - D * y i)) with ((x i - D * y i - (p - D * y i)) * d2 + - (p - D * y i)) by ring. eapply Rle_trans; [apply Rabs_triang|]. rewrite Rabs_Ropp, Rabs_mult.
    assert (Q : Rabs (x i - D * y i - (p - D * y i)) <= Rabs (x i) + 101 / 100 * V * Rabs (y i) + (A * Rabs (y i) + eta)).
    { unfold Rminus at 1. eapply Rle_trans; [apply Rabs_triang|]. rewrite Rabs_Ropp. apply Rplus_le_compat; [|auto]. unfold Rminus. eapply Rle_trans; [apply Rabs_triang|]. rewrite Rabs_Ropp, Rabs_mult. apply Rplus_le_compat_l, Rmult_le_compat_r; auto using Rabs_pos. }
    assert (Rabs (x i - D * y i - (p - D * y i)) * Rabs d2 <= (Rabs (x i) + 101 / 100 * V * Rabs (y i) + (A * Rabs (y i) + eta)) * u) by (apply Rmult_le_compat; auto using Rabs_pos). lra. }
  set (diff := fun i => vals w i - (x i - D * y i)).
  assert (Nd : norm k diff <= (3 * ku + 4 * u) * V + 4 * INR k * eta).
  { apply Rle_trans with (norm k (fun i => (u * Rabs (x i) + (u * (101 / 100 * V) + (1 + u) * A) * Rabs (y i)) + (1 + u) * eta)); [apply norm_le; exact One|].
    eapply Rle_trans; [apply norm_triangle|]. eapply Rle_trans; [apply Rplus_le_compat_r, norm_triangle|]. rewrite !norm_scal, !norm_abs. fold V N. rewrite norm_const by lra. rewrite !Rabs_pos_eq by lra.
    assert (SK : sqrt (INR k) <= INR k). { apply sq_le; [lra|]. rewrite sqrt_sqrt by lra. rewrite <- (Rmult_1_l (INR k)) at 1. apply Rmult_le_compat_r; lra. }
    assert (sqrt (INR k) * eta <= INR k * eta) by (apply Rmult_le_compat_r; lra). assert ((u * (101 / 100 * V) + (1 + u) * A) * N <= (u * (101 / 100 * V) + (1 + u) * A) * (101 / 100)) by (apply Rmult_le_compat_l; lra).
    assert ((1 + u) * (sqrt (INR k) * eta) <= 257 / 256 * (INR k * eta)) by (apply Rmult_le_compat; try lra; apply Rmult_le_pos; [apply sqrt_pos|lra]).
    assert (A <= 257 / 256 * eps + u * (101 / 100 * V)) by (unfold A; lra). unfold eps in *. lra. }
  split; [exact Nd|].
  assert (Sp : inner k (vals w) y = inner k diff y + D * (1 - N * N)).
  { unfold inner, diff. rewrite (rsum_ext k (fun k0 => (vals w k0 - (x k0 - D * y k0)) * y k0) (fun k0 => vals w k0 * y k0 + (-1 * (x k0 * y k0) + D * (y k0 * y k0)))) by (intros; ring). rewrite rsum_plus, rsum_plus.
    rewrite !rsum_scal. unfold N. rewrite norm_sq. fold (inner k x y). fold D. ring. }
  rewrite Sp. eapply Rle_trans; [apply Rabs_triang|]. rewrite Rabs_mult, (Rabs_minus_sym 1). pose proof (cauchy k diff y) as Cy. fold (inner k diff y) in Cy. fold N in Cy. assert (norm k diff * N <= ((3 * ku + 4 * u) * V + 4 * INR k * eta) * (101 / 100)) by (apply Rmult_le_compat; auto using norm_pos).
  assert (Rabs D * Rabs (N * N - 1) <= 101 / 100 * V * d) by (apply Rmult_le_compat; auto using Rabs_pos). assert (0 <= V * d) by (apply Rmult_le_pos; auto; eapply Rle_trans; [apply Rabs_pos|exact NN]). lra.
Qed.
End IEEE.

(** ** Examples in double precision: the vector (4, -2, 15) and the axis y; cosine and sine written with ten bits *)
Lemma ex_t_fin k : (k < 3)%nat -> is_finite (el ex_t k) = true /\ is_finite (el ex_up k) = true.
Proof. destruct ex_three as (_ & [_ A] & [_ B]). auto. Qed.
Lemma ex_t_norm : 15 <= norm 3 (vals 53 1024 ex_t) <= 16.
Proof.
  assert (V : forall i, (i < 3)%nat -> vals 53 1024 ex_t i = match i with 0%nat => 4 | 1%nat => -2 | _ => 15 end) by (apply cases3; unfold vals; cbn [nth ex_t]; rewrite !(fun m e A B => proj2 (dbl_ok m e A B)) by lia; cbn; ring).
  assert (Q : norm 3 (vals 53 1024 ex_t) * norm 3 (vals 53 1024 ex_t) = 245) by (rewrite norm_sq; cbn [rsum]; rewrite !V by lia; ring). split; apply sq_le; try lra. apply norm_pos.
Qed.
Lemma ex_up_unit : unit_within 3 0 (vals 53 1024 ex_up).
Proof. unfold unit_within. cbn [rsum]. rewrite !ex_u by lia. replace (0 + 0 * 0 + 1 * 1 + 0 * 0 - 1) with 0 by ring. rewrite Rabs_R0. lra. Qed.
Lemma eta53 : 0 < eta_min 53 1024 <= / 1000000. Proof. split; [apply eta_pos|]. apply Rle_trans with (bpow radix2 (-20)); [apply bpow_le; unfold SpecFloat.emin; lia|]. cbn. lra. Qed.
Example rotate_vector_case : exists r, @rotate_vector double _ turn_math ex_t ex_up (dbl 1 0) = Ok r /\ Rabs (norm 3 (vals 53 1024 r) - norm 3 (vals 53 1024 ex_t)) <= / 100 * norm 3 (vals 53 1024 ex_t).
Proof.
  assert (E : exists r, @rotate_vector double _ turn_math ex_t ex_up (dbl 1 0) = Ok r) by (eexists; reflexivity). destruct E as [r E]. exists r. split; [exact E|].
  pose proof u53_small as U. pose proof eta53 as Et. pose proof ex_t_norm as L. assert (U2 : u_round 53 <= / 256) by lra.
  assert (C : Rabs (B2R (dbl 819 (-10)) * B2R (dbl 819 (-10)) + B2R (dbl 614 (-10)) * B2R (dbl 614 (-10)) - 1) <= / 1024) by (rewrite !(fun m e A B => proj2 (dbl_ok m e A B)) by lia; cbn; apply Rabs_le; lra).
  assert (Fit : 11 * norm 3 (vals 53 1024 ex_t) + 1 < bpow radix2 1024). { apply Rle_lt_trans with (bpow radix2 10); [cbn; lra|]. apply bpow_lt. lia. }
  assert (Fc : is_finite (dbl 819 (-10)) = true) by (apply dbl_ok; lia). assert (Fs : is_finite (dbl 614 (-10)) = true) by (apply dbl_ok; lia).
  pose proof (rotate_vector_length 53 1024 U2 turn_math ex_t ex_up (dbl 1 0) r (/ 1024) 0 E Fc Fs ex_t_fin C ltac:(lra) ex_up_unit ltac:(lra) Fit) as X.
  eapply Rle_trans; [exact X|]. assert (u_round 53 * norm 3 (vals 53 1024 ex_t) <= / 1000000000000 * norm 3 (vals 53 1024 ex_t)) by (apply Rmult_le_compat_r; lra). lra.
Qed.
Example project_to_hplane_case : exists w, vproject_to_hplane ex_t ex_up = Ok w /\ Rabs (inner 3 (vals 53 1024 w) (vals 53 1024 ex_up)) <= / 1000.
Proof.
  assert (E : exists w, vproject_to_hplane ex_t ex_up = Ok w) by (eexists; reflexivity). destruct E as [w E]. exists w. split; [exact E|].
  pose proof u53_small as U. pose proof eta53 as Et. pose proof ex_t_norm as L. assert (U2 : u_round 53 <= / 256) by lra.
  assert (C : match vproject_to_hplane ex_t ex_up with Ok w => forallb (fun i => is_finite (el w i)) [0%nat; 1%nat; 2%nat] | _ => false end = true) by (vm_compute; reflexivity). rewrite E in C. rewrite forallb_forall in C.
  assert (Fw : forall i, (i < 3)%nat -> is_finite (el w i) = true) by (intros i Hi; apply C; destruct i as [|[|[|i]]]; cbn; auto; lia).
  assert (I3 : INR 3 = 3) by (cbn; lra).
  destruct (project_to_hplane_accuracy 53 1024 U2 ex_t ex_up w 0 E) as (_ & _ & X); [change (length ex_t) with 3%nat; rewrite I3; lra|exact Fw|exact ex_up_unit|lra|].
  change (length ex_t) with 3%nat in X. rewrite I3 in X. eapply Rle_trans; [exact X|]. assert (u_round 53 * norm 3 (vals 53 1024 ex_t) <= / 1000000000000 * norm 3 (vals 53 1024 ex_t)) by (apply Rmult_le_compat_r; lra). lra.
Qed.
Print Assumptions rotate_vector_accuracy. Print Assumptions rotate_vector_length. Print Assumptions project_to_hplane_accuracy.
