(** C98: exponential and logarithm of a quaternion in IEEE arithmetic. *)
From Coq Require Import ZArith Bool List Arith Lia Reals Lra.
From Flocq Require Import Core BinarySingleNaN.
From Verif Require Import Base RInst ScalarModel MiscModel VecModel RotModel XfModel GeoModel MatModel MatOps QuatModel FloatModel FloatFacts FloatNorm FloatDot PropFloat PropFloatLU FloatExpr PropFloatForm PropFloatNorm FloatRot PropFloatRot FloatScalar FrameFacts PropFloatFrame PropFloatPlanes PropFloatTurn PropFloatAngle PropFloatAxis.
Import ListNotations.
Open Scope R_scope.

(** ** What the functions compute *)
Section Eval.
Context {T : Type} {Op : Ops T} {MO : MathOps T}.
Definition imag_list (o : order) (q : quat T) : list T := [qget q (part o 1); qget q (part o 2); qget q (part o 3)].
Lemma exp_eval o (q r : quat T) : q_exp o q = Ok r -> let L := len3 (imag_list o q) in let x := mexp (qget q (oW o)) in
  qget r (part o 0) = mul x (mcos L) /\ forall i, (1 <= i < 4)%nat -> qget r (part o i) = mul (qget q (part o i)) (mul x (div (msin L) L)).
Proof.
  intros E L x. unfold q_exp, assign_parts in E. apply bind_ok in E. destruct E as (t & _ & E). apply ok_inj in E. subst r. split; [destruct o, q; reflexivity|]. intros [|[|[|[|i]]]] Hi; try lia; destruct o, q; reflexivity.
Qed.
Lemma log_eval o (q r : quat T) : q_log o q = Ok r -> let L := len3 (imag_list o q) in let N := length_of (qget q) in
  qget r (part o 0) = mlog N /\ forall i, (1 <= i < 4)%nat -> qget r (part o i) = mul (qget q (part o i)) (div (macos (div (qget q (oW o)) N)) L).
Proof.
  intros E L N. unfold q_log, assign_parts in E. apply bind_ok in E. destruct E as (t & _ & E). apply ok_inj in E. subst r. split; [destruct o, q; reflexivity|]. intros [|[|[|[|i]]]] Hi; try lia; destruct o, q; reflexivity.
Qed.
Definition all_list (q : quat T) : list T := [qget q 0; qget q 1; qget q 2; qget q 3].
Lemma length4_vec (q : quat T) : vlength_squared (all_list q) = Ok (norm_of (qget q)) /\ vlength (all_list q) = Ok (length_of (qget q)).
Proof. split; reflexivity. Qed.
End Eval.

Lemma ratio_close L M h b : 0 < M -> 0 <= h <= b -> b < 1 -> Rabs (L - M) <= h * M -> 0 < L /\ Rabs (M / L - 1) <= h / (1 - b).
Proof.
  intros M0 H B D. apply Rabs_le_inv in D. assert (h * M <= b * M) by (apply Rmult_le_compat_r; lra). assert (LB : (1 - b) * M <= L) by lra. assert (BM : 0 < (1 - b) * M) by (apply Rmult_lt_0_compat; lra). split; [lra|].
  replace (M / L - 1) with ((M - L) * / L) by (field; lra). rewrite Rabs_mult, Rabs_inv, (Rabs_pos_eq L) by lra. assert (I : / L <= / ((1 - b) * M)) by (apply Rinv_le_contravar; auto). assert (A : Rabs (M - L) <= h * M) by (apply Rabs_le; lra).
  apply Rle_trans with (h * M * / ((1 - b) * M)); [|right; field; lra]. apply Rmult_le_compat; auto using Rabs_pos. left. apply Rinv_0_lt_compat. lra.
Qed.

Section IEEE.
Context (prec emax : Z) {Hprec : Prec_gt_0 prec} {Hmax : Prec_lt_emax prec emax}.
Notation F := (binary_float prec emax).
Notation u := (u_round prec).
Notation eta := (eta_min prec emax).
Notation val := (@B2R prec emax).
Notation fin x := (is_finite x = true).
Notation vals := (PropFloat.vals prec emax).
Notation three := (PropFloatFrame.three prec emax).
Notation wxyz := (PropFloatForm.wxyz prec emax).
Notation square_in_range := (PropFloatAxis.square_in_range emax).
Context (U256 : u <= / 256).

Lemma imag_length (MO : MathOps F) (IM : ieee_math prec emax MO) o (q : quat F) : (forall k, (k < 4)%nat -> fin (qget q (part o k))) -> let M := norm 3 (fun i => wxyz o q (S i)) in square_in_range M ->
  0 < M /\ fin (len3 (imag_list o q)) /\ Rabs (val (len3 (imag_list o q)) - M) <= 16 * u * M.
Proof.
  intros Fq M HM. set (ax := imag_list o q). assert (Tx : three ax) by (split; [reflexivity|]; intros [|[|[|i]]] Hi; [..|lia]; apply Fq; lia).
  assert (Nx : norm 3 (vals ax) = M) by (unfold M; apply norm_ext; intros [|[|[|i]]] Hi; [..|lia]; reflexivity). destruct (normal3 prec emax U256 MO IM ax Tx) as (M1 & Fl & Dl & _); rewrite Nx in *; auto.
Qed.
Lemma three_mul (x y z : F) : fin (mul x (mul y z)) -> exists d2 d3 e2 e3, fin x /\ fin y /\ fin z /\ Rabs d2 <= u /\ Rabs d3 <= u /\ Rabs e2 <= eta /\ Rabs e3 <= eta /\ val (mul x (mul y z)) = val x * (val y * val z * (1 + d2) + e2) * (1 + d3) + e3.
Proof.
  intros H. destruct (mul_err prec emax _ _ H) as (Fx & Fm & d3 & e3 & D3 & E3 & V3). destruct (mul_err prec emax _ _ Fm) as (Fy & Fz & d2 & e2 & D2 & E2 & V2). exists d2, d3, e2, e3. repeat (split; [assumption|]). rewrite V3, V2. reflexivity.
Qed.
Lemma small_prod a b A B : Rabs a <= A -> Rabs b <= B -> Rabs (a * b) <= A * B.
Proof. intros. rewrite Rabs_mult. apply Rmult_le_compat; auto using Rabs_pos. Qed.
(** exp(): the polar form, with sine and cosine of the computed length of the imaginary part *)
Theorem exp_accuracy : forall (MO : MathOps F), ieee_math prec emax MO -> forall o (q r : quat F), q_exp o q = Ok r -> (forall k, (k < 4)%nat -> fin (qget q (part o k))) -> (forall k, (k < 4)%nat -> fin (qget r (part o k))) ->
  let a := wxyz o q in let M := norm 3 (fun i => a (S i)) in square_in_range M ->
  exists L, fin L /\ Rabs (val L - M) <= 16 * u * M /\ let x := val (mexp (qget q (oW o))) in let c := val (mcos L) in let s := val (msin L) in
  Rabs (wxyz o r 0%nat - x * c) <= u * Rabs (x * c) + eta /\
  forall i, (1 <= i < 4)%nat -> Rabs (wxyz o r i - x * s * (a i / M)) <= 21 * u * Rabs (x * s * (a i / M)) + 2 * eta * (Rabs (a i) * (Rabs x + 1) + 1).
Proof.
  intros MO IM o q r E Fq Fr a M HM. destruct (eight_bits prec emax U256) as (U & [Et Eu] & _). destruct (imag_length MO IM o q Fq HM) as (M0 & FL & DL). fold a M in M0, DL. destruct (exp_eval o q r E) as [E0 Ei]. set (L := len3 (imag_list o q)) in *. exists L. split; [exact FL|]. split; [exact DL|]. intros x c s.
  destruct (ratio_close (val L) M (16 * u) (/ 16) M0 ltac:(lra) ltac:(lra) DL) as [L0 RT]. set (t := M / val L - 1) in *. assert (T17 : Rabs t <= 171 / 10 * u) by (eapply Rle_trans; [exact RT|]; unfold Rdiv; lra).
  assert (U2 : 0 <= u * u <= / 256 * u) by (split; [apply sq_pos|apply Rmult_le_compat_r; lra]). 
  split.
  - pose proof (Fr 0%nat ltac:(lia)) as F0. rewrite E0 in F0. destruct (mul_err prec emax _ _ F0) as (_ & _ & d & e & D & De & V). unfold PropFloatForm.wxyz. rewrite E0, V. fold x c. replace (x * c * (1 + d) + e - x * c) with (x * c * d + e) by ring. eapply Rle_trans; [apply Rabs_triang|]. rewrite Rabs_mult.
    assert (Rabs (x * c) * Rabs d <= Rabs (x * c) * u) by (apply Rmult_le_compat_l; auto using Rabs_pos). lra.
  - intros i Hi. pose proof (Fr i ltac:(lia)) as F1. rewrite (Ei i Hi) in F1. destruct (three_mul _ _ _ F1) as (d2 & d3 & e2 & e3 & Fa & Fx & Fz & D2 & D3 & B2 & B3 & V). destruct (div_err prec emax _ _ Fz ltac:(lra)) as (_ & d1 & e1 & D1 & B1 & V1). unfold PropFloatForm.wxyz at 1. rewrite (Ei i Hi), V, V1. change (val (qget q (part o i))) with (a i). fold x s. set (v := a i).
    set (g := (1 + t) * (1 + d1) * (1 + d2) * (1 + d3) - 1).
    assert (G : Rabs g <= 21 * u).
    { assert (Gt : forall p q P Q, Rabs (p - 1) <= P -> Rabs (q - 1) <= Q -> Rabs (p * q - 1) <= P + Q + P * Q) by (intros p w P Q HP HQ; replace (p * w - 1) with ((p - 1) + (w - 1) + (p - 1) * (w - 1)) by ring; eapply Rle_trans; [apply Rabs_triang|]; pose proof (Rabs_triang (p - 1) (w - 1)); pose proof (small_prod _ _ _ _ HP HQ); lra).
      assert (O1 : forall d k, Rabs d <= k -> Rabs (1 + d - 1) <= k) by (intros d k H; replace (1 + d - 1) with d by ring; exact H). unfold g. apply O1 in T17, D1, D2, D3.
      assert (X1 : Rabs ((1 + t) * (1 + d1) - 1) <= 183 / 10 * u) by (eapply Rle_trans; [apply (Gt _ _ _ _ T17 D1)|]; lra). assert (X2 : Rabs ((1 + t) * (1 + d1) * (1 + d2) - 1) <= 195 / 10 * u) by (eapply Rle_trans; [apply (Gt _ _ _ _ X1 D2)|]; lra). eapply Rle_trans; [apply (Gt _ _ _ _ X2 D3)|]. lra. }
    replace (v * (x * (s / val L * (1 + d1) + e1) * (1 + d2) + e2) * (1 + d3) + e3 - x * s * (v / M)) with (x * s * (v / M) * g + (v * (x * e1 * ((1 + d2) * (1 + d3)) + e2 * (1 + d3)) + e3)).
    2:{ unfold g. replace (1 + t) with (M / val L) by (unfold t; ring). field. lra. }
    eapply Rle_trans; [apply Rabs_triang|]. apply Rplus_le_compat; [rewrite Rabs_mult, Rmult_comm; apply Rmult_le_compat_r; auto using Rabs_pos|].
    assert (O2 : Rabs (1 + d2) <= 5 / 4) by (apply Rabs_le_inv in D2; apply Rabs_le; lra). assert (O3 : Rabs (1 + d3) <= 5 / 4) by (apply Rabs_le_inv in D3; apply Rabs_le; lra). pose proof (small_prod _ _ _ _ O2 O3) as O23.
    assert (W1 : Rabs (x * e1 * ((1 + d2) * (1 + d3))) <= Rabs x * eta * (5 / 4 * (5 / 4))) by (apply small_prod; [apply small_prod; [lra|exact B1]|exact O23]). assert (W2 : Rabs (e2 * (1 + d3)) <= eta * (5 / 4)) by (apply small_prod; auto).
    assert (W : Rabs (x * e1 * ((1 + d2) * (1 + d3)) + e2 * (1 + d3)) <= 2 * eta * (Rabs x + 1)) by (eapply Rle_trans; [apply Rabs_triang|]; pose proof (Rmult_le_pos _ _ (Rabs_pos x) (Rlt_le _ _ Et)); lra).
    pose proof (small_prod _ _ _ _ (Rle_refl (Rabs v)) W) as WV. eapply Rle_trans; [apply Rabs_triang|]. lra.
Qed.
(** exp() of a pure quaternion is a unit quaternion, up to the sine and cosine of the math library *)
Theorem exp_unit : forall (MO : MathOps F), ieee_math prec emax MO -> (forall y : F, val y = 0 -> val (mexp y) = 1) -> forall o (q r : quat F) d, q_exp o q = Ok r -> (forall k, (k < 4)%nat -> fin (qget q (part o k))) -> (forall k, (k < 4)%nat -> fin (qget r (part o k))) ->
  let a := wxyz o q in let M := norm 3 (fun i => a (S i)) in square_in_range M -> M <= 8 -> a 0%nat = 0 ->
  (forall L : F, fin L -> Rabs (val L - M) <= 16 * u * M -> Rabs (val (mcos L) * val (mcos L) + val (msin L) * val (msin L) - 1) <= d) -> d <= / 8 ->
  unit_within 4 (d + 57 * u) (wxyz o r).
Proof.
  intros MO IM X1 o q r d E Fq Fr a M HM M8 W0 CS D8. destruct (eight_bits prec emax U256) as (U & [Et Eu] & _). destruct (exp_accuracy MO IM o q r E Fq Fr HM) as (L & FL & DL & A0 & Ai). fold a M in DL, A0, Ai. specialize (CS L FL DL). rewrite X1 in A0, Ai by exact W0. set (c := val (mcos L)) in *. set (s := val (msin L)) in *.
  assert (M0 : 0 < M) by (destruct (imag_length MO IM o q Fq HM) as (X & _ & _); exact X). assert (D0 : 0 <= d) by (eapply Rle_trans; [apply Rabs_pos|exact CS]).
  set (e := fun i => match i with 0%nat => c | S j => s * (a (S j) / M) end). assert (Ne : norm 4 e * norm 4 e = c * c + s * s).
  { rewrite norm_sq. cbn [rsum]. unfold e. assert (MM : a 1%nat * a 1%nat + a 2%nat * a 2%nat + a 3%nat * a 3%nat = M * M) by (unfold M; rewrite norm_sq; cbn [rsum]; ring). replace (0 + c * c + s * (a 1%nat / M) * (s * (a 1%nat / M)) + s * (a 2%nat / M) * (s * (a 2%nat / M)) + s * (a 3%nat / M) * (s * (a 3%nat / M))) with (c * c + s * s * ((a 1%nat * a 1%nat + a 2%nat * a 2%nat + a 3%nat * a 3%nat) / (M * M))) by (field; lra). rewrite MM. field. lra. }
  pose proof (norm_pos 4 e) as N0. assert (CB := CS). apply Rabs_le_inv in CB. assert (N1 : norm 4 e <= 107 / 100) by (apply sq_le; [lra|]; rewrite Ne; lra).
  assert (Dr : forall i, (i < 4)%nat -> Rabs (wxyz o r i - e i) <= 21 * u * Rabs (e i) + 3 / 10 * u).
  { intros [|i] Hi.
    - rewrite Rmult_1_l in A0. unfold e. assert (0 <= u * Rabs c) by (apply Rmult_le_pos; [lra|apply Rabs_pos]). lra.
    - specialize (Ai (S i) ltac:(lia)). rewrite Rmult_1_l in Ai. unfold e. rewrite Rabs_R1 in Ai. assert (T : Rabs (a (S i)) <= M) by (apply (norm_term 3 (fun i => a (S i)) i); lia). assert (0 <= eta * Rabs (a (S i)) <= eta * 8) by (split; [apply Rmult_le_pos; [lra|apply Rabs_pos]|apply Rmult_le_compat_l; lra]). lra. }
  assert (Dn : norm 4 (fun i => wxyz o r i - e i) <= 241 / 10 * u).
  { eapply Rle_trans; [apply (norm_le 4 _ (fun i => 21 * u * Rabs (e i) + 3 / 10 * u)); exact Dr|]. eapply Rle_trans; [apply norm_triangle|]. rewrite norm_scal, norm_abs, norm_const, Rabs_pos_eq by lra. assert (S4 : sqrt (INR 4) = 2) by (replace (INR 4) with (2 * 2) by (cbn; lra); apply sqrt_square; lra). rewrite S4. assert (21 * u * norm 4 e <= 21 * u * (107 / 100)) by (apply Rmult_le_compat_l; lra). lra. }
  unfold unit_within. rewrite <- norm_sq. pose proof (norm_dist 4 (wxyz o r) e) as ND. set (R0 := norm 4 (wxyz o r)) in *. set (E0 := norm 4 e) in *. assert (DD : Rabs (R0 - E0) <= 241 / 10 * u) by lra. assert (DB := DD). apply Rabs_le_inv in DB.
  replace (R0 * R0 - 1) with ((R0 - E0) * (R0 + E0) + (E0 * E0 - 1)) by ring. eapply Rle_trans; [apply Rabs_triang|]. rewrite Ne. assert (B : Rabs (R0 + E0) <= 225 / 100) by (assert (RP : 0 <= R0) by apply norm_pos; apply Rabs_le; lra).
  pose proof (small_prod _ _ _ _ DD B). lra.
Qed.

(** log(): the logarithm of the computed length, and the imaginary direction times the arc cosine of the computed w/|q| *)
Theorem log_accuracy : forall (MO : MathOps F), ieee_math prec emax MO -> forall o (q r : quat F), q_log o q = Ok r -> (forall k, (k < 4)%nat -> fin (qget q (part o k))) -> (forall k, (k < 4)%nat -> fin (qget r (part o k))) ->
  let a := wxyz o q in let N := norm 4 a in let M := norm 3 (fun i => a (S i)) in square_in_range M -> square_in_range N ->
  exists l z, fin l /\ Rabs (val l - N) <= 20 * u * N /\ fin z /\ Rabs (val z - a 0%nat / N) <= 23 * u * Rabs (a 0%nat / N) + eta /\
  qget r (part o 0) = mlog l /\ let t := val (macos z) in
  forall i, (1 <= i < 4)%nat -> Rabs (wxyz o r i - t * (a i / M)) <= 20 * u * Rabs (t * (a i / M)) + 2 * eta * (Rabs (a i) + 1).
Proof.
  intros MO IM o q r E Fq Fr a N M HM HN. destruct (eight_bits prec emax U256) as (U & [Et Eu] & B9 & _). destruct (imag_length MO IM o q Fq HM) as (M0 & FL & DL). fold a M in M0, DL. destruct (log_eval o q r E) as [E0 Ei]. set (L := len3 (imag_list o q)) in *.
  destruct (length4_vec q) as [V1 V2]. set (qs := all_list q) in *. set (l := length_of (qget q)) in *. destruct HN as [Lo Hi]. assert (N0 : 0 <= N) by apply norm_pos. pose proof (bpow_gt_0 radix2 (3 - emax)) as Bp. assert (N1 : 0 < N) by (destruct (Req_dec N 0) as [Z|]; [rewrite Z in Lo; lra|lra]).
  assert (NN : norm2 prec emax qs = N * N) by (unfold N; rewrite norm_sq; unfold norm2, qs, all_list, a, PropFloatForm.wxyz, PropFloat.vals; cbn [length rsum nth]; destruct o; cbn [part oW oX oY oZ]; ring).
  assert (Fa : forall x, In x qs -> fin x). { intros x Hx. pose proof (Fq 0%nat ltac:(lia)) as K0. pose proof (Fq 1%nat ltac:(lia)) as K1. pose proof (Fq 2%nat ltac:(lia)) as K2. pose proof (Fq 3%nat ltac:(lia)) as K3. destruct o; cbn [part oW oX oY oZ] in K0, K1, K2, K3; destruct Hx as [<-|[<-|[<-|[<-|[]]]]]; assumption. }
  assert (U2 : 0 <= u * u <= / 256 * u) by (split; [apply sq_pos|apply Rmult_le_compat_r; lra]). assert (U3 : u * u * u <= / 256 * u) by (assert (u * u * u <= 1 * u) by (apply Rmult_le_compat_r; lra); assert (u * u * u <= / 256 * (u * u)) by (rewrite (Rmult_comm (u * u)); apply Rmult_le_compat_r; lra); lra). 
  assert (Q4 : 0 <= (1 + u) ^ 4 <= 105 / 100) by (destruct (eight_bits prec emax U256) as (_ & _ & _ & _ & X); lra). assert (I4 : INR 4 = 4) by (cbn; lra).
  assert (P3 : bpow radix2 emax = 8 * bpow radix2 (emax - 3)) by (change 8 with (bpow radix2 3); rewrite <- bpow_plus; f_equal; ring). pose proof (sq_pos N) as NP.
  assert (Fl : fin (norm_of (qget q))).
  { assert (D : exists d, vdot qs qs = Ok d /\ fin d).
    { apply (dot_no_overflow prec emax); [discriminate|reflexivity|intros x [Hx|Hx]; auto|]. unfold fits. change (length qs) with 4%nat. rewrite (rsum_ext 4 _ (fun i => vals qs i * vals qs i)) by (intros; apply Rabs_pos_eq, sq_pos). change (rsum 4 (fun i => vals qs i * vals qs i)) with (norm2 prec emax qs). rewrite NN, I4.
      assert ((1 + u) ^ 4 * (N * N) <= 105 / 100 * bpow radix2 (emax - 3)) by (apply Rmult_le_compat; lra). assert ((1 + u) ^ 4 * eta <= 105 / 100 * eta) by (apply Rmult_le_compat_r; lra). lra. }
    destruct D as (d & Ed & Fd). assert (Ed' : vlength_squared qs = Ok d) by exact Ed. rewrite V1 in Ed'. apply ok_inj in Ed'. subst d. exact Fd. }
  destruct (length_accuracy prec emax IM qs _ _ V1 Fl V2) as [Fll Dll]; [change (length qs) with 4%nat; rewrite I4; lra|rewrite NN; auto|]. rewrite NN, sqrt_square in Dll by auto. change (length qs) with 4%nat in Dll. rewrite I4 in Dll. assert (DN : Rabs (val l - N) <= 20 * u * N) by (eapply Rle_trans; [exact Dll|]; right; ring).
  destruct (ratio_close (val l) N (20 * u) (5 / 64) N1 ltac:(lra) ltac:(lra) DN) as [l0 RN]. set (tn := N / val l - 1) in *. assert (Tn : Rabs tn <= 217 / 10 * u) by (eapply Rle_trans; [exact RN|]; unfold Rdiv; lra).
  destruct (ratio_close (val L) M (16 * u) (/ 16) M0 ltac:(lra) ltac:(lra) DL) as [L0 RT]. set (t := M / val L - 1) in *. assert (T17 : Rabs t <= 171 / 10 * u) by (eapply Rle_trans; [exact RT|]; unfold Rdiv; lra).
  assert (Gt : forall p q P Q, Rabs (p - 1) <= P -> Rabs (q - 1) <= Q -> Rabs (p * q - 1) <= P + Q + P * Q) by (intros p w P Q HP HQ; replace (p * w - 1) with ((p - 1) + (w - 1) + (p - 1) * (w - 1)) by ring; eapply Rle_trans; [apply Rabs_triang|]; pose proof (Rabs_triang (p - 1) (w - 1)); pose proof (small_prod _ _ _ _ HP HQ); lra).
  assert (O1 : forall d k, Rabs d <= k -> Rabs (1 + d - 1) <= k) by (intros d k H; replace (1 + d - 1) with d by ring; exact H).
  set (z := div (qget q (oW o)) l) in *. change (val (qget q (oW o))) with (a 0%nat) in *. pose proof (Fq 0%nat ltac:(lia)) as F0. change (part o 0) with (oW o) in F0.
  assert (A0 : Rabs (a 0%nat / N) <= 1). { unfold Rdiv. rewrite Rabs_mult, Rabs_inv, (Rabs_pos_eq N) by auto. apply Rmult_le_reg_r with N; [auto|]. rewrite Rmult_assoc, Rinv_l, Rmult_1_r, Rmult_1_l by lra. apply (norm_term 4 a 0); lia. }
  assert (Fz : fin z).
  { apply div_fits_big; [exact F0|lra|]. change (val (qget q (oW o))) with (a 0%nat). replace (a 0%nat / val l) with (a 0%nat / N * (1 + tn)) by (unfold tn; field; lra). assert (Rabs (1 + tn) <= 2) by (apply Rabs_le_inv in Tn; apply Rabs_le; lra). pose proof (small_prod _ _ _ _ A0 H) as X. assert (Rabs (a 0%nat / N * (1 + tn)) * (1 + u) <= 1 * 2 * 2) by (apply Rmult_le_compat; auto using Rabs_pos; lra). lra. }
  exists l, z. split; [exact Fll|]. split; [exact DN|]. split; [exact Fz|]. split; [|split; [exact E0|]].
  - destruct (div_err prec emax _ _ Fz ltac:(lra)) as (_ & d & e & D & De & V). unfold z. rewrite V. change (val (qget q (oW o))) with (a 0%nat). replace (a 0%nat / val l * (1 + d) + e - a 0%nat / N) with (a 0%nat / N * ((1 + tn) * (1 + d) - 1) + e) by (unfold tn; field; lra).
    eapply Rle_trans; [apply Rabs_triang|]. apply Rplus_le_compat; auto. rewrite Rabs_mult, Rmult_comm. apply Rmult_le_compat_r; [apply Rabs_pos|]. eapply Rle_trans; [apply (Gt _ _ _ _ (O1 _ _ Tn) (O1 _ _ D))|]. lra.
  - intros w i Hi4. pose proof (Fr i ltac:(lia)) as F1. rewrite (Ei i Hi4) in F1. destruct (mul_err prec emax _ _ F1) as (_ & Fd & d2 & e2 & D2 & B2 & V). destruct (div_err prec emax _ _ Fd ltac:(lra)) as (_ & d1 & e1 & D1 & B1 & V'). unfold PropFloatForm.wxyz at 1. rewrite (Ei i Hi4), V, V'. change (val (qget q (part o i))) with (a i). fold w. set (v := a i).
    set (g := (1 + t) * (1 + d1) * (1 + d2) - 1). assert (G : Rabs g <= 20 * u).
    { unfold g. assert (X1 : Rabs ((1 + t) * (1 + d1) - 1) <= 183 / 10 * u) by (eapply Rle_trans; [apply (Gt _ _ _ _ (O1 _ _ T17) (O1 _ _ D1))|]; lra). eapply Rle_trans; [apply (Gt _ _ _ _ X1 (O1 _ _ D2))|]. lra. }
    replace (v * (w / val L * (1 + d1) + e1) * (1 + d2) + e2 - w * (v / M)) with (w * (v / M) * g + (v * (e1 * (1 + d2)) + e2)).
    2:{ unfold g. replace (1 + t) with (M / val L) by (unfold t; ring). field. lra. }
    eapply Rle_trans; [apply Rabs_triang|]. apply Rplus_le_compat; [rewrite Rabs_mult, Rmult_comm; apply Rmult_le_compat_r; auto using Rabs_pos|].
    assert (O2 : Rabs (1 + d2) <= 5 / 4) by (apply Rabs_le_inv in D2; apply Rabs_le; lra). assert (W2 : Rabs (e1 * (1 + d2)) <= eta * (5 / 4)) by (apply small_prod; auto).
    pose proof (small_prod _ _ _ _ (Rle_refl (Rabs v)) W2) as WV. pose proof (Rmult_le_pos _ _ (Rabs_pos v) (Rlt_le _ _ Et)). eapply Rle_trans; [apply Rabs_triang|]. lra.
Qed.

(** ** Quaternions without an imaginary part: NaN, whatever the math library *)
Lemma zero_nonfinite s (x : F) : is_finite x = false -> is_nan (mul (B754_zero s) x) = true.
Proof. destruct x; try discriminate; intros _; reflexivity. Qed.
Lemma mul_nonfinite (x y : F) : is_finite y = false -> is_finite (mul x y) = false.
Proof. destruct x, y; try discriminate; intros _; try reflexivity. Qed.
Lemma div_zero_nonfinite (x : F) s : is_finite (div x (B754_zero s)) = false.
Proof. destruct x; reflexivity. Qed.
Lemma zero_length (MO : MathOps F) (IM : ieee_math prec emax MO) s1 s2 s3 : exists s, len3 [B754_zero s1; B754_zero s2; B754_zero s3] = B754_zero s.
Proof. unfold len3. rewrite (proj1 IM). destruct s1, s2, s3; eexists; reflexivity. Qed.
Theorem exp_log_real_nan_refuted : forall (MO : MathOps F), ieee_math prec emax MO -> forall o (q r s : quat F), (forall i, (1 <= i < 4)%nat -> exists b, qget q (part o i) = B754_zero b) -> q_exp o q = Ok r -> q_log o q = Ok s ->
  forall i, (1 <= i < 4)%nat -> is_nan (qget r (part o i)) = true /\ is_nan (qget s (part o i)) = true.
Proof.
  intros MO IM o q r s Z Er Es i Hi. destruct (exp_eval o q r Er) as [_ Ei]. destruct (log_eval o q s Es) as [_ Ej]. rewrite Ei, Ej by auto. destruct (Z 1%nat ltac:(lia)) as [b1 Z1]. destruct (Z 2%nat ltac:(lia)) as [b2 Z2]. destruct (Z 3%nat ltac:(lia)) as [b3 Z3]. unfold imag_list. rewrite Z1, Z2, Z3. destruct (zero_length MO IM b1 b2 b3) as [b Zb]. rewrite Zb. destruct (Z i Hi) as [bi ->].
  split; apply zero_nonfinite; [apply mul_nonfinite|]; apply div_zero_nonfinite.
Qed.
End IEEE.

(** ** A small rotation: the arc cosine gives zero, and exp(log(q)) is NaN *)
Definition ex_small : quat double := Quat (dbl 1 0) (dbl 1 (-27)) (dbl 0 0) (dbl 0 0).
Theorem log_small_angle_refuted : forall (MO : MathOps double), ieee_math 53 1024 MO -> macos (dbl 1 0) = dbl 0 0 -> exists q r s : quat double,
  (forall k, (k < 4)%nat -> is_finite (qget q k) = true) /\ 0 < B2R (qget q 1) /\ 0 < norm 4 (wxyz 53 1024 real_first q) * norm 4 (wxyz 53 1024 real_first q) - 1 <= bpow radix2 (-54) /\
  q_log real_first q = Ok r /\ (forall k, (1 <= k < 4)%nat -> B2R (qget r k) = 0 /\ is_finite (qget r k) = true) /\ q_exp real_first r = Ok s /\ forall k, (1 <= k < 4)%nat -> is_nan (qget s k) = true.
Proof.
  intros MO IM A0. set (q := ex_small). destruct (q_log real_first q) as [r| |] eqn:E; [|discriminate..]. destruct (q_exp real_first r) as [s| |] eqn:E2; [|discriminate..]. exists q, r, s.
  destruct (pow2_val (-27) ltac:(lia)) as [Fp Vp]. pose proof (bpow_gt_0 radix2 (-27)) as P.
  destruct (log_eval real_first q r E) as [_ Ei]. assert (LN : length_of (qget q) = dbl 1 0) by (unfold length_of; rewrite (proj1 IM); apply B2SF_inj; vm_compute; reflexivity). assert (LL : len3 (imag_list real_first q) = dbl 1 (-27)) by (unfold len3; rewrite (proj1 IM); apply B2SF_inj; vm_compute; reflexivity).
  assert (ZZ : forall k, (1 <= k < 4)%nat -> qget r k = B754_zero false).
  { intros k Hk. specialize (Ei k Hk). rewrite LN, LL in Ei. replace (div (qget q (oW real_first)) (dbl 1 0)) with (dbl 1 0) in Ei by (apply B2SF_inj; vm_compute; reflexivity). rewrite A0 in Ei. replace (part real_first k) with k in Ei by (destruct k as [|[|[|[|k]]]]; try lia; reflexivity). rewrite Ei. destruct k as [|[|[|[|k]]]]; try lia; apply B2SF_inj; vm_compute; reflexivity. }
  split; [intros [|[|[|[|k]]]] Hk; [..|lia]; vm_compute; reflexivity|]. split; [change (qget q 1) with (dbl 1 (-27)); rewrite Vp; exact P|].
  split.
  { rewrite norm_sq. unfold wxyz. cbn [rsum part oW oX oY oZ q ex_small qget q0 q1 q2 q3]. destruct (pow2_val 0 ltac:(lia)) as [_ V0]. assert (Vz : B2R (dbl 0 0) = 0) by reflexivity. rewrite Vz, V0, Vp. change (bpow radix2 0) with 1. rewrite <- bpow_plus. change (-27 + -27)%Z with (-54)%Z. pose proof (bpow_gt_0 radix2 (-54)). lra. }
  split; [exact E|]. split; [intros k Hk; rewrite (ZZ k Hk); split; reflexivity|]. split; [exact E2|].
  destruct (q_log real_first r) as [s'| |] eqn:E3; [|discriminate..]. intros k Hk. assert (Zr : forall i, (1 <= i < 4)%nat -> exists b, qget r (part real_first i) = B754_zero b) by (intros i Hi; exists false; replace (part real_first i) with i by (destruct i as [|[|[|[|i]]]]; try lia; reflexivity); apply ZZ; exact Hi).
  destruct (exp_log_real_nan_refuted 53 1024 MO IM real_first r s s' Zr E2 E3 k Hk) as [X _]. replace (part real_first k) with k in X by (destruct k as [|[|[|[|k]]]]; try lia; reflexivity). exact X.
Qed.

(** ** Examples *)
Definition ex_pure : quat double := Quat (dbl 0 0) (dbl 1 0) (dbl 1 (-1)) (dbl (-1) 1).
Definition ex_exp_math : MathOps double := {|
  mfabs := Babs; mfmod := fun x _ => x; msqrt := Bsqrt mode_NE; mcos := fun _ => dbl 3 (-2); msin := fun _ => dbl 21 (-5); mtan := fun x => x;
  macos := fun x => dbl 1 0; masin := fun x => x; matan2 := fun x _ => x; mlog := fun x => x; mexp := fun _ => dbl 1 0; mpi := zero |}.
Example exp_log_case : let MO := ex_exp_math in ieee_math 53 1024 MO /\ (forall y : double, B2R y = 0 -> B2R (mexp y) = 1) /\ u_round 53 <= / 256 /\
  exists r s, q_exp real_first ex_pure = Ok r /\ q_log real_first ex_pure = Ok s /\ (forall k, (k < 4)%nat -> is_finite (qget ex_pure (part real_first k)) = true /\ is_finite (qget r (part real_first k)) = true /\ is_finite (qget s (part real_first k)) = true) /\
  let M := norm 3 (fun i => wxyz 53 1024 real_first ex_pure (S i)) in let N := norm 4 (wxyz 53 1024 real_first ex_pure) in square_in_range 1024 M /\ square_in_range 1024 N /\ M <= 8 /\
  (forall L : double, Rabs (B2R (mcos L) * B2R (mcos L) + B2R (msin L) * B2R (msin L) - 1) <= / 128).
Proof.
  intros MO. split; [split; reflexivity|]. split; [intros y _; change (mexp y) with (dbl 1 0); destruct (pow2_val 0 ltac:(lia)) as [_ V0]; rewrite V0; reflexivity|]. split; [change (/ 256) with (bpow radix2 (-8)); apply bpow_le; lia|].
  exists (match q_exp real_first ex_pure with Ok r => r | _ => ex_pure end), (match q_log real_first ex_pure with Ok r => r | _ => ex_pure end). split; [reflexivity|]. split; [reflexivity|]. split; [intros [|[|[|[|k]]]] Hk; [..|lia]; repeat split; vm_compute; reflexivity|]. intros M N.
  assert (MM : M * M = 21 / 4). { unfold M. rewrite norm_sq. unfold wxyz. cbn [rsum part oW oX oY oZ ex_pure qget q0 q1 q2 q3]. rewrite !(fun m e A B => proj2 (dbl_ok m e A B)) by lia. change (bpow radix2 0) with 1. change (bpow radix2 (-1)) with (/ 2). change (bpow radix2 1) with 2. lra. }
  assert (NN : N * N = 21 / 4). { unfold N. rewrite norm_sq. unfold wxyz. cbn [rsum part oW oX oY oZ ex_pure qget q0 q1 q2 q3]. assert (Vz : B2R (dbl 0 0) = 0) by reflexivity. rewrite Vz, !(fun m e A B => proj2 (dbl_ok m e A B)) by lia. change (bpow radix2 0) with 1. change (bpow radix2 (-1)) with (/ 2). change (bpow radix2 1) with 2. lra. }
  assert (B1 : bpow radix2 (3 - 1024) <= 1) by (change 1 with (bpow radix2 0); apply bpow_le; lia). assert (B2 : 8 <= bpow radix2 (1024 - 3)) by (change 8 with (bpow radix2 3); apply bpow_le; lia).
  split; [unfold square_in_range; lra|]. split; [unfold square_in_range; lra|]. split; [apply sq_le; lra|]. intros L. cbn [mcos msin MO ex_exp_math]. rewrite !(fun m e A B => proj2 (dbl_ok m e A B)) by lia. change (bpow radix2 (-2)) with (/ 4). change (bpow radix2 (-5)) with (/ 32). apply Rabs_le. lra.
Qed.
Print Assumptions exp_accuracy.
Print Assumptions exp_unit.
Print Assumptions log_accuracy.
Print Assumptions exp_log_real_nan_refuted.
Print Assumptions log_small_angle_refuted.
