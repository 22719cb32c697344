(** C95: axis and angle of a rotation in IEEE arithmetic. *)
From Coq Require Import ZArith Bool List Arith Lia Reals Lra.
From Flocq Require Import Core BinarySingleNaN.
From Verif Require Import Base RInst ScalarModel MiscModel VecModel RotModel XfModel GeoModel MatModel MatOps QuatModel FloatModel FloatFacts FloatNorm FloatDot PropFloat PropFloatLU FloatExpr PropFloatForm PropFloatNorm FloatRot PropFloatRot FloatScalar FrameFacts PropFloatFrame PropFloatPlanes PropFloatTurn PropFloatAngle.
Import ListNotations.
Open Scope R_scope.

(** ** What the functions compute *)
Section Eval.
Context {T : Type} {Op : Ops T} {MO : MathOps T}.
Lemma len3_vec (x y z : T) : vlength_squared [x; y; z] = Ok (length_squared3 x y z) /\ vlength [x; y; z] = Ok (len3 [x; y; z]) /\ vnormalize [x; y; z] = Ok (map (fun a => div a (len3 [x; y; z])) [x; y; z]).
Proof. repeat split; reflexivity. Qed.
Lemma be_diag (m : mx T) i : be m i i = mel m i i.
Proof. unfold be. destruct (mbasis m); reflexivity. Qed.
Definition skew_part (m : mx T) : list T := [sub (be m 1 2) (be m 2 1); sub (be m 2 0) (be m 0 2); sub (be m 0 1) (be m 1 0)].
Definition trace_less_one (m : mx T) : T := sub (add (add (be m 0 0) (be m 1 1)) (be m 2 2)) one.
Lemma to_axis_angle_eval (m : mx T) tol r : matrix_to_axis_angle m tol = Ok r -> ltb tol (len3 (skew_part m)) = true ->
  r = (map (fun a => div a (len3 (skew_part m))) (skew_part m), matan2 (len3 (skew_part m)) (trace_less_one m)).
Proof.
  intros E H. unfold matrix_to_axis_angle in E. apply check_ok in E. cbv zeta in E. unfold trace_less_one. rewrite !be_diag. change (ltb tol (len3 [sub (be m 1 2) (be m 2 1); sub (be m 2 0) (be m 0 2); sub (be m 0 1) (be m 1 0)]) = true) in H. rewrite H in E. apply ok_inj in E. subst r. reflexivity.
Qed.
End Eval.

Section IEEE.
Context (prec emax : Z) {Hprec : Prec_gt_0 prec} {Hmax : Prec_lt_emax prec emax}.
Notation F := (binary_float prec emax).
Notation u := (u_round prec).
Notation eta := (eta_min prec emax).
Notation val := (@B2R prec emax).
Notation fin x := (is_finite x = true).
Notation vals := (PropFloat.vals prec emax).
Notation three := (PropFloatFrame.three prec emax).
Notation B m := (fun i j => val (be m i j)).
Context (U256 : u <= / 256).

Definition square_in_range (M : R) : Prop := bpow radix2 (3 - emax) <= M * M <= bpow radix2 (emax - 3).
Lemma unit_from_near (w e : nat -> R) k : 0 <= k <= / 8 -> norm 3 e = 1 -> norm 3 (fun i => w i - e i) <= k -> unit_within 3 (17 / 8 * k) w.
Proof.
  intros K N D. unfold unit_within. rewrite <- norm_sq. pose proof (norm_dist 3 w e) as X. rewrite N in X. assert (Y : Rabs (norm 3 w - 1) <= k) by lra. replace (norm 3 w * norm 3 w - 1) with ((norm 3 w - 1) * (norm 3 w + 1)) by ring. rewrite Rabs_mult.
  assert (Rabs (norm 3 w + 1) <= 17 / 8) by (apply Rabs_le_inv in Y; apply Rabs_le; lra). rewrite Rmult_comm. apply Rmult_le_compat; auto using Rabs_pos.
Qed.
Lemma close_norm (w y : nat -> R) k : 0 <= k -> norm 3 y = 1 -> (forall i, (i < 3)%nat -> Rabs (w i - y i) <= k * Rabs (y i) + eta) -> norm 3 (fun i => w i - y i) <= k + 2 * eta.
Proof.
  intros K N H. pose proof (eta_pos prec emax) as Et. eapply Rle_trans; [apply (norm_le 3 _ (fun i => k * Rabs (y i) + eta)); exact H|]. eapply Rle_trans; [apply norm_triangle|]. rewrite norm_scal, norm_abs, norm_const, Rabs_pos_eq, N by lra.
  assert (S3 : 0 <= sqrt (INR 3) <= 2) by (split; [apply sqrt_pos|]; replace (INR 3) with 3 by (cbn; lra); apply sq_le; [lra|]; rewrite sqrt_sqrt; lra). assert (sqrt (INR 3) * eta <= 2 * eta) by (apply Rmult_le_compat_r; lra). lra.
Qed.
Lemma unit_of (v : nat -> R) : 0 < norm 3 v -> norm 3 (fun i => v i / norm 3 v) = 1.
Proof.
  intros H. rewrite (norm_ext 3 (fun i => v i / norm 3 v) (fun i => / norm 3 v * v i)) by (intros; unfold Rdiv; ring). rewrite norm_scal, Rabs_pos_eq by (left; apply Rinv_0_lt_compat; auto). field. lra.
Qed.
Lemma eta_u : eta <= / 128 * u.
Proof.
  destruct (eight_bits prec emax U256) as (U & _ & B9 & _). eapply Rle_trans; [apply eta_small|]. rewrite Rmult_comm. apply Rmult_le_compat_r; [lra|]. assert (X9 : (9 <= emax)%Z) by (change 512 with (bpow radix2 9) in B9; apply le_bpow in B9; auto).
  change (/ 128) with (bpow radix2 (-7)). apply bpow_le. lia.
Qed.
(** the axis: three numbers divided by their computed length *)
Lemma normal3 (MO : MathOps F) (IM : ieee_math prec emax MO) (v : list F) : three v -> let M := norm 3 (vals v) in square_in_range M ->
  0 < M /\ fin (len3 v) /\ Rabs (val (len3 v) - M) <= 16 * u * M /\
  forall i, (i < 3)%nat -> fin (el (map (fun a => div a (len3 v)) v) i) /\ Rabs (vals (map (fun a => div a (len3 v)) v) i - vals v i / M) <= 16 * u * Rabs (vals v i / M) + eta.
Proof.
  intros [L3 Fv] M [Lo Hi]. destruct v as [|x [|y [|z [|]]]]; try discriminate. destruct (len3_vec (MO := MO) x y z) as (E1 & E2 & E3). destruct (eight_bits prec emax U256) as (U & [Et Eu] & B9 & _).
  assert (M0 : 0 <= M) by apply norm_pos. assert (MM : norm2 prec emax [x; y; z] = M * M) by (unfold M; rewrite norm_sq; reflexivity). pose proof (bpow_gt_0 radix2 (3 - emax)) as Bp. assert (M1 : 0 < M) by (destruct (Req_dec M 0) as [Z|]; [rewrite Z in Lo; lra|lra]).
  assert (P3 : bpow radix2 emax = 8 * bpow radix2 (emax - 3)) by (change 8 with (bpow radix2 3); rewrite <- bpow_plus; f_equal; ring). pose proof (sq_pos M) as MP.
  assert (U2 : u * u <= / 256 * u) by (apply Rmult_le_compat_r; lra). assert (U3 : u * u * u <= / 65536 * u) by (apply Rmult_le_compat_r; lra). assert (Q3 : 0 <= (1 + u) ^ 3 <= 102 / 100) by (split; [apply pow_le; lra|cbn; lra]).
  assert (Fl : fin (length_squared3 x y z)).
  { assert (D : exists d, vdot [x; y; z] [x; y; z] = Ok d /\ fin d).
    { apply (dot_no_overflow prec emax); [discriminate|reflexivity| |].
      - intros a Ha. assert (In a [x; y; z]) as Ha' by tauto. destruct Ha' as [<-|[<-|[<-|[]]]]; [apply (Fv 0%nat)|apply (Fv 1%nat)|apply (Fv 2%nat)]; lia.
      - unfold fits. cbn [length]. rewrite (rsum_ext 3 _ (fun i => vals [x; y; z] i * vals [x; y; z] i)) by (intros; apply Rabs_pos_eq, sq_pos). rewrite <- norm_sq. fold M. replace (INR 3) with 3 by (cbn; lra).
        assert ((1 + u) ^ 3 * (M * M) <= 102 / 100 * bpow radix2 (emax - 3)) by (apply Rmult_le_compat; lra). assert ((1 + u) ^ 3 * eta <= 102 / 100 * eta) by (apply Rmult_le_compat_r; lra). lra. }
    destruct D as (d & Ed & Fd). cbn in Ed. apply ok_inj in Ed. subst d. exact Fd. }
  assert (I3 : INR 3 = 3) by (cbn; lra).
  destruct (length_accuracy prec emax IM [x; y; z] _ _ E1 Fl E2) as [FL DL]; [cbn [length]; rewrite I3; lra|rewrite MM; auto|]. rewrite MM, sqrt_square in DL by auto. cbn [length] in DL. rewrite I3 in DL.
  destruct (normalize_accuracy prec emax IM [x; y; z] _ _ E1 Fl E3) as (Lw & Fw & Dw); [cbn [length]; rewrite I3; lra|rewrite MM; auto|]. rewrite MM, sqrt_square in Dw by auto. cbn [length] in Dw. rewrite I3 in Dw.
  split; [exact M1|]. split; [exact FL|]. split; [lra|]. intros i Hi3. split; [apply Fw; apply nth_In; exact Hi3|]. eapply Rle_trans; [apply Dw; exact Hi3|]. lra.
Qed.

(** ** From a quaternion *)
Theorem quaternion_to_axis_angle_accuracy : forall (MO : MathOps F), ieee_math prec emax MO -> forall o (q : quat F) (tol : F) theta R0, (forall k, (k < 4)%nat -> fin (qget q (part o k))) -> fin tol ->
  let a := wxyz prec emax o q in let v i := a (S i) in let M := norm 3 v in square_in_range M -> 0 < R0 -> R0 * cos theta = a 0%nat -> R0 * sin theta = M ->
  let r := quaternion_to_axis_angle o q tol in
  (val tol < (1 - 16 * u) * M -> (forall i, (i < 3)%nat -> fin (el (fst r) i) /\ Rabs (vals (fst r) i - v i / M) <= 16 * u * Rabs (v i / M) + eta) /\ unit_within 3 (35 * u) (vals (fst r)) /\
    exists s, snd r = mul Base.two (matan2 s (qget q (oW o))) /\ fin s /\ angle_within (19 * u) theta (val s) (a 0%nat)) /\
  ((1 + 16 * u) * M <= val tol -> r = ([zero; zero; zero], zero)).
Proof.
  intros MO IM o q tol theta R0 Fq Ft a v M HM R1 Hc Hs r. destruct (eight_bits prec emax U256) as (U & [Et Eu] & B9 & _). pose proof eta_u as EU.
  set (ax := [imag o (qget q) 0; imag o (qget q) 1; imag o (qget q) 2]). assert (Pt : forall i, (i < 3)%nat -> el ax i = qget q (part o (S i))) by (intros [|[|[|i]]] Hi; [..|lia]; unfold ax, imag; destruct o; reflexivity).
  assert (Tx : three ax) by (split; [reflexivity|]; intros i Hi; rewrite Pt by auto; apply Fq; lia).
  assert (Vx : forall i, (i < 3)%nat -> vals ax i = v i) by (intros i Hi; unfold PropFloat.vals; change (nth i ax zero) with (el ax i); rewrite Pt by auto; reflexivity).
  assert (Nx : norm 3 (vals ax) = M) by (unfold M; apply norm_ext; exact Vx).
  destruct (normal3 MO IM ax Tx ltac:(rewrite Nx; exact HM)) as (M1 & Fl & Dl & W). rewrite Nx in M1, Dl.
  assert (Lt : ltb tol (len3 ax) = Rlt_bool (val tol) (val (len3 ax))) by (apply ltb_val; auto). assert (Dl' := Dl). apply Rabs_le_inv in Dl'.
  assert (Er : r = if ltb tol (len3 ax) then (map (fun x => div x (len3 ax)) ax, mul Base.two (matan2 (len3 ax) (qget q (oW o)))) else ([zero; zero; zero], zero)) by reflexivity. clearbody r. rewrite Lt in Er. split; intros Ht.
  - rewrite Rlt_bool_true in Er by lra. subst r. cbn [fst snd].
    assert (A : forall i, (i < 3)%nat -> fin (el (map (fun x => div x (len3 ax)) ax) i) /\ Rabs (vals (map (fun x => div x (len3 ax)) ax) i - v i / M) <= 16 * u * Rabs (v i / M) + eta) by (intros i Hi; destruct (W i Hi) as [X Y]; rewrite Nx, Vx in Y by auto; split; auto).
    split; [exact A|]. split.
    + assert (N1 : norm 3 (fun i => v i / M) = 1) by (apply unit_of; exact M1). pose proof (close_norm _ (fun i => v i / M) (16 * u) ltac:(lra) N1 (fun i Hi => proj2 (A i Hi))) as C.
      pose proof (unit_from_near _ _ (16 * u + 2 * eta) ltac:(lra) N1 C) as X. unfold unit_within in *. lra.
    + exists (len3 ax). split; [reflexivity|]. split; [exact Fl|].
      assert (MR : M <= R0) by (rewrite <- Hs; pose proof (SIN_bound theta); rewrite <- (Rmult_1_r R0) at 2; apply Rmult_le_compat_l; lra).
      assert (Ds : Rabs (val (len3 ax) - R0 * sin theta) <= 16 * u * R0) by (rewrite Hs; eapply Rle_trans; [exact Dl|]; apply Rmult_le_compat_l; lra).
      assert (Dc : Rabs (a 0%nat - R0 * cos theta) <= 0 * R0) by (rewrite Hc, Rminus_diag_eq, Rabs_R0 by reflexivity; lra).
      split. { apply (not_origin R0 theta _ _ (16 * u)); auto; [|lra]. eapply Rle_trans; [exact Dc|]. apply Rmult_le_compat_r; lra. }
      intros t rho P Vc Vs. destruct (angle_close R0 (16 * u) _ _ theta rho t 0 R1 P Ds Dc ltac:(lra) Vc Vs) as [X Y]. split; [lra|exact Y].
  - rewrite Rlt_bool_false in Er by lra. exact Er.
Qed.

(** ** From a matrix *)
(** twice the sine of the angle times the axis, and twice its cosine, when the matrix is a rotation *)
Definition skew (b : nat -> nat -> R) (i : nat) : R := match i with 0%nat => b 1%nat 2%nat - b 2%nat 1%nat | 1%nat => b 2%nat 0%nat - b 0%nat 2%nat | _ => b 0%nat 1%nat - b 1%nat 0%nat end.
Definition trace1 (b : nat -> nat -> R) : R := b 0%nat 0%nat + b 1%nat 1%nat + b 2%nat 2%nat - 1.
Theorem matrix_to_axis_angle_accuracy : forall (MO : MathOps F), ieee_math prec emax MO -> forall (m : mx F) (tol : F) r theta L, matrix_to_axis_angle m tol = Ok r -> fin tol ->
  (forall i j, (i < 3)%nat -> (j < 3)%nat -> fin (be m i j) /\ Rabs (B m i j) <= 9 / 8) ->
  let v := skew (B m) in let M := norm 3 v in bpow radix2 (4 - emax) <= M * M -> 3 / 2 <= L -> L * cos theta = trace1 (B m) -> L * sin theta = M ->
  val tol < (1 - 18 * u) * M ->
  (forall i, (i < 3)%nat -> fin (el (fst r) i) /\ Rabs (vals (fst r) i - v i / M) <= 19 * u * Rabs (v i / M) + eta) /\ unit_within 3 (41 * u) (vals (fst r)) /\
  exists s c, snd r = matan2 s c /\ fin s /\ fin c /\ angle_within (29 * u) theta (val s) (val c).
Proof.
  intros MO IM m tol r theta L E Ft Hm v M Lo L1 Hc Hs Ht. destruct (eight_bits prec emax U256) as (U & [Et Eu] & B9 & _). pose proof eta_u as EU.
  assert (Fm : forall i j, (i < 3)%nat -> (j < 3)%nat -> fin (be m i j)) by (intros; apply Hm; auto). assert (Am : forall i j, (i < 3)%nat -> (j < 3)%nat -> -9 / 8 <= val (be m i j) <= 9 / 8) by (intros i j Hi Hj; destruct (Hm i j Hi Hj) as [_ A]; apply Rabs_le_inv in A; lra).
  assert (M0 : 0 <= M) by apply norm_pos. pose proof (bpow_gt_0 radix2 (4 - emax)) as Bp. assert (M1 : 0 < M) by (destruct (Req_dec M 0) as [Z|]; [rewrite Z in Lo; lra|lra]).
  assert (Sb : forall i j k l, (i < 3)%nat -> (j < 3)%nat -> (k < 3)%nat -> (l < 3)%nat -> fin (sub (be m i j) (be m k l)) /\ exists d, Rabs d <= u /\ val (sub (be m i j) (be m k l)) = (val (be m i j) - val (be m k l)) * (1 + d)).
  { intros i j k l Hi Hj Hk Hl. pose proof (Am i j Hi Hj). pose proof (Am k l Hk Hl). assert (A : Rabs (val (be m i j) - val (be m k l)) <= 3) by (apply Rabs_le; lra). assert (Fz : fin (sub (be m i j) (be m k l))).
    { apply sub_fits; auto. assert ((1 + u) * Rabs (val (be m i j) - val (be m k l)) <= 2 * 3) by (apply Rmult_le_compat; try lra; apply Rabs_pos). lra. }
    split; [exact Fz|]. apply (sub_err prec emax _ _ Fz). }
  set (x := skew_part m). assert (Cl : forall i, (i < 3)%nat -> fin (el x i) /\ exists d, Rabs d <= u /\ vals x i = v i * (1 + d)) by (intros [|[|[|i]]] Hi; [..|lia]; apply Sb; lia).
  assert (Tx : three x) by (split; [reflexivity|]; intros; apply Cl; auto).
  assert (Dx : forall i, (i < 3)%nat -> Rabs (vals x i - v i) <= u * Rabs (v i)). { intros i Hi. destruct (Cl i Hi) as (_ & d & D & V). rewrite V. replace (v i * (1 + d) - v i) with (d * v i) by ring. rewrite Rabs_mult. apply Rmult_le_compat_r; auto using Rabs_pos. }
  set (X := norm 3 (vals x)). assert (MX : Rabs (X - M) <= u * M). { eapply Rle_trans; [apply norm_dist|]. eapply Rle_trans; [apply (norm_le 3 _ (fun i => u * Rabs (v i))); exact Dx|]. rewrite norm_scal, norm_abs, Rabs_pos_eq by lra. fold M. lra. }
  assert (UM : 0 < u * M <= / 256 * M) by (split; [apply Rmult_lt_0_compat; lra|apply Rmult_le_compat_r; lra]). assert (XB : 255 / 256 * M <= X <= 257 / 256 * M) by (apply Rabs_le_inv in MX; lra).
  assert (MB : M <= 5). { apply sq_le; [lra|]. unfold M. rewrite norm_sq. assert (V : forall i, (i < 3)%nat -> v i * v i <= 9 / 4 * (9 / 4)). { intros i Hi. assert (A : Rabs (v i) <= 9 / 4) by (unfold v, skew; destruct i as [|[|[|i]]]; [..|lia]; pose proof (Am 1 2)%nat; pose proof (Am 2 1)%nat; pose proof (Am 2 0)%nat; pose proof (Am 0 2)%nat; pose proof (Am 0 1)%nat; pose proof (Am 1 0)%nat; apply Rabs_le; specialize (H ltac:(lia) ltac:(lia)); specialize (H0 ltac:(lia) ltac:(lia)); specialize (H1 ltac:(lia) ltac:(lia)); specialize (H2 ltac:(lia) ltac:(lia)); specialize (H3 ltac:(lia) ltac:(lia)); specialize (H4 ltac:(lia) ltac:(lia)); lra).
      rewrite <- (Rabs_pos_eq (v i * v i)) by apply sq_pos. rewrite Rabs_mult. apply Rmult_le_compat; auto using Rabs_pos. }
    cbn [rsum]. pose proof (V 0%nat ltac:(lia)). pose proof (V 1%nat ltac:(lia)). pose proof (V 2%nat ltac:(lia)). lra. }
  assert (P3 : bpow radix2 emax = 8 * bpow radix2 (emax - 3)) by (change 8 with (bpow radix2 3); rewrite <- bpow_plus; f_equal; ring). assert (P4 : bpow radix2 (4 - emax) = 2 * bpow radix2 (3 - emax)) by (change 2 with (bpow radix2 1); rewrite <- bpow_plus; f_equal; ring).
  assert (XR : square_in_range X). { split; [assert ((255 / 256 * M) * (255 / 256 * M) <= X * X) by (apply Rmult_le_compat; lra); lra|assert (X * X <= (257 / 256 * 5) * (257 / 256 * 5)) by (apply Rmult_le_compat; lra); lra]. }
  destruct (normal3 MO IM x Tx XR) as (X1 & Fl & Dl & W). fold X in Dl, W, X1. assert (UX : u * X <= u * (257 / 256 * M)) by (apply Rmult_le_compat_l; lra).
  assert (DM : Rabs (val (len3 x) - M) <= 18 * u * M) by (replace (val (len3 x) - M) with ((val (len3 x) - X) + (X - M)) by ring; eapply Rle_trans; [apply Rabs_triang|]; lra). assert (DM' := DM). apply Rabs_le_inv in DM'.
  assert (Lt : ltb tol (len3 x) = true) by (rewrite (ltb_val prec emax) by auto; apply Rlt_bool_true; lra). rewrite (to_axis_angle_eval m tol r E Lt). cbn [fst snd]. fold x.
  assert (A : forall i, (i < 3)%nat -> fin (el (map (fun a => div a (len3 x)) x) i) /\ Rabs (vals (map (fun a => div a (len3 x)) x) i - v i / M) <= 19 * u * Rabs (v i / M) + eta).
  { intros i Hi. destruct (W i Hi) as [Fi Di]. split; [exact Fi|]. destruct (Cl i Hi) as (_ & d & D & V). set (mu := X / M - 1). assert (VX : X = M * (1 + mu)) by (unfold mu; field; lra).
    assert (Hmu : Rabs mu <= u). { apply Rmult_le_reg_r with M; auto. rewrite <- (Rabs_pos_eq M) at 1 by lra. rewrite <- Rabs_mult. replace (mu * M) with (X - M) by (rewrite VX; ring). exact MX. }
    apply Rabs_le_inv in Hmu. set (y := v i / M) in *. set (t := (d - mu) / (1 + mu)). assert (Vy : vals x i / X = y * (1 + t)) by (unfold t, y; rewrite V, VX; field; lra).
    assert (Bt : Rabs t <= 9 / 4 * u). { unfold t, Rdiv. rewrite Rabs_mult, Rabs_inv. apply Rmult_le_reg_r with (Rabs (1 + mu)); [apply Rabs_pos_lt; lra|]. rewrite Rmult_assoc, Rinv_l by (apply Rabs_no_R0; lra). rewrite (Rabs_pos_eq (1 + mu)) by lra. apply Rabs_le_inv in D. assert (u * (1 + mu) >= u * (255 / 256)) by (apply Rle_ge, Rmult_le_compat_l; lra). apply Rle_trans with (2 * u); [|lra]. rewrite Rmult_1_r. apply Rabs_le. lra. }
    rewrite Vy in Di. pose proof (Rabs_pos y) as Y0. assert (Bt' := Bt). apply Rabs_le_inv in Bt'. assert (Tb : Rabs (y * (1 + t)) <= 103 / 102 * Rabs y) by (rewrite Rabs_mult, Rmult_comm; apply Rmult_le_compat_r; auto; apply Rabs_le; lra).
    assert (UT : u * Rabs (y * (1 + t)) <= u * (103 / 102 * Rabs y)) by (apply Rmult_le_compat_l; lra). assert (Yt : Rabs (y * (1 + t) - y) <= 9 / 4 * u * Rabs y) by (replace (y * (1 + t) - y) with (t * y) by ring; rewrite Rabs_mult; apply Rmult_le_compat_r; auto). assert (UY : 0 <= u * Rabs y) by (apply Rmult_le_pos; lra).
    match goal with |- Rabs (?w - y) <= _ => replace (w - y) with ((w - y * (1 + t)) + (y * (1 + t) - y)) by ring end. eapply Rle_trans; [apply Rabs_triang|]. lra. }
  split; [exact A|]. split.
  - assert (N1 : norm 3 (fun i => v i / M) = 1) by (apply unit_of; exact M1). pose proof (close_norm _ (fun i => v i / M) (19 * u) ltac:(lra) N1 (fun i Hi => proj2 (A i Hi))) as C.
    pose proof (unit_from_near _ _ (19 * u + 2 * eta) ltac:(lra) N1 C) as Y. unfold unit_within in *. lra.
  - exists (len3 x), (trace_less_one m). split; [reflexivity|]. split; [exact Fl|].
    pose proof (Am 0 0)%nat as A0. pose proof (Am 1 1)%nat as A1. pose proof (Am 2 2)%nat as A2. specialize (A0 ltac:(lia) ltac:(lia)). specialize (A1 ltac:(lia) ltac:(lia)). specialize (A2 ltac:(lia) ltac:(lia)).
    assert (Fit : forall q, Rabs q <= 6 -> (1 + u) * Rabs q < bpow radix2 emax) by (intros q Hq; assert ((1 + u) * Rabs q <= 2 * 6) by (apply Rmult_le_compat; try lra; apply Rabs_pos); lra).
    assert (F1 : fin (add (be m 0 0) (be m 1 1))) by (apply add_fits; auto; apply Fit, Rabs_le; lra). destruct (add_err prec emax _ _ F1) as (_ & _ & d1 & D1 & V1).
    assert (E1 : forall z d b, Rabs z <= b -> Rabs d <= u -> Rabs (z * (1 + d) - z) <= u * b) by (intros z d b Z D; replace (z * (1 + d) - z) with (d * z) by ring; rewrite Rabs_mult; apply Rmult_le_compat; auto using Rabs_pos).
    pose proof (E1 (val (be m 0 0) + val (be m 1 1)) d1 (9 / 4) ltac:(apply Rabs_le; lra) D1) as G1. rewrite <- V1 in G1. apply Rabs_le_inv in G1.
    assert (F2 : fin (add (add (be m 0 0) (be m 1 1)) (be m 2 2))) by (apply add_fits; auto; apply Fit, Rabs_le; lra). destruct (add_err prec emax _ _ F2) as (_ & _ & d2 & D2 & V2).
    pose proof (E1 (val (add (be m 0 0) (be m 1 1)) + val (be m 2 2)) d2 (34 / 10) ltac:(apply Rabs_le; lra) D2) as G2. rewrite <- V2 in G2. apply Rabs_le_inv in G2. destruct (val_1 prec emax) as [O1 O2].
    assert (F3 : fin (trace_less_one m)) by (unfold trace_less_one; apply sub_fits; auto; rewrite O1; apply Fit, Rabs_le; lra). destruct (sub_err prec emax _ _ F3) as (_ & _ & d3 & D3 & V3). rewrite O1 in V3.
    pose proof (E1 (val (add (add (be m 0 0) (be m 1 1)) (be m 2 2)) - 1) d3 (445 / 100) ltac:(apply Rabs_le; lra) D3) as G3. rewrite <- V3 in G3. change (sub (add (add (be m 0 0) (be m 1 1)) (be m 2 2)) one) with (trace_less_one m) in G3. apply Rabs_le_inv in G3. split; [exact F3|].
    assert (UL : u * (3 / 2) <= u * L) by (apply Rmult_le_compat_l; lra).
    assert (Dc : Rabs (val (trace_less_one m) - L * cos theta) <= 7 * u * L) by (rewrite Hc; unfold trace1; apply Rabs_le; lra).
    assert (ML : M <= L) by (rewrite <- Hs; pose proof (SIN_bound theta); rewrite <- (Rmult_1_r L) at 2; apply Rmult_le_compat_l; lra).
    assert (Ds : Rabs (val (len3 x) - L * sin theta) <= 18 * u * L) by (rewrite Hs; eapply Rle_trans; [exact DM|]; apply Rmult_le_compat_l; lra).
    split. { apply (not_origin L theta _ _ (18 * u)); auto; lra. }
    intros t rho P Vc Vs. destruct (angle_close L (18 * u) _ _ theta rho t (7 * u) ltac:(lra) P Ds Dc ltac:(lra) Vc Vs) as [X' Y]. split; [lra|exact Y].
Qed.
End IEEE.

(** ** Examples in double precision *)
(** 4 + i + 2j + 2k: the axis (1, 2, 2) / 3 and the half angle acos(4/5) *)
Definition ex_rot : quat double := Quat (dbl 4 0) (dbl 1 0) (dbl 2 0) (dbl 2 0).
Lemma ex_rot_val i : (i < 4)%nat -> is_finite (qget ex_rot (part real_first i)) = true /\ wxyz 53 1024 real_first ex_rot i = match i with 0%nat => 4 | 1%nat => 1 | _ => 2 end.
Proof.
  assert (W : forall n (x : double), is_finite x = true /\ B2R x = IZR n * bpow radix2 0 -> is_finite x = true /\ B2R x = IZR n) by (intros n x [A C]; split; [exact A|rewrite C; cbn; ring]).
  intros Hi. destruct i as [|[|[|[|i]]]]; [..|lia]; [apply (W 4%Z)|apply (W 1%Z)|apply (W 2%Z)|apply (W 2%Z)]; apply dbl_ok; lia.
Qed.
Lemma sq_range M : / 2 <= M <= 8 -> square_in_range 1024 M.
Proof.
  intros H. split.
  - apply Rle_trans with (bpow radix2 (-2)); [apply bpow_le; lia|]. assert (/ 2 * / 2 <= M * M) by (apply Rmult_le_compat; lra). cbn. lra.
  - apply Rle_trans with (bpow radix2 10); [|apply bpow_le; lia]. assert (M * M <= 8 * 8) by (apply Rmult_le_compat; lra). cbn. lra.
Qed.
Example quaternion_to_axis_angle_case : let r := @quaternion_to_axis_angle double _ turn_math real_first ex_rot (dbl 1 (-20)) in
  Rabs (B2R (el (fst r) 1) - 2 / 3) <= / 10000000000 /\ exists s, snd r = mul Base.two (@matan2 double turn_math s (dbl 4 0)) /\ angle_within (/ 10000000000) (acos (4 / 5)) (B2R s) 4.
Proof.
  pose proof u53_small as U. pose proof eta53 as Et. assert (U2 : u_round 53 <= / 256) by lra. assert (IM : ieee_math 53 1024 turn_math) by (split; reflexivity).
  set (v := fun i => wxyz 53 1024 real_first ex_rot (S i)). assert (NM : norm 3 v = 3).
  { assert (Q : norm 3 v * norm 3 v = 9) by (rewrite norm_sq; cbn [rsum]; unfold v; rewrite !(fun i H => proj2 (ex_rot_val i H)) by lia; ring). pose proof (norm_pos 3 v). apply Rle_antisym; apply sq_le; lra. }
  assert (Ft : is_finite (dbl 1 (-20)) = true /\ B2R (dbl 1 (-20)) < 1) by (destruct (dbl_ok 1 (-20)) as [A C]; [lia|lia|]; split; [exact A|rewrite C; cbn; lra]). destruct Ft as [Ft Vt].
  assert (S5 : sin (acos (4 / 5)) = 3 / 5) by (rewrite sin_acos by lra; replace (1 - (4 / 5)²) with ((3 / 5) * (3 / 5)) by (unfold Rsqr; field); apply sqrt_square; lra).
  destruct (quaternion_to_axis_angle_accuracy 53 1024 U2 turn_math IM real_first ex_rot (dbl 1 (-20)) (acos (4 / 5)) 5) as [X _].
  - intros k Hk. apply ex_rot_val. exact Hk.
  - exact Ft.
  - change (square_in_range 1024 (norm 3 v)). rewrite NM. apply sq_range. lra.
  - lra.
  - rewrite cos_acos by lra. rewrite (proj2 (ex_rot_val 0 ltac:(lia))). lra.
  - change (5 * sin (acos (4 / 5)) = norm 3 v). rewrite NM, S5. lra.
  - change (norm 3 (fun i => wxyz 53 1024 real_first ex_rot (S i))) with (norm 3 v) in X. rewrite NM in X. destruct X as (A & _ & s & E & _ & NZ & Y); [lra|]. split.
    + destruct (A 1%nat ltac:(lia)) as [_ D]. rewrite (proj2 (ex_rot_val 2 ltac:(lia))), (Rabs_pos_eq (2 / 3)) in D by lra. eapply Rle_trans; [exact D|]. assert (eta_min 53 1024 <= / 1000000000000) by (apply Rle_trans with (bpow radix2 (-40)); [apply bpow_le; unfold SpecFloat.emin; lia|cbn; lra]). lra.
    + exists s. split; [exact E|]. rewrite (proj2 (ex_rot_val 0 ltac:(lia))) in NZ, Y. split; [exact NZ|]. intros t rho P Vc Vs. destruct (Y t rho P Vc Vs) as [Z1 Z2]. split; [|exact Z2]. eapply Rle_trans; [exact Z1|]. lra.
Qed.
(** the rotation by 120 degrees about (1, 1, 1): a permutation of the coordinate axes *)
Definition ex_perm : mx double := Mx 3 3 row_basis (fun i j => nth j (nth i [[dbl 0 0; dbl 1 0; dbl 0 0]; [dbl 0 0; dbl 0 0; dbl 1 0]; [dbl 1 0; dbl 0 0; dbl 0 0]] []) zero).
Definition perm_value (i j : nat) : R := match i, j with 0%nat, 1%nat => 1 | 1%nat, 2%nat => 1 | 2%nat, 0%nat => 1 | _, _ => 0 end.
Lemma ex_perm_val i j : (i < 3)%nat -> (j < 3)%nat -> is_finite (be ex_perm i j) = true /\ B2R (be ex_perm i j) = perm_value i j.
Proof.
  intros Hi Hj. destruct i as [|[|[|i]]]; try lia; destruct j as [|[|[|j]]]; try lia;
    (match goal with |- is_finite ?x = true /\ B2R ?x = ?r => let y := eval cbn [be ex_perm mbasis mel nth] in x in change (is_finite y = true /\ B2R y = r) end); cbn [perm_value];
    (match goal with |- context [dbl ?m ?e] => destruct (dbl_ok m e) as [X Y]; [lia|lia|split; [exact X|rewrite Y; cbn; lra]] end).
Qed.
Example matrix_to_axis_angle_case : exists r, @matrix_to_axis_angle double _ turn_math ex_perm (dbl 1 (-20)) = Ok r /\ Rabs (B2R (el (fst r) 1) - 1 / sqrt 3) <= / 1000000 /\
  exists s c, snd r = @matan2 double turn_math s c /\ angle_within (/ 10000000000) (2 * (PI / 3)) (B2R s) (B2R c).
Proof.
  assert (E : exists r, @matrix_to_axis_angle double _ turn_math ex_perm (dbl 1 (-20)) = Ok r) by (eexists; reflexivity). destruct E as [r E]. exists r. split; [exact E|].
  pose proof u53_small as U. pose proof eta53 as Et. assert (U2 : u_round 53 <= / 256) by lra. assert (IM : ieee_math 53 1024 turn_math) by (split; reflexivity).
  set (v := skew (fun i j => B2R (be ex_perm i j))). assert (V : forall i, (i < 3)%nat -> v i = 1) by (intros [|[|[|i]]] Hi; [..|lia]; unfold v, skew; cbv beta iota; rewrite !(fun i j H K => proj2 (ex_perm_val i j H K)) by lia; cbn [perm_value]; ring).
  assert (S3 : 0 < sqrt 3 /\ sqrt 3 * sqrt 3 = 3) by (split; [apply sqrt_lt_R0; lra|apply sqrt_sqrt; lra]). destruct S3 as [S0 S3]. assert (S1 : 17 / 10 <= sqrt 3 <= 18 / 10) by (split; apply sq_le; lra).
  assert (NM : norm 3 v = sqrt 3) by (unfold norm; f_equal; cbn [rsum]; rewrite !V by lia; ring).
  assert (Ft : is_finite (dbl 1 (-20)) = true /\ B2R (dbl 1 (-20)) < 1) by (destruct (dbl_ok 1 (-20)) as [A C]; [lia|lia|]; split; [exact A|rewrite C; cbn; lra]). destruct Ft as [Ft Vt].
  destruct (matrix_to_axis_angle_accuracy 53 1024 U2 turn_math IM ex_perm (dbl 1 (-20)) r (2 * (PI / 3)) 2 E Ft) as (A & _ & s & c & Es & _ & _ & NZ & Y).
  - intros i j Hi Hj. destruct (ex_perm_val i j Hi Hj) as [F1 V1]. split; [exact F1|]. assert (Y : forall y, y = perm_value i j -> Rabs y <= 9 / 8); [|exact (Y _ V1)]. intros y ->. apply Rabs_le. clear -Hi Hj. destruct i as [|[|[|i]]]; try lia; destruct j as [|[|[|j]]]; try lia; cbn [perm_value]; lra.
  - change (bpow radix2 (4 - 1024) <= norm 3 v * norm 3 v). rewrite NM, S3. apply Rle_trans with (bpow radix2 0); [apply bpow_le; lia|cbn; lra].
  - lra.
  - rewrite cos_2PI3. unfold trace1. assert (Y : forall a b c, a = 0 -> b = 0 -> c = 0 -> 2 * (-1 / 2) = a + b + c - 1) by (intros; lra). apply Y; [apply (ex_perm_val 0 0)|apply (ex_perm_val 1 1)|apply (ex_perm_val 2 2)]; lia.
  - change (2 * sin (2 * (PI / 3)) = norm 3 v). rewrite NM, sin_2PI3. lra.
  - change (B2R (dbl 1 (-20)) < (1 - 18 * u_round 53) * norm 3 v). rewrite NM. assert (9 / 10 * (17 / 10) <= (1 - 18 * u_round 53) * sqrt 3) by (apply Rmult_le_compat; lra). lra.
  - split.
    + assert (I : 0 < 1 / sqrt 3 <= 1). { split; [apply Rdiv_lt_0_compat; lra|]. apply Rmult_le_reg_r with (sqrt 3); auto. unfold Rdiv. rewrite Rmult_assoc, Rinv_l by lra. lra. }
      assert (Z : forall w x M, x = 1 -> M = sqrt 3 -> Rabs (w - x / M) <= 19 * u_round 53 * Rabs (x / M) + eta_min 53 1024 -> Rabs (w - 1 / sqrt 3) <= / 1000000).
      { intros w x M -> -> D. rewrite (Rabs_pos_eq (1 / sqrt 3)) in D by lra. eapply Rle_trans; [exact D|]. assert (19 * u_round 53 * (1 / sqrt 3) <= 19 * u_round 53 * 1) by (apply Rmult_le_compat_l; lra). assert (eta_min 53 1024 <= / 1000000000000) by (apply Rle_trans with (bpow radix2 (-40)); [apply bpow_le; unfold SpecFloat.emin; lia|cbn; lra]). lra. }
      exact (Z _ _ _ (V 1%nat ltac:(lia)) NM (proj2 (A 1%nat ltac:(lia)))).
    + exists s, c. split; [exact Es|]. split; [exact NZ|]. intros t rho P Vc Vs. destruct (Y t rho P Vc Vs) as [Z1 Z2]. split; [|exact Z2]. eapply Rle_trans; [exact Z1|]. lra.
Qed.
Print Assumptions quaternion_to_axis_angle_accuracy. Print Assumptions matrix_to_axis_angle_accuracy.
