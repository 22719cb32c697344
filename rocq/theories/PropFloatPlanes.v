(** C93: frustum planes in IEEE arithmetic. *)
From Coq Require Import ZArith Bool List Arith Lia Reals Lra.
From Flocq Require Import Core BinarySingleNaN.
From Verif Require Import Base RInst ScalarModel MiscModel VecModel RotModel XfModel GeoModel MatModel MatOps FloatModel FloatFacts FloatNorm FloatDot PropFloat PropFloatLU FloatExpr PropFloatForm PropFloatNorm FloatRot PropFloatRot PropFloatFrame.
Import ListNotations.
Open Scope R_scope.

(** ** Specification *)
(** the distances of the clip coordinates [c] = (x, y, z, w) from the six clip planes, in the order left, right, bottom, top, near, far:
    all of them are nonnegative exactly inside the clip volume *)
Definition slack (z : zclip) (c : nat -> R) (k : nat) : R := match k with
  | 0%nat => c 3%nat + c 0%nat | 1%nat => c 3%nat - c 0%nat
  | 2%nat => c 3%nat + c 1%nat | 3%nat => c 3%nat - c 1%nat
  | 4%nat => match z with z_clip_neg_one => c 3%nat + c 2%nat | z_clip_zero => c 2%nat end
  | _ => c 3%nat - c 2%nat end.
(** coefficient [i] of plane [k] of the matrix with basis elements [B] *)
Definition plane (z : zclip) (B : nat -> nat -> R) (k i : nat) : R := slack z (B i) k.
(** the clip coordinates of the point (p 0, p 1, p 2, p 3) *)
Definition clip_coordinates (B : nat -> nat -> R) (p : nat -> R) (j : nat) : R := rsum 4 (fun i => p i * B i j).
(** the plane evaluated at a point is the slack of its clip coordinates *)
Lemma plane_is_slack z B p k : rsum 4 (fun i => p i * plane z B k i) = slack z (clip_coordinates B p) k.
Proof. unfold plane, clip_coordinates. destruct k as [|[|[|[|[|k]]]]]; cbn [slack rsum]; try destruct z; ring. Qed.

(** ** What the function computes *)
Section Eval.
Context {T : Type} {Op : Ops T} {MO : MathOps T}.
Definition code_plane (z : zclip) (m : mx T) (k i : nat) : T := match k with
  | 0%nat => add (be m i 3) (be m i 0) | 1%nat => sub (be m i 3) (be m i 0)
  | 2%nat => add (be m i 3) (be m i 1) | 3%nat => sub (be m i 3) (be m i 1)
  | 4%nat => match z with z_clip_neg_one => add (be m i 3) (be m i 2) | z_clip_zero => be m i 2 end
  | _ => sub (be m i 3) (be m i 2) end.
Lemma planes_eval m z normalize P : extract_frustum_planes m z normalize = Ok P -> length P = 6%nat /\ forall k, (k < 6)%nat -> length (nth k P []) = 4%nat /\ forall i, (i < 4)%nat ->
  let c := code_plane z m k in el (nth k P []) i = if normalize then div (c i) (length3 (c 0%nat) (c 1%nat) (c 2%nat)) else c i.
Proof.
  intros E. unfold extract_frustum_planes in E. apply bind_ok in E. destruct E as (near & En & E). unfold extract_near_frustum_plane in En. apply bind_ok in En. destruct En as ([] & _ & En). apply ok_inj in En. subst near. apply ok_inj in E. subst P.
  split; [destruct normalize; reflexivity|]. intros k Hk. 
  destruct normalize, z; destruct k as [|[|[|[|[|[|k]]]]]]; try lia; (split; [reflexivity|]); intros i Hi; destruct i as [|[|[|[|i]]]]; try lia; reflexivity.
Qed.
Lemma length3_vec (x y z : T) : vlength_squared [x; y; z] = Ok (length_squared3 x y z) /\ vlength [x; y; z] = Ok (length3 x y z).
Proof. split; reflexivity. Qed.
End Eval.

Section IEEE.
Context (prec emax : Z) {Hprec : Prec_gt_0 prec} {Hmax : Prec_lt_emax prec emax}.
Notation F := (binary_float prec emax).
Notation u := (u_round prec).
Notation eta := (eta_min prec emax).
Notation val := (@B2R prec emax).
Notation fin x := (is_finite x = true).
Notation B m := (fun i j => val (be m i j)).
Context (U256 : u <= / 256).


(** ** Plain planes *)
Lemma code_plane_close (m : mx F) z k i : (forall j, (j < 4)%nat -> fin (be m i j)) -> (1 + u) * Rabs (plane z (B m) k i) < bpow radix2 emax ->
  fin (code_plane z m k i) /\ exists d, Rabs d <= u /\ val (code_plane z m k i) = plane z (B m) k i * (1 + d).
Proof.
  intros Fm Fit. pose proof (u_pos prec) as U. assert (Fs : forall j, (j < 4)%nat -> fin (be m i j)) by auto. unfold plane in *.
  assert (Ad : forall x y : F, fin x -> fin y -> (1 + u) * Rabs (val x + val y) < bpow radix2 emax -> fin (add x y) /\ exists d, Rabs d <= u /\ val (add x y) = (val x + val y) * (1 + d)) by (intros x y Fx Fy H; assert (Fz := add_fits prec emax x y Fx Fy H); split; [auto|]; apply (add_err prec emax x y Fz)).
  assert (Su : forall x y : F, fin x -> fin y -> (1 + u) * Rabs (val x - val y) < bpow radix2 emax -> fin (sub x y) /\ exists d, Rabs d <= u /\ val (sub x y) = (val x - val y) * (1 + d)) by (intros x y Fx Fy H; assert (Fz := sub_fits prec emax x y Fx Fy H); split; [auto|]; apply (sub_err prec emax x y Fz)).
  destruct k as [|[|[|[|[|k]]]]]; cbn [slack code_plane] in *; try (apply Ad; auto; apply Fs; lia); try (apply Su; auto; apply Fs; lia). destruct z; try (apply Ad; auto; apply Fs; lia). split; [apply Fs; lia|]. exists 0. rewrite Rabs_R0. split; [lra|ring].
Qed.
Theorem frustum_planes_accuracy : forall (MO : MathOps F) (m : mx F) z P, extract_frustum_planes m z false = Ok P -> (forall i j, (i < 4)%nat -> (j < 4)%nat -> fin (be m i j)) ->
  (forall k i, (k < 6)%nat -> (i < 4)%nat -> (1 + u) * Rabs (plane z (B m) k i) < bpow radix2 emax) ->
  length P = 6%nat /\ forall k, (k < 6)%nat -> length (nth k P []) = 4%nat /\ forall i, (i < 4)%nat -> fin (el (nth k P []) i) /\ Rabs (val (el (nth k P []) i) - plane z (B m) k i) <= u * Rabs (plane z (B m) k i).
Proof.
  intros MO m z P E Fm Fit. destruct (planes_eval m z false P E) as [L Ev]. split; [exact L|]. intros k Hk. destruct (Ev k Hk) as [L4 Ek]. split; [exact L4|]. intros i Hi. rewrite (Ek i Hi).
  destruct (code_plane_close m z k i) as (Fp & d & D & V); [intros; apply Fm; auto|apply Fit; auto|]. split; [exact Fp|]. cbv zeta. rewrite V. replace (plane z (B m) k i * (1 + d) - plane z (B m) k i) with (d * plane z (B m) k i) by ring. rewrite Rabs_mult. apply Rmult_le_compat_r; auto using Rabs_pos.
Qed.
(** a point is on the side of the computed plane that its clip coordinates say, unless it is within rounding of the plane *)
Theorem frustum_side_decided : forall (MO : MathOps F) (m : mx F) z P, extract_frustum_planes m z false = Ok P -> (forall i j, (i < 4)%nat -> (j < 4)%nat -> fin (be m i j)) ->
  (forall k i, (k < 6)%nat -> (i < 4)%nat -> (1 + u) * Rabs (plane z (B m) k i) < bpow radix2 emax) ->
  forall (p : nat -> R) k, (k < 6)%nat -> let value := rsum 4 (fun i => p i * val (el (nth k P []) i)) in let c := clip_coordinates (B m) p in let margin := u * rsum 4 (fun i => Rabs (p i) * Rabs (plane z (B m) k i)) in
  Rabs (value - slack z c k) <= margin /\ (margin < value -> 0 < slack z c k) /\ (value < - margin -> slack z c k < 0).
Proof.
  intros MO m z P E Fm Fit p k Hk value c margin. destruct (frustum_planes_accuracy MO m z P E Fm Fit) as [_ A]. destruct (A k Hk) as [_ Ak].
  assert (X : Rabs (value - slack z c k) <= margin).
  { unfold value, c, margin. rewrite <- plane_is_slack. cbn [rsum]. assert (T : forall i, (i < 4)%nat -> Rabs (p i * val (el (nth k P []) i) - p i * plane z (B m) k i) <= u * (Rabs (p i) * Rabs (plane z (B m) k i))).
    { intros i Hi. destruct (Ak i Hi) as [_ Q]. replace (p i * val (el (nth k P []) i) - p i * plane z (B m) k i) with (p i * (val (el (nth k P []) i) - plane z (B m) k i)) by ring. rewrite Rabs_mult. replace (u * (Rabs (p i) * Rabs (plane z (B m) k i))) with (Rabs (p i) * (u * Rabs (plane z (B m) k i))) by ring. apply Rmult_le_compat_l; auto using Rabs_pos. }
    pose proof (T 0%nat ltac:(lia)) as T0. pose proof (T 1%nat ltac:(lia)) as T1. pose proof (T 2%nat ltac:(lia)) as T2. pose proof (T 3%nat ltac:(lia)) as T3. apply Rabs_le_inv in T0, T1, T2, T3. apply Rabs_le. lra. }
  split; [exact X|]. apply Rabs_le_inv in X. split; lra.
Qed.

(** ** Normalised planes *)
Lemma div_fits_big (x y : F) : fin x -> val y <> 0 -> Rabs (val x / val y) * (1 + u) + eta < bpow radix2 emax -> fin (div x y).
Proof.
  intros Fx Ny H. pose proof (Bdiv_correct prec emax Hprec Hmax mode_NE x y Ny) as C. rewrite Rlt_bool_true in C; [destruct C as (_ & C & _); cbn [div BOps]; congruence|].
  change (round_mode mode_NE) with ZnearestE. destruct (rnd_err prec emax (val x / val y)) as (d & e & D & E & V).
  eapply Rle_lt_trans; [|exact H]. unfold SpecFloat.fexp, SpecFloat.emin in *. unfold FLT_exp in V. rewrite V. eapply Rle_trans; [apply Rabs_triang|]. rewrite Rabs_mult.
  apply Rplus_le_compat; auto. apply Rmult_le_compat_l; [apply Rabs_pos|]. apply abs_1d; auto.
Qed.
(** the exact length of the normal of plane [k] *)
Definition normal_length (z : zclip) (b : nat -> nat -> R) (k : nat) : R := norm 3 (plane z b k).
Theorem normalized_frustum_planes_accuracy : forall (MO : MathOps F), ieee_math prec emax MO -> forall (m : mx F) z P k, extract_frustum_planes m z true = Ok P -> (forall i j, (i < 4)%nat -> (j < 4)%nat -> fin (be m i j)) -> (k < 6)%nat ->
  let N := normal_length z (B m) k in bpow radix2 (4 - emax) <= N * N <= bpow radix2 (emax - 3) ->
  2 * Rabs (plane z (B m) k 3) + 1 < bpow radix2 emax -> 2 * (Rabs (plane z (B m) k 3) / N) + 1 < bpow radix2 emax ->
  length (nth k P []) = 4%nat /\
  (forall i, (i < 4)%nat -> fin (el (nth k P []) i) /\ Rabs (val (el (nth k P []) i) - plane z (B m) k i / N) <= 22 * u * Rabs (plane z (B m) k i / N) + eta) /\
  unit_within 3 (49 * u) (fun i => val (el (nth k P []) i)).
Proof.
  intros MO IM m z P k E Fm Hk N [Lo Hi] Big1 Big2. destruct (planes_eval m z true P E) as [_ Ev]. destruct (Ev k Hk) as [L4 Ek]. cbv zeta in Ek. split; [exact L4|].
  destruct (eight_bits prec emax U256) as (U & [Et Eu] & B9 & _). set (e := plane z (B m) k) in *. assert (EN : norm 3 e = N) by reflexivity. clearbody N. assert (N0 : 0 <= N) by (rewrite <- EN; apply norm_pos). pose proof (bpow_gt_0 radix2 (4 - emax)) as Bp.
  assert (N1 : 0 < N). { destruct (Req_dec N 0) as [Z|]; [rewrite Z in Lo; lra|lra]. }
  assert (P3 : bpow radix2 emax = 8 * bpow radix2 (emax - 3)) by (change 8 with (bpow radix2 3); rewrite <- bpow_plus; f_equal; ring).
  assert (NB : 2 * N + 1 < bpow radix2 emax). { destruct (Rle_or_lt N 1); [lra|]. assert (N <= N * N) by (rewrite <- (Rmult_1_l N) at 1; apply Rmult_le_compat_r; lra). lra. }
  assert (En : forall i, (i < 3)%nat -> Rabs (e i) <= N) by (intros i Hi'; rewrite <- EN; apply (norm_term 3 e i Hi')).
  assert (Cl : forall i, (i < 4)%nat -> fin (code_plane z m k i) /\ exists d, Rabs d <= u /\ val (code_plane z m k i) = e i * (1 + d)).
  { intros i Hi4. apply code_plane_close; [intros; apply Fm; auto|]. fold e. assert (Q : Rabs (e i) <= N \/ i = 3%nat) by (destruct (Nat.eq_dec i 3); [auto|left; apply En; lia]). pose proof (Rabs_pos (e i)). assert (u * Rabs (e i) <= / 256 * Rabs (e i)) by (apply Rmult_le_compat_r; lra). destruct Q as [Q| ->]; lra. }
  set (c := code_plane z m k) in *. set (x := fun i => val (c i)). set (len := length3 (c 0%nat) (c 1%nat) (c 2%nat)) in *.
  assert (Dx : forall i, (i < 4)%nat -> Rabs (x i - e i) <= u * Rabs (e i)).
  { intros i Hi4. destruct (Cl i Hi4) as (_ & d & D & V). unfold x. rewrite V. replace (e i * (1 + d) - e i) with (d * e i) by ring. rewrite Rabs_mult. apply Rmult_le_compat_r; auto using Rabs_pos. }
  set (M := norm 3 x). assert (M0 : 0 <= M) by apply norm_pos.
  assert (MN : Rabs (M - N) <= u * N). { rewrite <- EN at 1. eapply Rle_trans; [apply norm_dist|]. eapply Rle_trans; [apply (norm_le 3 _ (fun i => u * Rabs (e i))); intros i Hi3; apply Dx; lia|]. rewrite norm_scal, norm_abs, Rabs_pos_eq by lra. rewrite EN. lra. }
  assert (UN : 0 < u * N <= / 256 * N) by (split; [apply Rmult_lt_0_compat; lra|apply Rmult_le_compat_r; lra]). assert (MB : 255 / 256 * N <= M <= 257 / 256 * N) by (apply Rabs_le_inv in MN; lra).
  assert (MM : norm2 prec emax [c 0%nat; c 1%nat; c 2%nat] = M * M) by (unfold M; rewrite norm_sq; unfold norm2, vals; cbn [length rsum nth]; reflexivity).
  assert (MMlo : 9 / 10 * (N * N) <= M * M). { assert ((255 / 256 * N) * (255 / 256 * N) <= M * M) by (apply Rmult_le_compat; lra). pose proof (sq_pos N). lra. }
  assert (MMhi : M * M <= 11 / 10 * (N * N)). { assert (M * M <= (257 / 256 * N) * (257 / 256 * N)) by (apply Rmult_le_compat; lra). pose proof (sq_pos N). lra. }
  assert (P4 : bpow radix2 (4 - emax) = 2 * bpow radix2 (3 - emax)) by (change 2 with (bpow radix2 1); rewrite <- bpow_plus; f_equal; ring).
  destruct (length3_vec (MO := MO) (c 0%nat) (c 1%nat) (c 2%nat)) as [L1 L2].
  assert (Fl : fin (length_squared3 (c 0%nat) (c 1%nat) (c 2%nat))).
  { assert (D : exists d, vdot [c 0%nat; c 1%nat; c 2%nat] [c 0%nat; c 1%nat; c 2%nat] = Ok d /\ fin d).
    { apply (dot_no_overflow prec emax); [discriminate|reflexivity| |].
      - intros y Hy. assert (In y [c 0%nat; c 1%nat; c 2%nat]) as Hy' by tauto. destruct Hy' as [<-|[<-|[<-|[]]]]; apply Cl; lia.
      - unfold fits. cbn [length]. rewrite (rsum_ext 3 _ (fun i => x i * x i)). 2: { intros i Hi3. unfold vals. rewrite Rabs_pos_eq by apply sq_pos. destruct i as [|[|[|i]]]; try lia; reflexivity. }
        rewrite <- norm_sq. fold M. replace (INR 3) with 3 by (cbn; lra). assert (U2 : u * u <= / 256 * u) by (apply Rmult_le_compat_r; lra). assert (U3 : u * u * u <= / 65536 * u) by (apply Rmult_le_compat_r; lra). assert (Q3 : (1 + u) ^ 3 <= 102 / 100) by (cbn; lra). assert (Q3' : 0 <= (1 + u) ^ 3) by (apply pow_le; lra).
        assert ((1 + u) ^ 3 * (M * M) <= 102 / 100 * (11 / 10 * (N * N))) by (apply Rmult_le_compat; auto using sq_pos). assert ((1 + u) ^ 3 * eta <= 102 / 100 * eta) by (apply Rmult_le_compat_r; lra). lra. }
    destruct D as (d & Ed & Fd). cbn in Ed. apply ok_inj in Ed. subst d. exact Fd. }
  destruct (length_accuracy prec emax IM [c 0%nat; c 1%nat; c 2%nat] _ len L1 Fl L2) as [Flen Dlen]; [cbn [length]; replace (INR 3) with 3 by (cbn; lra); lra|rewrite MM; lra|]. rewrite MM in Dlen. rewrite sqrt_square in Dlen by auto. cbn [length] in Dlen. replace (INR 3) with 3 in Dlen by (cbn; lra).
  assert (UM : 0 <= u * M <= u * (257 / 256 * N)) by (split; [apply Rmult_le_pos; lra|apply Rmult_le_compat_l; lra]).
  set (lam := val len / N - 1). assert (VL : val len = N * (1 + lam)) by (unfold lam; field; lra).
  assert (Hlam : Rabs lam <= 18 * u).
  { apply Rmult_le_reg_r with N; auto. rewrite <- (Rabs_pos_eq N) at 1 by lra. rewrite <- Rabs_mult. replace (lam * N) with ((val len - M) + (M - N)) by (rewrite VL; ring). eapply Rle_trans; [apply Rabs_triang|]. lra. }
  assert (Hl := Hlam). apply Rabs_le_inv in Hl. assert (L0 : val len <> 0) by (rewrite VL; apply Rmult_integral_contrapositive; split; lra).
  assert (Q : forall i, (i < 4)%nat -> exists t, Rabs t <= 41 / 2 * u /\ val (c i) / val len = e i / N * (1 + t)).
  { intros i Hi4. destruct (Cl i Hi4) as (_ & d & D & V). exists ((d - lam) / (1 + lam)). split.
    - unfold Rdiv. rewrite Rabs_mult, Rabs_inv. apply Rmult_le_reg_r with (Rabs (1 + lam)); [apply Rabs_pos_lt; lra|]. rewrite Rmult_assoc, Rinv_l by (apply Rabs_no_R0; lra). rewrite (Rabs_pos_eq (1 + lam)) by lra. apply Rabs_le_inv in D.
      assert (u * (1 + lam) >= u * (238 / 256)) by (apply Rle_ge, Rmult_le_compat_l; lra). apply Rle_trans with (19 * u); [|lra]. rewrite Rmult_1_r. apply Rabs_le. lra.
    - rewrite V, VL. field. lra. }
  assert (A : forall i, (i < 4)%nat -> fin (el (nth k P []) i) /\ Rabs (val (el (nth k P []) i) - e i / N) <= 22 * u * Rabs (e i / N) + eta).
  { intros i Hi4. rewrite (Ek i Hi4). destruct (Q i Hi4) as (t & Ht & Vt). set (y := e i / N) in *. pose proof (Rabs_pos y) as Y0. assert (Ht' := Ht). apply Rabs_le_inv in Ht'.
    assert (Yb : 2 * Rabs y + 1 < bpow radix2 emax). { unfold y, Rdiv. rewrite Rabs_mult, Rabs_inv, (Rabs_pos_eq N) by lra. destruct (Nat.eq_dec i 3) as [->|]; [exact Big2|]. assert (Rabs (e i) * / N <= 1) by (apply Rmult_le_reg_r with N; auto; rewrite Rmult_assoc, Rinv_l by lra; specialize (En i ltac:(lia)); lra). lra. }
    assert (Tb : Rabs (y * (1 + t)) <= Rabs y * (11 / 10)) by (rewrite Rabs_mult; apply Rmult_le_compat_l; auto; apply Rabs_le; lra).
    assert (Fd : fin (div (c i) len)). { apply div_fits_big; [apply Cl; auto|exact L0|]. rewrite Vt. assert (Rabs (y * (1 + t)) * (1 + u) <= Rabs y * (11 / 10) * (257 / 256)) by (apply Rmult_le_compat; try lra; apply Rabs_pos). lra. }
    split; [exact Fd|]. destruct (div_err prec emax _ _ Fd L0) as (_ & d & e0 & D & E0 & V). rewrite V, Vt. replace (y * (1 + t) * (1 + d) + e0 - y) with (y * (t + d * (1 + t)) + e0) by ring. eapply Rle_trans; [apply Rabs_triang|]. apply Rplus_le_compat; [|exact E0].
    rewrite Rabs_mult, (Rmult_comm (22 * u)). apply Rmult_le_compat_l; auto. eapply Rle_trans; [apply Rabs_triang|]. rewrite Rabs_mult. assert (Rabs d * Rabs (1 + t) <= u * (11 / 10)) by (apply Rmult_le_compat; auto using Rabs_pos; apply Rabs_le; lra). lra. }
  split; [exact A|]. set (w := fun i => val (el (nth k P []) i)).
  assert (U1 : norm 3 (fun i => e i / N) = 1). { rewrite (norm_ext 3 _ (fun i => / N * e i)) by (intros; unfold Rdiv; ring). rewrite norm_scal, Rabs_pos_eq by (left; apply Rinv_0_lt_compat; auto). rewrite EN. field. lra. }
  assert (Dw : norm 3 (fun i => w i - e i / N) <= 23 * u).
  { eapply Rle_trans; [apply (norm_le 3 _ (fun i => 22 * u * Rabs (e i / N) + eta)); intros i Hi3; apply A; lia|]. eapply Rle_trans; [apply norm_triangle|]. rewrite norm_scal, norm_abs, norm_const, Rabs_pos_eq, U1 by lra.
    assert (S3 : 0 <= sqrt (INR 3) <= 2) by (split; [apply sqrt_pos|]; replace (INR 3) with 3 by (cbn; lra); apply sq_le; [lra|]; rewrite sqrt_sqrt; lra). assert (sqrt (INR 3) * eta <= 2 * eta) by (apply Rmult_le_compat_r; lra). lra. }
  pose proof (norm_dist 3 w (fun i => e i / N)) as ND. rewrite U1 in ND. assert (X : Rabs (norm 3 w - 1) <= 23 * u) by lra. unfold unit_within. fold w. change (Rabs (rsum 3 (fun i => w i * w i) - 1) <= 49 * u). rewrite <- norm_sq. replace (norm 3 w * norm 3 w - 1) with ((norm 3 w - 1) * (norm 3 w + 1)) by ring. rewrite Rabs_mult.
  assert (Y : Rabs (norm 3 w + 1) <= 21 / 10) by (apply Rabs_le_inv in X; apply Rabs_le; lra). apply Rle_trans with (23 * u * (21 / 10)); [|lra]. apply Rmult_le_compat; auto using Rabs_pos.
Qed.
End IEEE.

(** ** Examples in double precision: a perspective matrix *)
Definition ex_rows : list (list double) := [[dbl 1 0; dbl 0 0; dbl 0 0; dbl 0 0]; [dbl 0 0; dbl 2 0; dbl 0 0; dbl 0 0]; [dbl 0 0; dbl 0 0; dbl 5 (-2); dbl 1 0]; [dbl 0 0; dbl 0 0; dbl (-9) (-2); dbl 0 0]].
Definition ex_persp : mx double := Mx 4 4 row_basis (fun i j => nth j (nth i ex_rows []) zero).
Definition ex_value (i j : nat) : R := match i, j with 0%nat, 0%nat => 1 | 1%nat, 1%nat => 2 | 2%nat, 2%nat => 5 / 4 | 2%nat, 3%nat => 1 | 3%nat, 2%nat => - (9 / 4) | _, _ => 0 end.
Lemma ex_persp_val i j : (i < 4)%nat -> (j < 4)%nat -> is_finite (be ex_persp i j) = true /\ B2R (be ex_persp i j) = ex_value i j.
Proof.
  intros Hi Hj. destruct i as [|[|[|[|i]]]]; try lia; destruct j as [|[|[|[|j]]]]; try lia;
    (match goal with |- is_finite ?x = true /\ B2R ?x = ?r => let y := eval cbn [be ex_persp mbasis mel nth ex_rows] in x in change (is_finite y = true /\ B2R y = r) end); cbn [ex_value];
    (match goal with |- context [dbl ?m ?e] => destruct (dbl_ok m e) as [X Y]; [lia|lia|split; [exact X|rewrite Y; cbn; lra]] end).
Qed.
Lemma ex_plane z k i : (k < 6)%nat -> (i < 4)%nat -> plane z (fun i j => B2R (be ex_persp i j)) k i = plane z ex_value k i.
Proof.
  intros Hk Hi. unfold plane. destruct k as [|[|[|[|[|k]]]]]; cbn [slack]; try destruct z; rewrite ?(proj2 (ex_persp_val i 0 Hi ltac:(lia))), ?(proj2 (ex_persp_val i 1 Hi ltac:(lia))), ?(proj2 (ex_persp_val i 2 Hi ltac:(lia))), ?(proj2 (ex_persp_val i 3 Hi ltac:(lia))); reflexivity.
Qed.
Lemma ex_plane_small z k i : (k < 6)%nat -> (i < 4)%nat -> Rabs (plane z ex_value k i) <= 4.
Proof. intros Hk Hi. unfold plane. destruct i as [|[|[|[|i]]]]; try lia; destruct k as [|[|[|[|[|[|k]]]]]]; try lia; try destruct z; cbn [slack ex_value]; apply Rabs_le; lra. Qed.
Lemma ex_big : 16 < bpow radix2 1024. Proof. change 16 with (bpow radix2 4). apply bpow_lt. lia. Qed.
(** the point (0, 0, 3) lies between the near and far planes and the computed left plane says so *)
Example frustum_side_case : exists P, @extract_frustum_planes double _ turn_math ex_persp z_clip_zero false = Ok P /\ 0 < rsum 4 (fun i => (match i with 2%nat => 3 | 3%nat => 1 | _ => 0 end) * B2R (el (nth 0 P []) i)).
Proof.
  assert (E : exists P, @extract_frustum_planes double _ turn_math ex_persp z_clip_zero false = Ok P) by (eexists; reflexivity). destruct E as [P E]. exists P. split; [exact E|].
  pose proof u53_small as U. assert (U2 : u_round 53 <= / 256) by lra. pose proof ex_big as Bg.
  destruct (frustum_side_decided 53 1024 turn_math ex_persp z_clip_zero P E) with (p := fun i : nat => match i with 2%nat => 3 | 3%nat => 1 | _ => 0 end) (k := 0%nat) as (X & _ & _).
  - intros i j Hi Hj. apply ex_persp_val; auto.
  - intros k i Hk Hi. rewrite ex_plane by auto. pose proof (ex_plane_small z_clip_zero k i Hk Hi). pose proof (Rabs_pos (plane z_clip_zero ex_value k i)). assert ((1 + u_round 53) * Rabs (plane z_clip_zero ex_value k i) <= 2 * 4) by (apply Rmult_le_compat; lra). lra.
  - lia.
  - rewrite <- plane_is_slack in X. assert (Y : forall v s M, Rabs (v - s) <= M -> s = 3 -> M <= / 1000000000000 * 100 -> 0 < v) by (intros v s M K -> KM; apply Rabs_le_inv in K; lra). assert (S : rsum 4 (fun i => (match i with 2%nat => 3 | 3%nat => 1 | _ => 0 end) * plane z_clip_zero (fun i j => B2R (be ex_persp i j)) 0 i) = 3) by (cbn [rsum]; rewrite !ex_plane by lia; unfold plane; cbn [slack ex_value]; ring).
    assert (S' : rsum 4 (fun i => Rabs (match i with 2%nat => 3 | 3%nat => 1 | _ => 0 end) * Rabs (plane z_clip_zero (fun i j => B2R (be ex_persp i j)) 0 i)) <= 100).
    { cbn [rsum]. rewrite !ex_plane by lia. unfold plane; cbn [slack ex_value]. rewrite Rabs_R0, !(Rabs_pos_eq 3), !(Rabs_pos_eq 1), !(Rabs_pos_eq (1 + 0)), !(Rabs_pos_eq (0 + 0)) by lra. lra. }
    assert (M : u_round 53 * rsum 4 (fun i => Rabs (match i with 2%nat => 3 | 3%nat => 1 | _ => 0 end) * Rabs (plane z_clip_zero (fun i j => B2R (be ex_persp i j)) 0 i)) <= / 1000000000000 * 100).
    { apply Rmult_le_compat; try lra. cbn [rsum]. repeat apply Rplus_le_le_0_compat; try lra; apply Rmult_le_pos; apply Rabs_pos. }
    exact (Y _ _ _ X S M).
Qed.
Example normalized_plane_case : exists P, @extract_frustum_planes double _ turn_math ex_persp z_clip_zero true = Ok P /\ unit_within 3 (/ 100000000) (fun i => B2R (el (nth 0 P []) i)).
Proof.
  assert (E : exists P, @extract_frustum_planes double _ turn_math ex_persp z_clip_zero true = Ok P) by (eexists; reflexivity). destruct E as [P E]. exists P. split; [exact E|].
  pose proof u53_small as U. assert (U2 : u_round 53 <= / 256) by lra. pose proof ex_big as Bg. assert (IM : ieee_math 53 1024 turn_math) by (split; reflexivity).
  assert (NN : normal_length z_clip_zero (fun i j => B2R (be ex_persp i j)) 0 * normal_length z_clip_zero (fun i j => B2R (be ex_persp i j)) 0 = 2).
  { unfold normal_length. rewrite norm_sq. cbn [rsum]. rewrite !ex_plane by lia. unfold plane. cbn [slack ex_value]. ring. }
  assert (NR : bpow radix2 (4 - 1024) <= normal_length z_clip_zero (fun i j => B2R (be ex_persp i j)) 0 * normal_length z_clip_zero (fun i j => B2R (be ex_persp i j)) 0 <= bpow radix2 (1024 - 3)).
  { rewrite NN. split; [apply Rle_trans with (bpow radix2 0); [apply bpow_le; lia|cbn; lra]|apply Rle_trans with (bpow radix2 10); [cbn; lra|apply bpow_le; lia]]. }
  assert (P3 : Rabs (plane z_clip_zero (fun i j => B2R (be ex_persp i j)) 0 3) = 0) by (rewrite ex_plane by lia; unfold plane; cbn [slack ex_value]; rewrite Rplus_0_r; apply Rabs_R0).
  destruct (normalized_frustum_planes_accuracy 53 1024 U2 turn_math IM ex_persp z_clip_zero P 0 E) as (_ & _ & X).
  - intros i j Hi Hj. apply ex_persp_val; auto.
  - lia.
  - exact NR.
  - assert (Y : forall y, y = 0 -> 2 * y + 1 < bpow radix2 1024) by (intros y ->; lra). exact (Y _ P3).
  - assert (Y : forall y n, y = 0 -> 2 * (y / n) + 1 < bpow radix2 1024) by (intros y n ->; unfold Rdiv; rewrite Rmult_0_l; lra). exact (Y _ _ P3).
  - unfold unit_within in *. eapply Rle_trans; [exact X|]. lra.
Qed.
(** a projection whose far plane is at infinity: normalising divides by the zero length of the far plane's normal and no exception is thrown *)
Definition ex_infinite : mx double := Mx 4 4 row_basis (fun i j => nth j (nth i [[dbl 1 0; dbl 0 0; dbl 0 0; dbl 0 0]; [dbl 0 0; dbl 1 0; dbl 0 0; dbl 0 0]; [dbl 0 0; dbl 0 0; dbl 1 0; dbl 1 0]; [dbl 0 0; dbl 0 0; dbl (-1) 0; dbl 0 0]] []) zero).
Theorem infinite_far_plane_refuted : exists P, @extract_frustum_planes double _ turn_math ex_infinite z_clip_zero true = Ok P /\ forall i, (i < 3)%nat -> is_nan (el (nth 5 P []) i) = true.
Proof.
  assert (E : exists P, @extract_frustum_planes double _ turn_math ex_infinite z_clip_zero true = Ok P) by (eexists; reflexivity). destruct E as [P E]. exists P. split; [exact E|].
  assert (C : match @extract_frustum_planes double _ turn_math ex_infinite z_clip_zero true with Ok P => forallb (fun i => is_nan (el (nth 5 P []) i)) [0%nat; 1%nat; 2%nat] | _ => false end = true) by (vm_compute; reflexivity). rewrite E in C. rewrite forallb_forall in C.
  intros i Hi. apply C. destruct i as [|[|[|i]]]; cbn; auto; lia.
Qed.
Print Assumptions frustum_planes_accuracy. Print Assumptions frustum_side_decided. Print Assumptions normalized_frustum_planes_accuracy. Print Assumptions infinite_far_plane_refuted.
