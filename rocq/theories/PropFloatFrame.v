(** C88: look_at, aim_at and align matrices in IEEE arithmetic. *)
From Coq Require Import ZArith Bool List Arith Lia Reals Lra.
From Flocq Require Import Core BinarySingleNaN.
From Verif Require Import Base RInst MiscModel MatModel MatSpec MatOps RotModel RotFacts QuatModel VecModel LUModel XfModel XfProofs MiscSpec FloatModel FloatFacts FloatNorm FloatDot PropFloat PropFloatLU FloatExpr PropFloatForm PropFloatNorm FloatRot PropFloatRot FrameFacts.
Import ListNotations.
Open Scope R_scope.

(** ** Specification.  [cross3], [direction], [dist3]: FrameFacts.v; [near_orthogonal]: FloatRot.v *)
(** the axes of a camera that looks along [d] (left-handed) or away from it (right-handed) *)
Definition camera_axes (h : handedness) (d up : nat -> R) (j : nat) : nat -> R :=
  let z := fun i => (match h with left_handed => 1 | right_handed => -1 end) * direction d i in
  let x := direction (cross3 up z) in
  match j with 0%nat => x | 1%nat => cross3 z x | _ => z end.
(** the frame whose first named axis is along [a] and whose third is perpendicular to [a] and [r] *)
Definition aligned_axes (o : axis_order) (a r : nat -> R) (n : nat) : nat -> R :=
  let '(i, j, k) := ao_name o in
  let e := direction a in
  let w := direction (cross3 e r) in
  if Z.eqb (Z.of_nat n) i then e else if Z.eqb (Z.of_nat n) j then cross3 w e else fun t => IZR (perm_sign i j k) * w t.

(** ** What the functions compute *)
Section Eval.
Context {T : Type} {Op : Ops T} {MO : MathOps T}.
Lemma bind_ok {A B} (c : out A) (k : A -> out B) r : (x <- c ;; k x) = Ok r -> exists x, c = Ok x /\ k x = Ok r.
Proof. destruct c; [eauto|discriminate..]. Qed.
Definition sign_of (h : handedness) : T := match h with left_handed => one | right_handed => neg one end.
Lemma set_col_eval (m m' : mx T) i v : matrix_set_transposed_basis_vector m i v = Ok m' -> (0 <= i < 3)%Z /\ forall a b, be m' a b = if Nat.eqb b (Z.to_nat i) && Nat.ltb a 3 then el v a else be m a b.
Proof.
  intros E. unfold matrix_set_transposed_basis_vector in E. apply check_ok, check_ok in E. apply bind_ok in E. destruct E as (k & Ek & E). apply ok_inj in E.
  unfold axis_index, require in Ek. destruct (Z.leb_spec 0 i); [|discriminate]. destruct (Z.ltb_spec i (Z.of_nat 3)) as [Hi|]; [|discriminate]. cbn [andb bind] in Ek. apply ok_inj in Ek. subst k m'.
  split; [lia|]. intros a b. rewrite !be_setg. destruct (Nat.eqb_spec b (Z.to_nat i)); rewrite ?andb_true_r, ?andb_false_r; cbn [andb]; auto. destruct a as [|[|[|a]]]; reflexivity.
Qed.
Lemma set_row_eval (m m' : mx T) i v : matrix_set_basis_vector m i v = Ok m' -> (0 <= i < 3)%Z /\ forall a b, be m' a b = if Nat.eqb a (Z.to_nat i) && Nat.ltb b 3 then el v b else be m a b.
Proof.
  intros E. unfold matrix_set_basis_vector in E. apply check_ok, check_ok in E. apply bind_ok in E. destruct E as (k & Ek & E). apply ok_inj in E.
  unfold axis_index, require in Ek. destruct (Z.leb_spec 0 i); [|discriminate]. destruct (Z.ltb_spec i (Z.of_nat 3)) as [Hi|]; [|discriminate]. cbn [andb bind] in Ek. apply ok_inj in Ek. subst k m'.
  split; [lia|]. intros a b. rewrite !be_setg. destruct (Nat.eqb_spec a (Z.to_nat i)); cbn [andb]; auto. destruct b as [|[|[|b]]]; reflexivity.
Qed.
Lemma look_at_eval (m m' : mx T) p t up h : matrix_look_at m p t up h = Ok m' ->
  exists d e x0 x y, vsub t p = Ok d /\ vnormalize d = Ok e /\ let z := vscale (sign_of h) e in vcross3 up z = Ok x0 /\ vnormalize x0 = Ok x /\ vcross3 z x = Ok y /\
    (forall i j, (i < 3)%nat -> (j < 3)%nat -> be m' i j = el (nth j [x; y; z] []) i) /\
    forall j, (j < 3)%nat -> exists q, vdot p (nth j [x; y; z] []) = Ok q /\ be m' 3 j = neg q.
Proof.
  intros E. unfold matrix_look_at in E. apply check_ok in E. cbv zeta in E. fold (sign_of h) in E.
  apply bind_ok in E. destruct E as (d & Ed & E). apply bind_ok in E. destruct E as (e & Ee & E). exists d, e.
  apply bind_ok in E. destruct E as (x0 & Ex0 & E). apply bind_ok in E. destruct E as (x & Ex & E). apply bind_ok in E. destruct E as (y & Ey & E). exists x0, x, y.
  set (z := vscale (sign_of h) e) in *. apply bind_ok in E. destruct E as (m3 & Em & E).
  apply bind_ok in E. destruct E as (qx & Qx & E). apply bind_ok in E. destruct E as (qy & Qy & E). apply bind_ok in E. destruct E as (qz & Qz & E).
  unfold matrix_set_translation in E. apply check_ok, ok_inj in E. subst m'.
  unfold matrix_set_transposed_basis_vectors in Em. apply bind_ok in Em. destruct Em as (m1 & E1 & Em). apply bind_ok in Em. destruct Em as (m2 & E2 & E3).
  apply set_col_eval in E1, E2, E3. destruct E1 as [_ B1], E2 as [_ B2], E3 as [_ B3].
  split; [auto|]. split; [auto|]. cbv zeta. split; [auto|]. split; [auto|]. split; [auto|]. split.
  - intros i j Hi Hj. rewrite !be_setg. destruct (Nat.eqb_spec i 3); [lia|]. cbn [andb]. rewrite B3, B2, B1. destruct (Nat.ltb_spec i 3); [|lia]. destruct j as [|[|[|j]]]; try lia; reflexivity.
  - intros j Hj. rewrite !be_setg. destruct j as [|[|[|j]]]; try lia; cbn [Nat.eqb andb nth]; eauto.
Qed.
Lemma align_eval (m m' : mx T) a r normalize o : matrix_rotation_align m a r normalize (ao_value o) = Ok m' -> length a = 3%nat /\
  exists e c w f, (if normalize then vnormalize a else Ok a) = Ok e /\ vcross3 e r = Ok c /\ vnormalize c = Ok w /\ vcross3 w e = Ok f /\
    let '(i, j, k) := ao_name o in forall n t, (n < 3)%nat -> (t < 3)%nat ->
      be m' n t = el (if Z.eqb (Z.of_nat n) i then e else if Z.eqb (Z.of_nat n) j then f else if Z.eqb (perm_sign i j k) 1 then w else vneg w) t.
Proof.
  intros E. unfold matrix_rotation_align in E. apply bind_ok in E. destruct E as ([[x y] z] & Eb & E).
  assert (La : length a = 3%nat). { unfold vorthonormal_basis in Eb. destruct (unpack_axis (ao_value o)) as [[[i j] k] odd]. cbv zeta in Eb. unfold to_fixed, require in Eb. destruct (Nat.eqb_spec (length a) 3); [auto|discriminate]. }
  split; [exact La|].
  assert (Ax : exists e c w f, (if normalize then vnormalize a else Ok a) = Ok e /\ vcross3 e r = Ok c /\ vnormalize c = Ok w /\ vcross3 w e = Ok f /\
    (x, y, z) = match o with ao_xyz => (e, f, w) | ao_xzy => (e, vneg w, f) | ao_yzx => (w, e, f) | ao_yxz => (f, e, vneg w) | ao_zxy => (f, w, e) | ao_zyx => (vneg w, f, e) end).
  { unfold vorthonormal_basis in Eb. assert (Fx : to_fixed 3 a = Ok a) by (unfold to_fixed, require; rewrite La; reflexivity).
    destruct o; cbn -[vcross3 vnormalize vneg to_fixed put_axis get_axis] in Eb; change (Pos.to_nat 1) with 1%nat in Eb; change (Pos.to_nat 2) with 2%nat in Eb; rewrite Fx in Eb; cbn [bind] in Eb;
      apply bind_ok in Eb; destruct Eb as (e & Ee & Eb); cbn -[vcross3 vnormalize vneg] in Eb; apply bind_ok in Eb; destruct Eb as (c & Ec & Eb); apply bind_ok in Eb; destruct Eb as (w & Ew & Eb); cbn -[vcross3 vnormalize vneg] in Eb;
      apply bind_ok in Eb; destruct Eb as (f & Ef & Eb); exists e, c, w, f; apply ok_inj in Eb; repeat split; auto. }
  destruct Ax as (e & c & w & f & Ee & Ec & Ew & Ef & Ax). exists e, c, w, f. repeat (split; [assumption|]).
  unfold matrix_set_basis_vectors in E. apply bind_ok in E. destruct E as (m1 & E1 & Em). apply bind_ok in Em. destruct Em as (m2 & E2 & E3).
  apply set_row_eval in E1, E2, E3. destruct E1 as [_ B1], E2 as [_ B2], E3 as [_ B3].
  destruct o; cbn [ao_name]; injection Ax as -> -> ->; intros n t Hn Ht; rewrite B3, B2, B1; destruct (Nat.ltb_spec t 3); try lia; destruct n as [|[|[|n]]]; try lia; reflexivity.
Qed.
End Eval.
Section IEEE.
Context (prec emax : Z) {Hprec : Prec_gt_0 prec} {Hmax : Prec_lt_emax prec emax}.
Notation F := (binary_float prec emax).
Notation u := (u_round prec).
Notation eta := (eta_min prec emax).
Notation val := (@B2R prec emax).
Notation vals := (vals prec emax).
Notation fin x := (is_finite x = true).
Notation B m := (fun i j => val (be m i j)).
(** three finite elements *)
Definition three (v : list F) : Prop := length v = 3%nat /\ forall k, (k < 3)%nat -> fin (el v k).
Context (U256 : u <= / 256).

Lemma sqrt3 : 0 <= sqrt (INR 3) <= 1733 / 1000.
Proof. split; [apply sqrt_pos|]. replace (INR 3) with 3 by (cbn; lra). apply sq_le; [lra|]. rewrite sqrt_sqrt by lra. lra. Qed.
Lemma three_in v : three v -> forall x, In x v -> fin x.
Proof. intros [L H] x Hx. apply (proj2 (nth_fin prec emax v)); auto. intros k Hk. apply H. lia. Qed.
Lemma eta_small : eta <= u * bpow radix2 (2 - emax).
Proof. unfold u_round, eta_min. rewrite <- bpow_plus. apply bpow_le. unfold SpecFloat.emin. lia. Qed.
Lemma near3 c s t d e : (c <= 2)%nat -> 0 <= s -> 0 <= t <= 2 -> near prec emax c s t d e -> Rabs (d - e) <= 201 / 100 * u * s + 101 / 50 * eta.
Proof.
  intros Hc Hs Ht N. destruct (eight_bits prec emax U256) as (U & [Et Eu] & _ & _ & _). assert (N2 : near prec emax 2 s 2 d e) by (revert N; apply near_up; auto; lra). eapply Rle_trans; [exact N2|].
  assert (U2 : u * u <= / 256 * u) by (apply Rmult_le_compat_r; lra). assert (P : (1 + u) ^ 2 - 1 <= 201 / 100 * u) by (cbn; lra).
  assert (Q : (1 + u) ^ 2 * 2 <= 101 / 50) by lra. assert (((1 + u) ^ 2 - 1) * s <= 201 / 100 * u * s) by (apply Rmult_le_compat_r; auto). assert ((1 + u) ^ 2 * 2 * eta <= 101 / 50 * eta) by (apply Rmult_le_compat_r; lra). lra.
Qed.
(** cross products *)
Lemma cross_eval (v w r : list F) : vcross3 v w = Ok r -> length v = 3%nat /\ length w = 3%nat /\ length r = 3%nat /\ forall i, (i < 3)%nat -> el r i = feval (env3 prec emax (el v) (el w) (el w)) (match i with
  0%nat => FSub (FMul (FVar 1) (FVar 5)) (FMul (FVar 2) (FVar 4)) | 1%nat => FSub (FMul (FVar 2) (FVar 3)) (FMul (FVar 0) (FVar 5)) | _ => FSub (FMul (FVar 0) (FVar 4)) (FMul (FVar 1) (FVar 3)) end).
Proof.
  intros E. unfold vcross3 in E. apply check_size_eq in E. destruct E as [Lv E]. apply check_size_eq in E. destruct E as [Lw E]. apply ok_inj in E. subst r. repeat split; auto. apply cases3; reflexivity.
Qed.
Lemma cross_near (v w r : list F) : three v -> three w -> vcross3 v w = Ok r -> norm 3 (vals v) * norm 3 (vals w) <= bpow radix2 (emax - 3) ->
  three r /\ dist3 (vals r) (cross3 (vals v) (vals w)) <= 4 * u * (norm 3 (vals v) * norm 3 (vals w)) + 4 * eta.
Proof.
  intros [Lv Fv] [Lw Fw] E Hs. destruct (eight_bits prec emax U256) as (U & [Et Eu] & P512 & _ & _). destruct (cross_eval v w r E) as (_ & _ & Lr & Ev).
  set (N := norm 3 (vals v) * norm 3 (vals w)) in *. assert (N0 : 0 <= N) by (apply Rmult_le_pos; apply norm_pos).
  assert (Tm : forall j k, (j < 3)%nat -> (k < 3)%nat -> j <> k -> Rabs (vals v j * vals w k) + Rabs (vals v k * vals w j) <= N).
  { intros j k Hj Hk D. 
    set (a := fun t => if Nat.eqb t j then Rabs (vals v j) else if Nat.eqb t k then Rabs (vals v k) else 0). set (b := fun t => if Nat.eqb t j then Rabs (vals w k) else if Nat.eqb t k then Rabs (vals w j) else 0).
    pose proof (cauchy 3 a b) as C. assert (S : rsum 3 (fun t => a t * b t) = Rabs (vals v j * vals w k) + Rabs (vals v k * vals w j)).
    { rewrite !Rabs_mult. unfold a, b. cbn [rsum]. destruct j as [|[|[|j]]]; try lia; destruct k as [|[|[|k]]]; try lia; cbn [Nat.eqb]; ring. }
    rewrite S in C. rewrite Rabs_pos_eq in C by (apply Rplus_le_le_0_compat; apply Rabs_pos). eapply Rle_trans; [exact C|]. apply Rmult_le_compat; try apply norm_pos; apply sq_le; try apply norm_pos; rewrite !norm_sq; cbn [rsum]; unfold a, b;
    assert (Sq : forall x, Rabs x * Rabs x = x * x) by (intros x; rewrite <- Rabs_mult; apply Rabs_pos_eq, sq_pos);
    destruct j as [|[|[|j]]]; try lia; destruct k as [|[|[|k]]]; try lia; cbn [Nat.eqb]; rewrite !Sq;
    pose proof (sq_pos (vals v 0)); pose proof (sq_pos (vals v 1)); pose proof (sq_pos (vals v 2)); pose proof (sq_pos (vals w 0)); pose proof (sq_pos (vals w 1)); pose proof (sq_pos (vals w 2)); lra. }
  assert (P3 : N + N + N + N + N + N + N + N <= bpow radix2 emax). { replace emax with (emax - 3 + 3)%Z by ring. rewrite bpow_plus. change (bpow radix2 3) with 8. lra. }
  assert (FE : forall k, fin (env3 prec emax (el v) (el w) (el w) k)).
  { intros k. unfold env3. destruct (Nat.ltb_spec k 3); [auto|]. destruct (Nat.ltb_spec k 6); [apply Fw; lia|]. destruct (Nat.lt_ge_cases (k - 6) 3); [auto|]. unfold el. rewrite nth_overflow by lia. reflexivity. }
  assert (FR : forall k, (k < 3)%nat -> fin (el r k)).
  { intros k Hk. rewrite (Ev k Hk). assert (Small : forall s, s <= N -> (1 + u) ^ 2 * (s + eta * 2) < bpow radix2 emax).
    { intros s Hsn. assert ((1 + u) ^ 2 <= 2) by (cbn; assert (u * u <= / 256 * / 256) by (apply Rmult_le_compat; lra); lra). assert (0 <= (1 + u) ^ 2) by (apply pow_le; lra).
      apply Rle_lt_trans with ((1 + u) ^ 2 * (N + eta * 2)); [apply Rmult_le_compat_l; lra|]. apply Rle_lt_trans with (2 * (N + eta * 2)); [apply Rmult_le_compat_r; lra|]. lra. }
    revert k Hk. apply cases3; (apply flat_fits; [repeat split; exact I|exact FE|]); cbn -[pow]; rewrite ?Rabs_mult;
      match goal with |- _ ^ _ * (?s + eta * ?t) < _ => replace t with 2 by ring; apply (Small s) end; rewrite <- !Rabs_mult.
    + apply (Tm 1%nat 2%nat); lia.
    + apply (Tm 2%nat 0%nat); lia.
    + apply (Tm 0%nat 1%nat); lia. }
  split; [split; auto|]. destruct (cross_accuracy prec emax v w r E) as [_ A]. cbv zeta in A.
  apply Rle_trans with (norm 3 (fun _ => 201 / 100 * u * N + 101 / 50 * eta)).
  - apply norm_le. intros k Hk. assert (Q : forall j i s x, (j < 3)%nat -> (i < 3)%nat -> j <> i -> s = Rabs (vals v j * vals w i) + Rabs (vals v i * vals w j) -> near prec emax 2 s 2 (vals r k) x -> Rabs (vals r k - x) <= 201 / 100 * u * N + 101 / 50 * eta).
    { intros j i s x Hj Hi D Es Nr. apply Rle_trans with (201 / 100 * u * s + 101 / 50 * eta); [apply (near3 2 s 2); auto; try lra; subst s; apply Rplus_le_le_0_compat; apply Rabs_pos|].
      apply Rplus_le_compat_r, Rmult_le_compat_l; [lra|]. subst s. apply Tm; auto. }
    specialize (A k Hk (FR k Hk)). destruct k as [|[|[|k]]]; [..|lia]; [apply (Q 1%nat 2%nat _ _ ltac:(lia) ltac:(lia) ltac:(lia) eq_refl A)|apply (Q 2%nat 0%nat _ _ ltac:(lia) ltac:(lia) ltac:(lia) eq_refl A)|apply (Q 0%nat 1%nat _ _ ltac:(lia) ltac:(lia) ltac:(lia) eq_refl A)].
  - assert (UN : 0 <= u * N) by (apply Rmult_le_pos; lra). rewrite norm_const by lra. destruct sqrt3 as [S0 S3].
    apply Rle_trans with (1733 / 1000 * (201 / 100 * u * N + 101 / 50 * eta)); [apply Rmult_le_compat_r; lra|]. lra.
Qed.
(** cross products of vectors close to others *)
Lemma cross_close (v w r : list F) a b e1 e2 : three v -> three w -> vcross3 v w = Ok r -> norm 3 (vals v) * norm 3 (vals w) <= bpow radix2 (emax - 3) ->
  dist3 (vals v) a <= e1 -> dist3 (vals w) b <= e2 ->
  three r /\ dist3 (vals r) (cross3 a b) <= 4 * u * (norm 3 (vals v) * norm 3 (vals w)) + 4 * eta + e1 * norm 3 (vals w) + norm 3 a * e2.
Proof.
  intros Tv Tw E Hs D1 D2. destruct (cross_near v w r Tv Tw E Hs) as [Tr A]. split; [auto|].
  pose proof (dist_triangle (vals r) (cross3 (vals v) (vals w)) (cross3 a b)) as D. pose proof (cross_dist (vals v) a (vals w) b) as C.
  assert (dist3 (vals v) a * norm 3 (vals w) <= e1 * norm 3 (vals w)) by (apply Rmult_le_compat_r; [apply norm_pos|auto]).
  assert (norm 3 a * dist3 (vals w) b <= norm 3 a * e2) by (apply Rmult_le_compat_l; [apply norm_pos|auto]). lra.
Qed.
(** normalize() *)
Lemma normalize_near {MO : MathOps F} (IM : ieee_math prec emax MO) (v w : list F) : three v -> vnormalize v = Ok w ->
  bpow radix2 (3 - emax) <= norm 3 (vals v) * norm 3 (vals v) <= bpow radix2 (emax - 2) ->
  three w /\ dist3 (vals w) (direction (vals v)) <= 18 * u.
Proof.
  intros Tv E [Lo Hi]. destruct (eight_bits prec emax U256) as (U & [Et Eu] & P512 & [_ P3] & _). pose proof (bpow_gt_0 radix2 (3 - emax)) as Pp. pose proof (norm_pos 3 (vals v)) as N0. assert (I3 : INR 3 = 3) by (cbn; lra).
  assert (N1 : norm 3 (vals v) <> 0). { intros Z. rewrite Z in Lo. lra. }
  destruct Tv as [Lv Fv]. rewrite norm_sq in Lo, Hi.
  assert (Nn : v <> []) by (intros ->; discriminate Lv).
  destruct (dot_no_overflow prec emax v v Nn eq_refl) as (l & El & Fl).
  { intros x Hx. apply (three_in v); [split; auto|]. tauto. }
  { unfold fits. rewrite Lv, I3. rewrite (rsum_ext 3 _ (fun k => vals v k * vals v k)) by (intros; apply Rabs_pos_eq, sq_pos). set (S := rsum 3 (fun k => vals v k * vals v k)) in *.
    assert (S4 : 4 * S <= bpow radix2 emax). { replace emax with (emax - 2 + 2)%Z by ring. rewrite bpow_plus. change (bpow radix2 2) with 4. lra. }
    assert (G : (1 + u) ^ 3 <= 2) by lra. assert (0 <= (1 + u) ^ 3) by (apply pow_le; lra). assert ((1 + u) ^ 3 * S <= 2 * S) by (apply Rmult_le_compat_r; lra). assert (3 * (1 + u) ^ 3 * eta <= 3 * 2 * eta) by (apply Rmult_le_compat_r; lra). lra. }
  assert (E2 : vlength_squared v = Ok l). { rewrite <- El. unfold vdot, vlength_squared, check_vmin, check_vsame, require. rewrite Nat.eqb_refl. destruct (Nat.leb 1 (length v)); reflexivity. }
  destruct (normalize_accuracy prec emax IM v w l E2 Fl E) as (Lw & Fw & A).
  { rewrite Lv, I3. lra. } { unfold norm2. rewrite Lv. exact Lo. }
  rewrite Lv in *. rewrite I3 in A. split; [split; [auto|]; intros k Hk; apply Fw; apply nth_In; lia|].
  apply Rle_trans with (norm 3 (fun k => 4 * (3 + 1) * u * Rabs (direction (vals v) k) + eta)).
  - apply norm_le. intros k Hk. specialize (A k Hk). unfold norm2 in A. rewrite Lv in A. exact A.
  - eapply Rle_trans; [apply norm_triangle|]. rewrite norm_scal, norm_abs, direction_norm, norm_const, Rabs_pos_eq by (auto; lra). destruct sqrt3 as [S0 S3].
    assert (sqrt (INR 3) * eta <= 1733 / 1000 * eta) by (apply Rmult_le_compat_r; lra). lra.
Qed.
Lemma normalize_close {MO : MathOps F} (IM : ieee_math prec emax MO) (v w : list F) a e : three v -> vnormalize v = Ok w -> dist3 (vals v) a <= e * norm 3 a -> 0 <= e <= / 8 ->
  bpow radix2 (4 - emax) <= norm 3 a * norm 3 a <= bpow radix2 (emax - 3) ->
  three w /\ dist3 (vals w) (direction a) <= 2 * e + 18 * u.
Proof.
  intros Tv E D He [Lo Hi]. pose proof (bpow_gt_0 radix2 (4 - emax)) as Pp. pose proof (norm_pos 3 a) as N0. set (r := norm 3 a) in *.
  pose proof (dist_norm (vals v) a) as D1. pose proof (dist_norm a (vals v)) as D2. rewrite dist_sym in D2. fold r in D1, D2. assert (e * r <= / 8 * r) by (apply Rmult_le_compat_r; lra). pose proof (norm_pos 3 (vals v)) as V0.
  assert (R1 : r <> 0). { intros Z. rewrite Z in Lo. lra. }
  assert (Q1 : 7 / 8 * r * (7 / 8 * r) <= norm 3 (vals v) * norm 3 (vals v)) by (apply Rmult_le_compat; lra).
  assert (Q2 : norm 3 (vals v) * norm 3 (vals v) <= 9 / 8 * r * (9 / 8 * r)) by (apply Rmult_le_compat; lra).
  destruct (normalize_near IM v w Tv E) as [Tw A].
  - split.
    + apply Rle_trans with (/ 2 * bpow radix2 (4 - emax)); [right; rewrite half_bpow; f_equal; ring|]. lra.
    + apply Rle_trans with (2 * bpow radix2 (emax - 3)); [lra|]. right. change 2 with (bpow radix2 1). rewrite <- bpow_plus. f_equal. ring.
  - split; [auto|]. pose proof (dist_triangle (vals w) (direction (vals v)) (direction a)) as T. assert (V1 : norm 3 (vals v) <> 0) by lra. pose proof (direction_close (vals v) a e R1 V1 D). lra.
Qed.
(** differences and signs *)
Lemma sub_fits (x y : F) : fin x -> fin y -> (1 + u) * Rabs (val x - val y) < bpow radix2 emax -> fin (sub x y).
Proof.
  intros A C H. assert (D : fin (add x (neg y))) by (apply add_fits; auto; [rewrite (fin_neg prec emax); auto|]; rewrite (val_neg prec emax); exact H).
  pose proof (Bminus_correct prec emax Hprec Hmax mode_NE x y A C) as E. pose proof (Bplus_correct prec emax Hprec Hmax mode_NE x (neg y) A ltac:(rewrite (fin_neg prec emax); auto)) as G. rewrite (val_neg prec emax) in G.
  change (val x + - val y) with (val x - val y) in G. destruct (Rlt_bool _ _) in E, G; [apply E|]. exfalso. destruct G as [G _]. apply overflow_not_finite in G. change (Bplus mode_NE x (neg y)) with (add x (neg y)) in G. congruence.
Qed.
Lemma sub_close (t p d : list F) : three t -> three p -> vsub t p = Ok d -> let e := fun i => vals t i - vals p i in norm 3 e <= bpow radix2 (emax - 2) -> three d /\ dist3 (vals d) e <= u * norm 3 e.
Proof.
  intros [Lt Ft] [Lp Fp] E e Hn. destruct (eight_bits prec emax U256) as (U & _ & P512 & _). unfold vsub in E. apply check_ok, ok_inj in E. rewrite Lt in E.
  assert (Ed : forall k, (k < 3)%nat -> el d k = sub (el t k) (el p k)) by (subst d; apply cases3; reflexivity).
  assert (FD : forall k, (k < 3)%nat -> fin (el d k)).
  { intros k Hk. rewrite Ed by auto. apply sub_fits; auto. change (val (el t k) - val (el p k)) with (e k). pose proof (norm_term 3 e k Hk). pose proof (Rabs_pos (e k)).
    apply Rle_lt_trans with (2 * bpow radix2 (emax - 2)); [apply Rmult_le_compat; lra|]. change 2 with (bpow radix2 1). rewrite <- bpow_plus. apply bpow_lt. lia. }
  split; [split; [subst d; reflexivity|auto]|]. rewrite <- (Rabs_pos_eq u) by lra. rewrite <- norm_scal. rewrite <- (norm_abs 3 (fun k => u * e k)). apply norm_le. intros k Hk. specialize (FD k Hk). unfold PropFloat.vals at 1. change (nth k d zero) with (el d k). rewrite Ed in * by auto.
  destruct (sub_err prec emax _ _ FD) as (_ & _ & dl & Dl & V). rewrite V. change (val (el t k) - val (el p k)) with (e k). replace (e k * (1 + dl) - e k) with (dl * e k) by ring. rewrite !Rabs_mult, (Rabs_pos_eq u) by lra. apply Rmult_le_compat_r; auto using Rabs_pos.
Qed.
Lemma sign_scale (h : handedness) (e : list F) : three e -> norm 3 (vals e) <= 2 -> three (vscale (sign_of h) e) /\
  forall k, (k < 3)%nat -> vals (vscale (sign_of h) e) k = (match h with left_handed => 1 | right_handed => -1 end) * vals e k.
Proof.
  intros [Le Fe] Hn. destruct (eight_bits prec emax U256) as (U & [Et Eu] & P512 & _). unfold vscale. rewrite Le. destruct (val_1 prec emax) as [V1 F1].
  assert (Es : val (sign_of h) = (match h with left_handed => 1 | right_handed => -1 end) /\ fin (sign_of h : F)) by (destruct h; cbn [sign_of]; [auto|rewrite (val_neg prec emax), (fin_neg prec emax), V1; split; [lra|auto]]). destruct Es as [Vs Fs].
  assert (A : forall k, (k < 3)%nat -> el (elems 3 (fun i => mul (el e i) (sign_of h))) k = mul (el e k) (sign_of h)) by (apply cases3; reflexivity).
  assert (FM : forall k, (k < 3)%nat -> fin (mul (el e k) (sign_of h))).
  { intros k Hk. apply mul_fits; auto. rewrite Vs. rewrite Rabs_mult. replace (Rabs match h with left_handed => 1 | right_handed => -1 end) with 1 by (destruct h; [rewrite Rabs_R1|rewrite Rabs_left]; lra). pose proof (norm_term 3 (vals e) k Hk). change (val (el e k)) with (vals e k). pose proof (Rabs_pos (vals e k)).
    assert ((1 + u) * (Rabs (vals e k) * 1) <= 2 * 2) by (apply Rmult_le_compat; lra). lra. }
  split; [split; [reflexivity|intros k Hk; rewrite A by auto; auto]|]. intros k Hk. unfold PropFloat.vals at 1. change (nth k (elems 3 (fun i => mul (el e i) (sign_of h))) zero) with (el (elems 3 (fun i => mul (el e i) (sign_of h))) k). rewrite A by auto.
  destruct (mul_rounded prec emax _ _ (FM k Hk)) as (_ & _ & V). change (val (Bmult mode_NE (el e k) (sign_of h)) = match h with left_handed => 1 | right_handed => -1 end * val (el e k)). etransitivity; [exact V|]. rewrite Vs. rewrite Rmult_comm. apply round_generic; [apply valid_rnd_N|].
  destruct h; [rewrite Rmult_1_l; apply format|]. replace (-1 * val (el e k)) with (- val (el e k)) by ring. apply generic_format_opp, format.
Qed.
(** the axis perpendicular to [z] and [r], then the third one *)
Definition turned (flip : bool) (a b : nat -> R) : nat -> R := if flip then cross3 b a else cross3 a b.
Definition vturned (flip : bool) (a b : list F) : out (list F) := if flip then vcross3 b a else vcross3 a b.
Lemma turned_norm flip a b : norm 3 (turned flip a b) = norm 3 (cross3 a b).
Proof. destruct flip; [|reflexivity]. cbn [turned]. rewrite <- (norm_abs 3 (cross3 b a)), <- (norm_abs 3 (cross3 a b)). apply norm_ext. intros k _. rewrite <- (Rabs_Ropp (cross3 b a k)). f_equal. unfold cross3. destruct k as [|[|k]]; ring. Qed.
Definition in_range (kappa : R) (r : nat -> R) : Prop := bpow radix2 (4 - emax) <= (kappa * norm 3 r) * (kappa * norm 3 r) /\ norm 3 r * norm 3 r <= bpow radix2 (emax - 4).
Lemma perpendicular {MO : MathOps F} (IM : ieee_math prec emax MO) flip (zh r c w : list F) z kappa : three zh -> three r -> norm 3 z = 1 -> dist3 (vals zh) z <= 20 * u ->
  256 * u <= kappa -> kappa * norm 3 (vals r) <= norm 3 (cross3 (vals r) z) -> in_range kappa (vals r) ->
  vturned flip r zh = Ok c -> vnormalize c = Ok w -> three w /\ dist3 (vals w) (direction (turned flip (vals r) z)) <= 78 * (u / kappa).
Proof.
  intros Tz Tr Hz Dz Hk Hc [Lo Hi] Ec Ew. destruct (eight_bits prec emax U256) as (U & [Et Eu] & P512 & _). pose proof eta_small as E2. set (M := norm 3 (vals r)) in *. assert (M0 : 0 <= M) by apply norm_pos.
  pose proof (bpow_gt_0 radix2 (4 - emax)) as Pp. assert (M1 : 0 < M). { destruct M0 as [|Z]; auto. rewrite <- Z in Lo. lra. }
  assert (K1 : kappa <= 1). { pose proof (cross_norm (vals r) z) as C. rewrite Hz in C. fold M in C. apply Rmult_le_reg_r with M; auto. lra. }
  assert (K0 : 0 < kappa) by lra. pose proof (dist_norm (vals zh) z) as Nz. rewrite Hz in Nz. pose proof (norm_pos 3 (vals zh)) as Nz0. set (nz := norm 3 (vals zh)) in *.
  assert (KM : 0 < kappa * M) by (apply Rmult_lt_0_compat; auto). assert (KM1 : kappa * M <= M) by (rewrite <- (Rmult_1_l M) at 2; apply Rmult_le_compat_r; lra).
  assert (Mbig : M <= bpow radix2 (emax - 4) \/ M <= 1). { destruct (Rle_or_lt M 1); [auto|left]. apply Rle_trans with (M * M); [rewrite <- (Rmult_1_l M) at 1; apply Rmult_le_compat_r; lra|auto]. }
  assert (P4 : 32 <= bpow radix2 (emax - 4)). { assert (X : bpow radix2 emax = 16 * bpow radix2 (emax - 4)) by (change 16 with (bpow radix2 4); rewrite <- bpow_plus; f_equal; ring). lra. }
  assert (P34 : bpow radix2 (emax - 3) = 2 * bpow radix2 (emax - 4)) by (change 2 with (bpow radix2 1); rewrite <- bpow_plus; f_equal; ring).
  assert (Fit : M * nz <= bpow radix2 (emax - 3)). { apply Rle_trans with (M * (3 / 2)); [apply Rmult_le_compat_l; lra|]. destruct Mbig; lra. }
  assert (Tiny : eta <= u * M).
  { apply Rle_trans with (u * bpow radix2 (4 - emax)); [apply Rle_trans with (1 := E2); apply Rmult_le_compat_l; [lra|]; apply bpow_le; lia|]. apply Rmult_le_compat_l; [lra|].
    destruct (Rle_or_lt (kappa * M) 1).
    - apply Rle_trans with (kappa * M); auto. apply Rle_trans with (1 := Lo). rewrite <- (Rmult_1_l (kappa * M)) at 3. apply Rmult_le_compat_r; lra.
    - apply Rle_trans with 1; [|lra]. change 1 with (bpow radix2 0). apply bpow_le. destruct (Z.le_gt_cases 4 emax); [lia|]. exfalso. assert (bpow radix2 emax <= bpow radix2 4) by (apply bpow_le; lia). change (bpow radix2 4) with 16 in *. lra. }
  assert (UM : 0 < u * M) by (apply Rmult_lt_0_compat; auto).
  assert (Cl : three c /\ dist3 (vals c) (turned flip (vals r) z) <= 30 * (u * M)).
  { assert (X : 4 * u * (M * nz) + 4 * eta + 20 * u * M <= 30 * (u * M)). { assert (u * M * nz <= u * M * (9 / 8)) by (apply Rmult_le_compat_l; lra). lra. }
    destruct flip; cbn [vturned turned] in *.
    - destruct (cross_close zh r c z (vals r) (20 * u) 0 Tz Tr Ec) as [A C]; auto; [fold M nz; rewrite Rmult_comm; exact Fit|right; unfold dist3; rewrite (norm_ext 3 _ (fun _ => 0)) by (intros; ring); rewrite norm_const; lra|].
      split; [auto|]. fold M nz in C. rewrite (Rmult_comm nz M) in C. lra.
    - destruct (cross_close r zh c (vals r) z 0 (20 * u) Tr Tz Ec) as [A C]; auto; [right; unfold dist3; rewrite (norm_ext 3 _ (fun _ => 0)) by (intros; ring); rewrite norm_const; lra|].
      split; [auto|]. fold M nz in C. lra. }
  destruct Cl as [Tc Dc]. set (q := turned flip (vals r) z) in *. assert (Nq : norm 3 q = norm 3 (cross3 (vals r) z)) by apply turned_norm.
  assert (UK : 0 <= u / kappa <= / 256). { split; [apply Rlt_le, Rdiv_lt_0_compat; auto|]. apply Rmult_le_reg_r with kappa; auto. unfold Rdiv. rewrite Rmult_assoc, Rinv_l by lra. lra. }
  destruct (normalize_close IM c w q (30 * (u / kappa)) Tc Ew) as [Tw Dw].
  - eapply Rle_trans; [exact Dc|]. rewrite Nq. apply Rle_trans with (30 * (u / kappa) * (kappa * M)); [right; field; lra|]. apply Rmult_le_compat_l; lra.
  - lra.
  - rewrite Nq. pose proof (cross_norm (vals r) z) as C. rewrite Hz, Rmult_1_r in C. fold M in C. pose proof (norm_pos 3 (cross3 (vals r) z)). split.
    + eapply Rle_trans; [exact Lo|]. apply Rmult_le_compat; lra.
    + apply Rle_trans with (M * M); [apply Rmult_le_compat; lra|]. lra.
  - split; [auto|]. assert (u <= u / kappa). { apply Rmult_le_reg_r with kappa; auto. unfold Rdiv. rewrite Rmult_assoc, Rinv_l by lra. apply Rmult_le_compat_l; lra. } lra.
Qed.
Lemma third_axis flip (zh w f : list F) z x kappa : three zh -> three w -> norm 3 z = 1 -> norm 3 x = 1 -> dist3 (vals zh) z <= 20 * u -> dist3 (vals w) x <= 78 * (u / kappa) -> 256 * u <= kappa -> kappa <= 1 ->
  vturned flip zh w = Ok f -> three f /\ dist3 (vals f) (turned flip z x) <= 120 * (u / kappa).
Proof.
  intros Tz Tw Hz Hx Dz Dw Hk K1 E. destruct (eight_bits prec emax U256) as (U & [Et Eu] & P512 & _).
  assert (K0 : 0 < kappa) by lra. assert (UK : 0 <= u / kappa <= / 256). { split; [apply Rlt_le, Rdiv_lt_0_compat; auto|]. apply Rmult_le_reg_r with kappa; auto. unfold Rdiv. rewrite Rmult_assoc, Rinv_l by lra. lra. }
  assert (UK1 : u <= u / kappa). { apply Rmult_le_reg_r with kappa; auto. unfold Rdiv. rewrite Rmult_assoc, Rinv_l by lra. apply Rmult_le_compat_l; lra. }
  pose proof (dist_norm (vals zh) z) as Nz. rewrite Hz in Nz. pose proof (norm_pos 3 (vals zh)) as Nz0. pose proof (dist_norm (vals w) x) as Nx. rewrite Hx in Nx. pose proof (norm_pos 3 (vals w)) as Nx0. set (nz := norm 3 (vals zh)) in *. set (nx := norm 3 (vals w)) in *.
  assert (Z8 : nz <= 27 / 25) by lra. assert (X8 : nx <= 131 / 100) by lra. assert (P : nz * nx <= 27 / 25 * (131 / 100)) by (apply Rmult_le_compat; auto). assert (P0 : 0 <= nz * nx) by (apply Rmult_le_pos; auto).
  assert (P3 : 64 <= bpow radix2 (emax - 3)). { assert (X : bpow radix2 emax = 8 * bpow radix2 (emax - 3)) by (change 8 with (bpow radix2 3); rewrite <- bpow_plus; f_equal; ring). lra. }
  assert (Q1 : u * (nz * nx) <= u * (27 / 25 * (131 / 100))) by (apply Rmult_le_compat_l; lra). assert (Q2 : u * nx <= u * (131 / 100)) by (apply Rmult_le_compat_l; lra). assert (Q3 : u / kappa * nz <= u / kappa * (27 / 25)) by (apply Rmult_le_compat_l; lra).
  destruct flip; cbn [vturned turned] in *.
  - destruct (cross_close w zh f x z (78 * (u / kappa)) (20 * u) Tw Tz E) as [A C]; auto; [fold nz nx; lra|]. split; [auto|]. fold nz nx in C. rewrite Hx in C. lra.
  - destruct (cross_close zh w f z x (20 * u) (78 * (u / kappa)) Tz Tw E) as [A C]; auto; [fold nz nx; lra|]. split; [auto|]. fold nz nx in C. rewrite Hz in C. lra.
Qed.
(** three vectors close to an orthonormal frame, as rows or as columns *)
Lemma columns_orthogonal z r : norm 3 z = 1 -> norm 3 (cross3 r z) <> 0 -> near_orthogonal 3 0 (fun i j => (match j with 0%nat => direction (cross3 r z) | 1%nat => cross3 z (direction (cross3 r z)) | _ => z end) i).
Proof.
  intros Hz Hc. destruct (frame_facts z r Hz Hc) as (Z1 & X1 & Y1 & XY & XZ & YZ). set (x := direction (cross3 r z)) in *. 
  assert (O : RotFacts.orth (fun j i => (match j with 0%nat => x | 1%nat => cross3 z x | _ => z end) i)).
  { cbn [rsum] in *. unfold RotFacts.orth. repeat split; try lra. rewrite <- Y1. cbn [cross3]. ring. }
  destruct (RotFacts.orth_cols _ O) as (C1 & C2 & C3 & C4 & C5 & C6). apply orthogonal3; cbn [rsum]; lra.
Qed.
(** ** Theorems *)
(** look_at(): with sin(up, target - position) at least [kappa], every element of the rotation is within 120 u / kappa of
    the exact camera axes, the matrix is a rotation up to 600 u / kappa, and the eye goes to the origin up to 5 u |position| *)
Theorem look_at_accuracy : forall (MO : MathOps F), ieee_math prec emax MO -> forall (m m' : mx F) position target up h kappa, three position -> three target -> three up ->
  let d := fun i => vals target i - vals position i in
  in_range 1 d -> in_range kappa (vals up) -> 256 * u <= kappa -> kappa * norm 3 (vals up) <= norm 3 (cross3 (vals up) (direction d)) ->
  matrix_look_at m position target up h = Ok m' ->
  (forall i j, (i < 3)%nat -> (j < 3)%nat -> fin (be m' i j) /\ Rabs (B m' i j - camera_axes h d (vals up) j i) <= 120 * (u / kappa)) /\
  near_orthogonal 3 (600 * (u / kappa)) (B m') /\
  forall j, (j < 3)%nat -> fin (be m' 3%nat j) -> Rabs (rsum 3 (fun i => vals position i * B m' i j) + B m' 3%nat j) <= 5 * u * norm 3 (vals position) + 4 * eta.
Proof.
  intros MO IM m m' p t up h kappa Tp Tt Tu d [Lo Hi] Ru Hk Hc E. rewrite Rmult_1_l in Lo. destruct (eight_bits prec emax U256) as (U & [Et Eu] & P512 & [G1 G3] & _).
  pose proof (bpow_gt_0 radix2 (4 - emax)) as Pp. pose proof (norm_pos 3 d) as D0. set (nd := norm 3 d) in *.
  assert (D1 : nd <> 0). { intros Z. rewrite Z in Lo. lra. }
  assert (P4 : 32 <= bpow radix2 (emax - 4)). { assert (X : bpow radix2 emax = 16 * bpow radix2 (emax - 4)) by (change 16 with (bpow radix2 4); rewrite <- bpow_plus; f_equal; ring). lra. }
  assert (P24 : bpow radix2 (emax - 2) = 4 * bpow radix2 (emax - 4)) by (change 4 with (bpow radix2 2) at 1; rewrite <- bpow_plus; f_equal; ring).
  assert (P34 : bpow radix2 (emax - 3) = 2 * bpow radix2 (emax - 4)) by (change 2 with (bpow radix2 1); rewrite <- bpow_plus; f_equal; ring).
  assert (Mbig : nd <= bpow radix2 (emax - 4) \/ nd <= 1). { destruct (Rle_or_lt nd 1); [auto|left]. apply Rle_trans with (nd * nd); [rewrite <- (Rmult_1_l nd) at 1; apply Rmult_le_compat_r; lra|auto]. }
  destruct (look_at_eval m m' p t up h E) as (dh & e & x0 & x & y & Ed & Ee & Ex0 & Ex & Ey & Eb & Eq). cbv zeta in Ex0, Ey, Eb, Eq.
  destruct (sub_close t p dh Tt Tp Ed) as [Td Dd]; [fold d; fold nd; destruct Mbig; lra|]. fold d nd in Dd.
  destruct (normalize_close IM dh e d u Td Ee Dd) as [Te De]; [lra|fold nd; lra|].
  set (s := match h with left_handed => 1 | right_handed => -1 end). assert (S1 : Rabs s = 1) by (unfold s; destruct h; [apply Rabs_R1|rewrite Rabs_left; lra]).
  pose proof (dist_norm (vals e) (direction d)) as Ne. rewrite direction_norm in Ne by auto.
  destruct (sign_scale h e Te) as [Tz Vz]; [lra|]. fold s in Vz. set (zh := vscale (sign_of h) e) in *. set (z := fun i => s * direction d i).
  assert (Hz : norm 3 z = 1) by (unfold z; rewrite norm_scal, S1, direction_norm by auto; ring).
  assert (Dz : dist3 (vals zh) z <= 20 * u). { unfold dist3. rewrite (norm_ext 3 _ (fun i => s * (vals e i - direction d i))) by (intros k Hk'; rewrite Vz by auto; unfold z; ring). rewrite norm_scal, S1. unfold dist3 in De. lra. }
  assert (Nc : norm 3 (cross3 (vals up) z) = norm 3 (cross3 (vals up) (direction d))).
  { rewrite (norm_ext 3 _ (fun i => s * cross3 (vals up) (direction d) i)) by (intros k _; unfold z, cross3; destruct k as [|[|k]]; ring). rewrite norm_scal, S1. ring. }
  assert (Hc' : kappa * norm 3 (vals up) <= norm 3 (cross3 (vals up) z)) by (rewrite Nc; exact Hc).
  destruct (perpendicular IM false zh up x0 x z kappa Tz Tu Hz Dz Hk Hc' Ru Ex0 Ex) as [Tx Dx]. cbn [turned] in Dx.
  assert (M1 : 0 < kappa * norm 3 (vals up)). { destruct Ru as [A _]. assert (0 <= norm 3 (vals up)) by apply norm_pos. destruct (Rle_lt_or_eq_dec 0 (kappa * norm 3 (vals up)) ltac:(apply Rmult_le_pos; lra)) as [|Z]; auto. rewrite <- Z in A. lra. }
  assert (C0 : norm 3 (cross3 (vals up) z) <> 0) by lra.
  assert (K1 : kappa <= 1). { pose proof (cross_norm (vals up) z) as C. rewrite Hz in C. assert (0 < norm 3 (vals up)). { destruct (norm_pos 3 (vals up)) as [|Z]; auto. rewrite <- Z in M1. lra. } apply Rmult_le_reg_r with (norm 3 (vals up)); auto. lra. }
  set (xe := direction (cross3 (vals up) z)) in *. assert (Hx : norm 3 xe = 1) by (apply direction_norm; auto).
  destruct (third_axis false zh x y z xe kappa Tz Tx Hz Hx Dz Dx Hk K1 Ey) as [Ty Dy]. cbn [turned] in Dy.
  assert (K0 : 0 < kappa) by lra. assert (UK : 0 <= u / kappa <= / 256). { split; [apply Rlt_le, Rdiv_lt_0_compat; auto|]. apply Rmult_le_reg_r with kappa; auto. unfold Rdiv. rewrite Rmult_assoc, Rinv_l by lra. lra. }
  assert (UK1 : u <= u / kappa). { apply Rmult_le_reg_r with kappa; auto. unfold Rdiv. rewrite Rmult_assoc, Rinv_l by lra. apply Rmult_le_compat_l; lra. }
  assert (Col : forall j, (j < 3)%nat -> three (nth j [x; y; zh] []) /\ dist3 (vals (nth j [x; y; zh] [])) (camera_axes h d (vals up) j) <= 120 * (u / kappa)).
  { intros j Hj. unfold camera_axes. fold s z xe. destruct j as [|[|[|j]]]; [..|lia]; cbn [nth]; split; auto; lra. }
  assert (En : forall i j, (i < 3)%nat -> (j < 3)%nat -> fin (be m' i j) /\ Rabs (B m' i j - camera_axes h d (vals up) j i) <= 120 * (u / kappa)).
  { intros i j Hi' Hj. rewrite (Eb i j Hi' Hj). destruct (Col j Hj) as [[_ Fj] Dj]. split; [auto|]. eapply Rle_trans; [|exact Dj]. apply (dist_term (vals (nth j [x; y; zh] []))). auto. }
  split; [exact En|]. split.
  - replace (600 * (u / kappa)) with (5 * (120 * (u / kappa))) by ring. apply (rows_close (fun i j => camera_axes h d (vals up) j i)); [|lra|intros; apply En; auto].
    pose proof (columns_orthogonal z (vals up) Hz C0) as O. intros i j Hi' Hj. specialize (O i j Hi' Hj). unfold gram in *. rewrite (rsum_ext 3 _ (fun k => (match k with 0%nat => xe | 1%nat => cross3 z xe | _ => z end) i * (match k with 0%nat => xe | 1%nat => cross3 z xe | _ => z end) j)); [exact O|].
    intros k Hk'. unfold camera_axes. fold s z xe. destruct k as [|[|k]]; reflexivity.
  - intros j Hj Fj. destruct (Eq j Hj) as (q & Q & Bq). rewrite Bq in *. rewrite (fin_neg prec emax) in Fj. destruct (dot_accuracy prec emax p _ q Q Fj) as [_ A]. unfold accurate in A. destruct Tp as [Lp Fp]. rewrite Lp in A. replace (INR 3) with 3 in A by (cbn; lra).
    destruct (Col j Hj) as [_ Dj]. set (c := nth j [x; y; zh] []) in *.
    assert (Nj : norm 3 (vals c) <= 3 / 2). { pose proof (dist_norm (vals c) (camera_axes h d (vals up) j)) as N1. assert (norm 3 (camera_axes h d (vals up) j) <= 1). { unfold camera_axes. fold s z xe. destruct j as [|[|j]]; [lra| |lra]. pose proof (cross_norm z xe) as X. rewrite Hz, Hx in X. lra. } lra. }
    pose proof (cauchy 3 (fun k => Rabs (vals p k)) (fun k => Rabs (vals c k))) as Cy. rewrite !norm_abs in Cy. rewrite (rsum_ext 3 _ (fun k => Rabs (vals p k * vals c k))) in Cy by (intros; rewrite Rabs_mult; reflexivity). set (S := rsum 3 (fun k => Rabs (vals p k * vals c k))) in *.
    pose proof (Rle_abs S) as S1'. pose proof (norm_pos 3 (vals p)) as Np. assert (norm 3 (vals p) * norm 3 (vals c) <= norm 3 (vals p) * (3 / 2)) by (apply Rmult_le_compat_l; auto).
    assert (0 <= S) by (apply rsum_nonneg; intros; apply Rabs_pos).
    rewrite (val_neg prec emax). rewrite (rsum_ext 3 _ (fun k => vals p k * vals c k)) by (intros k Hk'; rewrite (Eb k j Hk' Hj); reflexivity).
    replace (rsum 3 (fun k => vals p k * vals c k) + - val q) with (- (val q - rsum 3 (fun k => vals p k * vals c k))) by ring. rewrite Rabs_Ropp. eapply Rle_trans; [exact A|].
    assert (((1 + u) ^ 3 - 1) * S <= 151 / 50 * u * (norm 3 (vals p) * (3 / 2))) by (apply Rmult_le_compat; lra). assert (3 * (1 + u) ^ 3 * eta <= 4 * eta) by (apply Rmult_le_compat_r; lra).
    assert (0 <= u * norm 3 (vals p)) by (apply Rmult_le_pos; lra). lra.
Qed.
Lemma aligned_orthogonal o a r : norm 3 a <> 0 -> norm 3 (cross3 r (direction a)) <> 0 -> near_orthogonal 3 0 (aligned_axes o a r).
Proof.
  intros Ha Hc. pose proof (direction_norm a Ha) as Hz. destruct (frame_facts (direction a) r Hz Hc) as (Z1 & X1 & Y1 & XY & XZ & YZ).
  set (e := direction a) in *. set (x := direction (cross3 r e)) in *. set (w := direction (cross3 e r)).
  assert (W : forall k, w k = - x k). { intros k. unfold w, x, direction. pose proof (turned_norm true r e) as N. cbn [turned] in N. rewrite N. assert (C : cross3 e r k = - cross3 r e k) by (unfold cross3; destruct k as [|[|k]]; ring). rewrite C. unfold Rdiv. ring. }
  assert (Y : forall k, cross3 w e k = cross3 e x k). { intros k. unfold cross3. rewrite !W. destruct k as [|[|k]]; ring. }
  cbn [rsum] in *. rewrite <- !Y in *. pose proof (W 0%nat) as W0. pose proof (W 1%nat) as W1. pose proof (W 2%nat) as W2. set (f := cross3 w e) in *.
  assert (A : forall n, aligned_axes o a r n = let '(i, j, k) := ao_name o in if Z.eqb (Z.of_nat n) i then e else if Z.eqb (Z.of_nat n) j then f else fun t => IZR (perm_sign i j k) * w t) by reflexivity. clearbody f w x e.
  assert (X0 : x 0%nat = - w 0%nat) by lra. assert (X1' : x 1%nat = - w 1%nat) by lra. assert (X2 : x 2%nat = - w 2%nat) by lra. rewrite X0, X1', X2 in *.
  destruct o; apply orthogonal3; cbn [rsum]; rewrite !A; cbn [ao_name Z.of_nat Pos.of_succ_nat Pos.succ Z.eqb Pos.eqb];
    try change (perm_sign 0 1 2) with 1%Z; try change (perm_sign 0 2 1) with (-1)%Z; try change (perm_sign 1 2 0) with 1%Z; try change (perm_sign 1 0 2) with (-1)%Z; try change (perm_sign 2 0 1) with 1%Z; try change (perm_sign 2 1 0) with (-1)%Z; lra.
Qed.
Lemma align_core {MO : MathOps F} (IM : ieee_math prec emax MO) (m' : mx F) o (a : nat -> R) (r e c w f : list F) kappa : three r -> three e -> norm 3 a <> 0 -> dist3 (vals e) (direction a) <= 20 * u ->
  in_range kappa (vals r) -> 256 * u <= kappa -> kappa * norm 3 (vals r) <= norm 3 (cross3 (vals r) (direction a)) ->
  vcross3 e r = Ok c -> vnormalize c = Ok w -> vcross3 w e = Ok f ->
  (let '(i, j, k) := ao_name o in forall n t, (n < 3)%nat -> (t < 3)%nat ->
      be m' n t = el (if Z.eqb (Z.of_nat n) i then e else if Z.eqb (Z.of_nat n) j then f else if Z.eqb (perm_sign i j k) 1 then w else vneg w) t) ->
  (forall n t, (n < 3)%nat -> (t < 3)%nat -> fin (be m' n t) /\ Rabs (B m' n t - aligned_axes o a (vals r) n t) <= 120 * (u / kappa)) /\ near_orthogonal 3 (600 * (u / kappa)) (B m').
Proof.
  intros Tr Te Ha De Ru Hk Hc Ec Ew Ef Eb. destruct (eight_bits prec emax U256) as (U & [Et Eu] & P512 & _). pose proof (direction_norm a Ha) as Hz. pose proof (bpow_gt_0 radix2 (4 - emax)) as Pp.
  destruct (perpendicular IM true e r c w (direction a) kappa Te Tr Hz De Hk Hc Ru Ec Ew) as [Tw Dw]. cbn [turned] in Dw.
  assert (M1 : 0 < kappa * norm 3 (vals r)). { destruct Ru as [A _]. assert (0 <= norm 3 (vals r)) by apply norm_pos. destruct (Rle_lt_or_eq_dec 0 (kappa * norm 3 (vals r)) ltac:(apply Rmult_le_pos; lra)) as [|Z]; auto. rewrite <- Z in A. lra. }
  assert (C0 : norm 3 (cross3 (vals r) (direction a)) <> 0) by lra.
  assert (K1 : kappa <= 1). { pose proof (cross_norm (vals r) (direction a)) as C. rewrite Hz in C. assert (0 < norm 3 (vals r)). { destruct (norm_pos 3 (vals r)) as [|Z]; auto. rewrite <- Z in M1. lra. } apply Rmult_le_reg_r with (norm 3 (vals r)); auto. lra. }
  assert (K0 : 0 < kappa) by lra. assert (UK : 0 <= u / kappa <= / 256). { split; [apply Rlt_le, Rdiv_lt_0_compat; auto|]. apply Rmult_le_reg_r with kappa; auto. unfold Rdiv. rewrite Rmult_assoc, Rinv_l by lra. lra. }
  assert (UK1 : u <= u / kappa). { apply Rmult_le_reg_r with kappa; auto. unfold Rdiv. rewrite Rmult_assoc, Rinv_l by lra. apply Rmult_le_compat_l; lra. }
  set (we := direction (cross3 (direction a) (vals r))) in *.
  assert (Hw : norm 3 we = 1). { apply direction_norm. pose proof (turned_norm true (vals r) (direction a)) as N. cbn [turned] in N. rewrite N. auto. }
  destruct (third_axis true e w f (direction a) we kappa Te Tw Hz Hw De Dw Hk K1 Ef) as [Tf Df]. cbn [turned] in Df.
  assert (NW : three (vneg w) /\ dist3 (vals (vneg w)) (fun t => - we t) <= 120 * (u / kappa)).
  { destruct Tw as [Lw Fw]. assert (Ew' : forall k, (k < 3)%nat -> el (vneg w) k = neg (el w k)) by (unfold vneg; rewrite Lw; apply cases3; reflexivity).
    split; [split; [unfold vneg; rewrite Lw; reflexivity|intros k Hk'; rewrite Ew' by auto; rewrite (fin_neg prec emax); auto]|].
    apply Rle_trans with (dist3 (vals w) we); [|lra]. right. unfold dist3. rewrite <- (norm_abs 3 (fun i => vals w i - we i)), <- (norm_abs 3 (fun i => vals (vneg w) i - - we i)). apply norm_ext. intros k Hk'.
    unfold PropFloat.vals at 1. change (nth k (vneg w) zero) with (el (vneg w) k). rewrite Ew' by auto. rewrite (val_neg prec emax). change (val (el w k)) with (vals w k). rewrite <- (Rabs_Ropp (vals w k - we k)). f_equal. ring. }
  destruct NW as [Tn Dn].
  assert (DW : dist3 (vals w) (fun t => 1 * we t) <= 120 * (u / kappa)). { unfold dist3. rewrite (norm_ext 3 _ (fun i => vals w i - we i)) by (intros; ring). unfold dist3 in Dw. lra. }
  assert (DN : dist3 (vals (vneg w)) (fun t => -1 * we t) <= 120 * (u / kappa)). { unfold dist3. rewrite (norm_ext 3 _ (fun i => vals (vneg w) i - - we i)) by (intros; ring). exact Dn. }
  assert (En : forall n t, (n < 3)%nat -> (t < 3)%nat -> fin (be m' n t) /\ Rabs (B m' n t - aligned_axes o a (vals r) n t) <= 120 * (u / kappa)).
  { intros n t Hn Ht.
    assert (Row : forall (v : list F) ax, be m' n t = el v t -> three v -> dist3 (vals v) ax <= 120 * (u / kappa) -> fin (be m' n t) /\ Rabs (val (be m' n t) - ax t) <= 120 * (u / kappa)).
    { intros v ax E [_ Fv] D. rewrite E. split; [auto|]. eapply Rle_trans; [|exact D]. apply (dist_term (vals v)). auto. }
    assert (De' : dist3 (vals e) (direction a) <= 120 * (u / kappa)) by lra.
    destruct o; cbn [ao_name] in Eb; unfold aligned_axes; cbn [ao_name]; fold we; specialize (Eb n t Hn Ht); destruct n as [|[|[|n]]]; try lia; cbn [Z.of_nat Pos.of_succ_nat Pos.succ Z.eqb Pos.eqb] in *; 
      try (eapply Row; [exact Eb| |]; assumption); try (apply (Row w (fun t => 1 * we t)); assumption); apply (Row (vneg w) (fun t => -1 * we t)); assumption. }
  split; [exact En|]. replace (600 * (u / kappa)) with (5 * (120 * (u / kappa))) by ring. apply (rows_close (aligned_axes o a (vals r))); [apply aligned_orthogonal; auto|lra|intros; apply En; auto].
Qed.
(** matrix_rotation_align() *)
Theorem align_accuracy : forall (MO : MathOps F), ieee_math prec emax MO -> forall (m m' : mx F) a r (normalize : bool) o kappa, three a -> three r ->
  (if normalize then in_range 1 (vals a) else Rabs (norm 3 (vals a) - 1) <= 20 * u) ->
  in_range kappa (vals r) -> 256 * u <= kappa -> kappa * norm 3 (vals r) <= norm 3 (cross3 (vals r) (direction (vals a))) ->
  matrix_rotation_align m a r normalize (ao_value o) = Ok m' ->
  (forall n t, (n < 3)%nat -> (t < 3)%nat -> fin (be m' n t) /\ Rabs (B m' n t - aligned_axes o (vals a) (vals r) n t) <= 120 * (u / kappa)) /\ near_orthogonal 3 (600 * (u / kappa)) (B m').
Proof.
  intros MO IM m m' a r normalize o kappa Ta Tr Hn Ru Hk Hc E. destruct (eight_bits prec emax U256) as (U & [Et Eu] & P512 & _). pose proof (bpow_gt_0 radix2 (4 - emax)) as Pp.
  destruct (align_eval m m' a r normalize o E) as (_ & e & c & w & f & Ee & Ec & Ew & Ef & Eb).
  assert (P34 : bpow radix2 (emax - 3) = 2 * bpow radix2 (emax - 4)) by (change 2 with (bpow radix2 1); rewrite <- bpow_plus; f_equal; ring). pose proof (bpow_gt_0 radix2 (emax - 4)) as Pq.
  assert (Na : norm 3 (vals a) <> 0). { destruct normalize; [destruct Hn as [Lo _]; intros Z; rewrite Z in Lo; lra|]. apply Rabs_le_inv in Hn. lra. }
  assert (D : three e /\ dist3 (vals e) (direction (vals a)) <= 20 * u).
  { destruct normalize.
    - destruct Hn as [Lo Hi]. rewrite Rmult_1_l in Lo. destruct (normalize_close IM a e (vals a) 0 Ta Ee) as [A C]; [unfold dist3; rewrite (norm_ext 3 _ (fun _ => 0)) by (intros; ring); rewrite norm_const; lra|lra|lra|]. split; [auto|lra].
    - apply ok_inj in Ee. subst e. split; [auto|]. rewrite direction_of_unit; auto. }
  destruct D as [Te De]. apply (align_core IM m' o (vals a) r e c w f kappa); auto.
Qed.
(** matrix_rotation_aim_at() *)
Theorem aim_at_accuracy : forall (MO : MathOps F), ieee_math prec emax MO -> forall (m m' : mx F) position target r o kappa, three position -> three target -> three r ->
  let d := fun i => vals target i - vals position i in
  in_range 1 d -> in_range kappa (vals r) -> 256 * u <= kappa -> kappa * norm 3 (vals r) <= norm 3 (cross3 (vals r) (direction d)) ->
  matrix_rotation_aim_at m position target r (ao_value o) = Ok m' ->
  (forall n t, (n < 3)%nat -> (t < 3)%nat -> fin (be m' n t) /\ Rabs (B m' n t - aligned_axes o d (vals r) n t) <= 120 * (u / kappa)) /\ near_orthogonal 3 (600 * (u / kappa)) (B m').
Proof.
  intros MO IM m m' p t r o kappa Tp Tt Tr d [Lo Hi] Ru Hk Hc E. rewrite Rmult_1_l in Lo. destruct (eight_bits prec emax U256) as (U & [Et Eu] & P512 & _). pose proof (bpow_gt_0 radix2 (4 - emax)) as Pp.
  unfold matrix_rotation_aim_at in E. apply bind_ok in E. destruct E as (dh & Ed & E). destruct (align_eval m m' dh r true o E) as (_ & e & c & w & f & Ee & Ec & Ew & Ef & Eb).
  set (nd := norm 3 d) in *. pose proof (norm_pos 3 d) as D0. fold nd in D0. assert (D1 : nd <> 0). { intros Z. rewrite Z in Lo. lra. }
  assert (P4 : 32 <= bpow radix2 (emax - 4)). { assert (X : bpow radix2 emax = 16 * bpow radix2 (emax - 4)) by (change 16 with (bpow radix2 4); rewrite <- bpow_plus; f_equal; ring). lra. }
  assert (P24 : bpow radix2 (emax - 2) = 4 * bpow radix2 (emax - 4)) by (change 4 with (bpow radix2 2) at 1; rewrite <- bpow_plus; f_equal; ring).
  assert (P34 : bpow radix2 (emax - 3) = 2 * bpow radix2 (emax - 4)) by (change 2 with (bpow radix2 1); rewrite <- bpow_plus; f_equal; ring).
  assert (Mbig : nd <= bpow radix2 (emax - 4) \/ nd <= 1). { destruct (Rle_or_lt nd 1); [auto|left]. apply Rle_trans with (nd * nd); [rewrite <- (Rmult_1_l nd) at 1; apply Rmult_le_compat_r; lra|auto]. }
  destruct (sub_close t p dh Tt Tp Ed) as [Td Dd]; [fold d; fold nd; destruct Mbig; lra|]. fold d nd in Dd.
  destruct (normalize_close IM dh e d u Td Ee Dd) as [Te De]; [lra|fold nd; lra|].
  apply (align_core IM m' o d r e c w f kappa); auto. lra.
Qed.
End IEEE.

(** ** Examples in double precision *)
Definition ex_m4 : mx double := Mx 4 4 row_basis (fun _ _ => dbl 0 0).
Definition ex_p : list double := [dbl 1 0; dbl 2 0; dbl 3 0].
Definition ex_t : list double := [dbl 4 0; dbl (-2) 0; dbl 15 0].
Definition ex_up : list double := [dbl 0 0; dbl 1 0; dbl 0 0].
Lemma dbl_ok m e : (Z.abs m < 2 ^ 53)%Z -> (-1000 <= e <= 900)%Z -> is_finite (dbl m e) = true /\ B2R (dbl m e) = IZR m * bpow radix2 e.
Proof. apply dbl_val. Qed.
Lemma ex_three : three 53 1024 ex_p /\ three 53 1024 ex_t /\ three 53 1024 ex_up.
Proof. repeat split; apply cases3; apply dbl_ok; lia. Qed.
Lemma ex_d i : (i < 3)%nat -> vals 53 1024 ex_t i - vals 53 1024 ex_p i = match i with 0%nat => 3 | 1%nat => -4 | _ => 12 end.
Proof. revert i. apply cases3; unfold vals; cbn [nth ex_t ex_p]; rewrite !(fun m e A B => proj2 (dbl_ok m e A B)) by lia; cbn; ring. Qed.
Lemma ex_u i : (i < 3)%nat -> vals 53 1024 ex_up i = match i with 1%nat => 1 | _ => 0 end.
Proof. revert i. apply cases3; unfold vals; cbn [nth ex_up]; rewrite !(fun m e A B => proj2 (dbl_ok m e A B)) by lia; cbn; ring. Qed.
Lemma ex_hyps : let d := fun i => vals 53 1024 ex_t i - vals 53 1024 ex_p i in
  in_range 1024 1 d /\ in_range 1024 (/ 2) (vals 53 1024 ex_up) /\ 256 * u_round 53 <= / 2 /\ / 2 * norm 3 (vals 53 1024 ex_up) <= norm 3 (cross3 (vals 53 1024 ex_up) (direction d)).
Proof.
  intros d. assert (Nd : norm 3 d = 13). { pose proof (norm_pos 3 d). assert (Q : norm 3 d * norm 3 d = 13 * 13). { rewrite norm_sq. cbn [rsum]. unfold d. rewrite !ex_d by lia. ring. } apply Rle_antisym; apply sq_le; lra. }
  assert (Nu : norm 3 (vals 53 1024 ex_up) = 1). { pose proof (norm_pos 3 (vals 53 1024 ex_up)). assert (Q : norm 3 (vals 53 1024 ex_up) * norm 3 (vals 53 1024 ex_up) = 1 * 1). { rewrite norm_sq. cbn [rsum]. rewrite !ex_u by lia. ring. } apply Rle_antisym; apply sq_le; lra. }
  assert (L : bpow radix2 (4 - 1024) <= bpow radix2 (-10)) by (apply bpow_le; lia). assert (H : bpow radix2 10 <= bpow radix2 (1024 - 4)) by (apply bpow_le; lia). assert (B1 : bpow radix2 (-10) = / 1024) by (cbn; lra). assert (B2 : bpow radix2 10 = 1024) by (cbn; lra).
  unfold in_range. rewrite Nd, Nu. split; [split; lra|]. split; [split; lra|]. split.
  - apply Rle_trans with (256 * bpow radix2 (-20)); [apply Rmult_le_compat_l; [lra|]; apply bpow_le; lia|]. cbn. lra.
  - apply sq_le; [apply norm_pos|]. rewrite norm_sq. cbn [rsum cross3]. rewrite !ex_u by lia. unfold direction. rewrite Nd. unfold d. rewrite !ex_d by lia. lra.
Qed.
Lemma u53_small : 0 < u_round 53 <= / 1000000000000. Proof. split; [apply u_pos|]. apply Rle_trans with (bpow radix2 (-40)); [apply bpow_le; lia|]. cbn. lra. Qed.
Example look_at_case : exists m', @matrix_look_at double _ turn_math ex_m4 ex_p ex_t ex_up right_handed = Ok m' /\ near_orthogonal 3 (/ 100000000) (fun i j => B2R (be m' i j)) /\
  Rabs (B2R (be m' 1 2) - 4 / 13) <= / 100000000.
Proof.
  assert (E : exists m', @matrix_look_at double _ turn_math ex_m4 ex_p ex_t ex_up right_handed = Ok m') by (eexists; reflexivity). destruct E as [m' E]. exists m'. split; [exact E|].
  destruct ex_three as (Tp & Tt & Tu). destruct ex_hyps as (H1 & H2 & H3 & H4). pose proof u53_small as U. assert (U2 : u_round 53 <= / 256) by lra.
  destruct (look_at_accuracy 53 1024 U2 turn_math ltac:(split; reflexivity) ex_m4 m' ex_p ex_t ex_up right_handed (/ 2) Tp Tt Tu H1 H2 H3 H4 E) as (A & C & _).
  assert (K : u_round 53 / / 2 = 2 * u_round 53) by field. rewrite K in *. split.
  - intros i j Hi Hj. eapply Rle_trans; [apply C; auto|]. lra.
  - destruct (A 1%nat 2%nat ltac:(lia) ltac:(lia)) as [_ X]. cbn [camera_axes] in X. unfold direction in X. 
    assert (Nd : norm 3 (fun i => vals 53 1024 ex_t i - vals 53 1024 ex_p i) = 13). { pose proof (norm_pos 3 (fun i => vals 53 1024 ex_t i - vals 53 1024 ex_p i)). assert (Q : norm 3 (fun i => vals 53 1024 ex_t i - vals 53 1024 ex_p i) * norm 3 (fun i => vals 53 1024 ex_t i - vals 53 1024 ex_p i) = 13 * 13). { rewrite norm_sq. cbn [rsum]. rewrite !ex_d by lia. ring. } apply Rle_antisym; apply sq_le; lra. }
    assert (V1 : vals 53 1024 ex_t 1%nat - vals 53 1024 ex_p 1%nat = -4) by (apply (ex_d 1%nat); lia). rewrite Nd, V1 in X. assert (Y : forall y, Rabs (y - -1 * (-4 / 13)) <= 120 * (2 * u_round 53) -> Rabs (y - 4 / 13) <= / 100000000) by (intros y Hy; apply Rabs_le_inv in Hy; apply Rabs_le; lra). exact (Y _ X).
Qed.
Example aim_at_case : exists m', @matrix_rotation_aim_at double _ turn_math ex_m ex_p ex_t ex_up (ao_value ao_zyx) = Ok m' /\ near_orthogonal 3 (/ 100000000) (fun i j => B2R (be m' i j)).
Proof.
  assert (E : exists m', @matrix_rotation_aim_at double _ turn_math ex_m ex_p ex_t ex_up (ao_value ao_zyx) = Ok m') by (eexists; reflexivity). destruct E as [m' E]. exists m'. split; [exact E|].
  destruct ex_three as (Tp & Tt & Tu). destruct ex_hyps as (H1 & H2 & H3 & H4). pose proof u53_small as U. assert (U2 : u_round 53 <= / 256) by lra.
  destruct (aim_at_accuracy 53 1024 U2 turn_math ltac:(split; reflexivity) ex_m m' ex_p ex_t ex_up ao_zyx (/ 2) Tp Tt Tu H1 H2 H3 H4 E) as (_ & C).
  assert (K : u_round 53 / / 2 = 2 * u_round 53) by field. rewrite K in *. intros i j Hi Hj. eapply Rle_trans; [apply C; auto|]. lra.
Qed.
(** an [up] vector along the line of sight: the call returns a matrix of NaNs; [look_at] neither throws nor chooses another [up] *)
Theorem look_at_parallel_refuted : exists m', @matrix_look_at double _ turn_math ex_m4 ex_p [dbl 1 0; dbl 7 0; dbl 3 0] ex_up left_handed = Ok m' /\
  forall i j, (i < 3)%nat -> (j < 2)%nat -> is_nan (be m' i j) = true.
Proof.
  assert (E : exists m', @matrix_look_at double _ turn_math ex_m4 ex_p [dbl 1 0; dbl 7 0; dbl 3 0] ex_up left_handed = Ok m') by (eexists; reflexivity). destruct E as [m' E]. exists m'. split; [exact E|].
  assert (C : match @matrix_look_at double _ turn_math ex_m4 ex_p [dbl 1 0; dbl 7 0; dbl 3 0] ex_up left_handed with Ok m => forallb (fun i => forallb (fun j => is_nan (be m i j)) [0%nat; 1%nat]) [0%nat; 1%nat; 2%nat] | _ => false end = true) by (vm_compute; reflexivity).
  rewrite E in C. rewrite forallb_forall in C. intros i j Hi Hj. assert (Ii : In i [0%nat; 1%nat; 2%nat]) by (destruct i as [|[|[|i]]]; cbn; auto; lia). specialize (C i Ii). rewrite forallb_forall in C. apply C. destruct j as [|[|j]]; cbn; auto; lia.
Qed.
Print Assumptions look_at_accuracy. Print Assumptions align_accuracy. Print Assumptions aim_at_accuracy. Print Assumptions look_at_parallel_refuted.
