(** C99: degenerate directions in IEEE arithmetic. *)
From Coq Require Import ZArith Bool List Arith Lia Reals Lra.
From Flocq Require Import Core BinarySingleNaN.
From Verif Require Import Base RInst ScalarModel MiscModel VecModel RotModel XfModel GeoModel MatModel MatOps QuatModel FloatModel FloatFacts FloatNorm FloatDot PropFloat PropFloatLU FloatExpr PropFloatForm PropFloatNorm FloatRot PropFloatRot FloatScalar FrameFacts PropFloatFrame.
Import ListNotations.
Open Scope R_scope.

(** ** What the functions compute *)
Section Eval.
Context {T : Type} {Op : Ops T}.
Lemma bind_same {A B} (c1 c2 : out A) (f g : A -> out B) : c1 = c2 -> (forall x, f x = g x) -> (x <- c1 ;; f x) = (x <- c2 ;; g x).
Proof. intros -> H. destruct c2; cbn; auto. Qed.
(** look_at depends on the math library through the square root only *)
Lemma look_at_sqrt (M1 M2 : MathOps T) (m : mx T) p t up h : (forall x : T, @msqrt T M1 x = @msqrt T M2 x) -> @matrix_look_at T Op M1 m p t up h = @matrix_look_at T Op M2 m p t up h.
Proof.
  intros S. assert (N : forall v, @vnormalize T Op M1 v = @vnormalize T Op M2 v) by (intros v; unfold vnormalize, vlength; destruct (vlength_squared v); cbn [bind]; [rewrite S|..]; reflexivity).
  unfold matrix_look_at. repeat (apply bind_same; [first [reflexivity|apply N]|intros]). reflexivity.
Qed.
Lemma normalize_els (MO : MathOps T) v w : vnormalize v = Ok w -> exists l, vlength_squared v = Ok l /\ w = vdiv v (msqrt l) /\ v <> [].
Proof.
  intros E. unfold vnormalize, vlength in E. destruct (vlength_squared v) as [l| |] eqn:L; try discriminate. exists l. cbn in E. apply ok_inj in E. split; [reflexivity|]. split; [auto|]. intros ->. discriminate.
Qed.
Lemma vdiv_el (v : list T) s i : (i < length v)%nat -> el (vdiv v s) i = div (el v i) s.
Proof. intros H. unfold vdiv, elems. unfold el at 1. rewrite (nth_indep _ _ (div (el v 0) s)) by (rewrite map_length, seq_length; auto). rewrite (map_nth (fun i => div (el v i) s)), seq_nth by auto. reflexivity. Qed.
Lemma length_sum (v : list T) l : vlength_squared v = Ok l -> l = accumulate (length v) (fun i => mul (el v i) (el v i)).
Proof. intros E. unfold vlength_squared in E. unfold check_vmin, require in E. destruct (Nat.leb 1 (length v)); [|discriminate]. cbn in E. congruence. Qed.
End Eval.

Section IEEE.
Context (prec emax : Z) {Hprec : Prec_gt_0 prec} {Hmax : Prec_lt_emax prec emax}.
Notation F := (binary_float prec emax).
Notation fin x := (is_finite x = true).
Notation nan x := (is_nan x = true).
Notation three := (PropFloatFrame.three prec emax).

Lemma nan_is (x : F) : nan x -> x = B754_nan. Proof. destruct x; try discriminate; auto. Qed.
Lemma nan_l (x y : F) : nan x -> nan (mul x y) /\ nan (add x y) /\ nan (sub x y) /\ nan (div x y) /\ nan (neg x).
Proof. intros H. rewrite (nan_is x H). repeat split; destruct y; reflexivity. Qed.
Lemma nan_r (x y : F) : nan y -> nan (mul x y) /\ nan (add x y) /\ nan (sub x y).
Proof. intros H. rewrite (nan_is y H). repeat split; destruct x; reflexivity. Qed.
Lemma zero_is (x : F) : fin x -> B2R x = 0 -> exists s, x = B754_zero s.
Proof.
  destruct x as [s|s| |s m e h]; try discriminate; intros _ V; [eauto|]. exfalso. cbn in V. destruct s; apply eq_0_F2R in V; discriminate.
Qed.
Lemma sub_self (x : F) : fin x -> exists s, sub x x = B754_zero s.
Proof.
  intros H. apply zero_is; pose proof (Bminus_correct prec emax Hprec Hmax mode_NE x x H H) as C; rewrite Rminus_diag_eq in C by reflexivity; rewrite round_0 in C by auto with typeclass_instances; rewrite Rabs_R0, Rlt_bool_true in C by apply bpow_gt_0; apply C.
Qed.
Lemma zeros_sum n (x : nat -> F) : (forall i, (i < S n)%nat -> exists s, x i = B754_zero s) -> exists s, accumulate (S n) x = B754_zero s.
Proof.
  intros H. unfold accumulate. assert (G : forall l a, (exists s, a = B754_zero s) -> (forall i, In i l -> (i < S n)%nat) -> exists s, fold_left (fun a i => add a (x i)) l a = B754_zero s).
  { induction l as [|i l IH]; intros a Ha Hl; [exact Ha|]. cbn [fold_left]. apply IH; [|intros; apply Hl; right; auto]. destruct Ha as [s ->]. destruct (H i (Hl i (or_introl eq_refl))) as [t ->]. destruct s, t; eexists; reflexivity. }
  apply G; [apply H; lia|]. intros i Hi. apply in_seq in Hi. lia.
Qed.
(** the zero vector has no direction: normalize() gives NaN in every element *)
Theorem normalize_zero_nan : forall (MO : MathOps F), ieee_math prec emax MO -> forall v w : list F, vnormalize v = Ok w -> (forall i, (i < length v)%nat -> fin (el v i) /\ B2R (el v i) = 0) ->
  length w = length v /\ forall i, (i < length v)%nat -> nan (el w i).
Proof.
  intros MO IM v w E Z. destruct (normalize_els MO v w E) as (l & El & -> & N). split; [unfold vdiv, elems; rewrite map_length, seq_length; reflexivity|]. intros i Hi. rewrite vdiv_el by auto. pose proof (length_sum v l El) as L. destruct v as [|a v]; [congruence|]. cbn [length] in *.
  destruct (zeros_sum (length v) (fun i => mul (el (a :: v) i) (el (a :: v) i))) as [s Hs]; [intros k Hk; destruct (Z k Hk) as [Fk Vk]; destruct (zero_is _ Fk Vk) as [t ->]; destruct t; eexists; reflexivity|]. rewrite L, Hs, (proj1 IM). destruct (Z i Hi) as [Fi Vi]. destruct (zero_is _ Fi Vi) as [t ->]. destruct s, t; reflexivity.
Qed.
Lemma normalize_nan (MO : MathOps F) (v w : list F) : vnormalize v = Ok w -> (forall i, (i < length v)%nat -> nan (el v i)) -> length w = length v /\ forall i, (i < length v)%nat -> nan (el w i).
Proof.
  intros E Z. destruct (normalize_els MO v w E) as (l & El & -> & N). split; [unfold vdiv, elems; rewrite map_length, seq_length; reflexivity|]. intros i Hi. rewrite vdiv_el by auto. apply nan_l. apply Z. auto.
Qed.
Lemma cross_els (a b c : list F) : vcross3 a b = Ok c -> length a = 3%nat /\ length b = 3%nat /\ c = [sub (mul (el a 1) (el b 2)) (mul (el a 2) (el b 1)); sub (mul (el a 2) (el b 0)) (mul (el a 0) (el b 2)); sub (mul (el a 0) (el b 1)) (mul (el a 1) (el b 0))].
Proof.
  intros E. unfold vcross3, check_size, require in E. destruct (Nat.eqb_spec (length a) 3) as [A|]; [|discriminate]. destruct (Nat.eqb_spec (length b) 3) as [C|]; [|discriminate]. cbn [bind] in E. apply ok_inj in E. subst c. repeat split; auto.
Qed.
Lemma cross_nan (a b c : list F) : vcross3 a b = Ok c -> (forall i, (i < 3)%nat -> nan (el b i)) -> length c = 3%nat /\ forall i, (i < 3)%nat -> nan (el c i).
Proof.
  intros E Z. destruct (cross_els a b c E) as (_ & _ & ->). split; [reflexivity|]. intros [|[|[|i]]] Hi; [..|lia]; cbn [el nth]; (apply nan_l; apply nan_r; apply Z; lia).
Qed.
Lemma dot_nan (a b : list F) q : vdot a b = Ok q -> length a = 3%nat -> (forall i, (i < 3)%nat -> nan (el b i)) -> nan q.
Proof.
  intros E A Z. unfold vdot in E. apply check_ok, check_ok, check_ok, ok_inj in E. rewrite A in E. subst q. unfold accumulate. cbn [Nat.sub seq fold_left]. apply nan_r. apply nan_r. apply Z. lia.
Qed.
(** look_at() with the eye at the target: every element of the rotation and of the translation is NaN *)
Theorem look_at_own_target_nan : forall (MO : MathOps F), ieee_math prec emax MO -> forall (m m' : mx F) p up h, matrix_look_at m p p up h = Ok m' -> three p ->
  forall i j, (i < 4)%nat -> (j < 3)%nat -> nan (be m' i j).
Proof.
  intros MO IM m m' p up h E [L3 Fp] i j Hi Hj. destruct (look_at_eval m m' p p up h E) as (d & e & x0 & x & y & Ed & Ee & Ex0 & Ex & Ey & Eb & Et). set (z := vscale (sign_of h) e) in *.
  assert (Zd : length d = 3%nat /\ forall k, (k < 3)%nat -> exists s, el d k = B754_zero s).
  { unfold vsub, check_vsame, require in Ed. rewrite Nat.eqb_refl in Ed. cbn [bind] in Ed. apply ok_inj in Ed. subst d. rewrite L3. split; [reflexivity|]. intros [|[|[|k]]] Hk; [..|lia]; cbn; apply sub_self; apply Fp; lia. }
  destruct Zd as [Ld Zd]. destruct (normalize_zero_nan MO IM d e Ee) as [Le Ne]; [intros k Hk; rewrite Ld in Hk; destruct (Zd k Hk) as [s ->]; split; reflexivity|]. rewrite Ld in Le, Ne.
  assert (Nz : length z = 3%nat /\ forall k, (k < 3)%nat -> nan (el z k)).
  { unfold z, vscale. rewrite Le. split; [reflexivity|]. intros [|[|[|k]]] Hk; [..|lia]; cbn; apply nan_l; apply Ne; lia. }
  destruct Nz as [Lz Nz]. destruct (cross_nan up z x0 Ex0 Nz) as [Lx0 Nx0]. destruct (normalize_nan MO x0 x Ex) as [Lx Nx]; [rewrite Lx0; exact Nx0|]. rewrite Lx0 in Lx, Nx. destruct (cross_nan z x y Ey Nx) as [Ly Ny].
  assert (All : forall k, (k < 3)%nat -> forall l, (l < 3)%nat -> nan (el (nth k [x; y; z] []) l)) by (intros [|[|[|k]]] Hk l Hl; [..|lia]; cbn [nth]; auto).
  destruct (Nat.eq_dec i 3) as [->|Ni].
  - destruct (Et j Hj) as (q & Eq & ->). apply (nan_l q q). apply (dot_nan p _ q Eq L3). apply All. auto.
  - rewrite Eb by lia. apply All; lia.
Qed.
End IEEE.

(** ** up along the line of sight: not even NaN.  Looking from the origin at (11, 5, 3) with up = (11, 5, 3), the cross
    product is made of rounding errors only; the call returns a finite matrix that is not a rotation. *)
Definition ex_o : list double := [dbl 0 0; dbl 0 0; dbl 0 0].
Definition ex_d : list double := [dbl 11 0; dbl 5 0; dbl 3 0].
Definition look := @matrix_look_at double _ (ex_math 53 1024) ex_m4 ex_o ex_d ex_d left_handed.
Theorem look_at_noise_refuted : forall MO : MathOps double, ieee_math 53 1024 MO -> exists (p t up : list double) m', (forall i, (i < 3)%nat -> B2R (el up i) = B2R (el t i) - B2R (el p i)) /\
  matrix_look_at ex_m4 p t up left_handed = Ok m' /\ (forall i j, (i < 4)%nat -> (j < 3)%nat -> is_finite (be m' i j) = true) /\
  (forall i, (i < 3)%nat -> B2R (be m' i 0) = if Nat.eqb i 0 then 1 else 0) /\ 7 / 8 <= rsum 3 (fun i => B2R (be m' i 0%nat) * B2R (be m' i 2%nat)).
Proof.
  intros MO IM. exists ex_o, ex_d, ex_d. rewrite (look_at_sqrt MO (ex_math 53 1024)) by (intros; rewrite (proj1 IM); reflexivity). fold look.
  assert (E : exists m', look = Ok m') by (eexists; reflexivity). destruct E as [m' E]. exists m'.
  split; [intros [|[|[|i]]] Hi; [..|lia]; cbn [el nth ex_o ex_d]; replace (B2R (dbl 0 0)) with 0 by reflexivity; ring|]. split; [exact E|].
  assert (C : match look with Ok m => forallb (fun i => forallb (fun j => is_finite (be m i j)) [0%nat; 1%nat; 2%nat]) [0%nat; 1%nat; 2%nat; 3%nat] && (eqb (be m 0 0) (dbl 1 0) && eqb (be m 1 0) zero && eqb (be m 2 0) zero) && ltb (dbl 7 (-3)) (be m 0 2) | _ => false end = true) by (vm_compute; reflexivity).
  rewrite E in C. apply andb_prop in C. destruct C as [C C3]. apply andb_prop in C. destruct C as [C1 C2]. apply andb_prop in C2. destruct C2 as [C2 K2]. apply andb_prop in C2. destruct C2 as [K0 K1].
  assert (Fa : forall i j, (i < 4)%nat -> (j < 3)%nat -> is_finite (be m' i j) = true).
  { rewrite forallb_forall in C1. intros i j Hi Hj. assert (Ii : In i [0%nat; 1%nat; 2%nat; 3%nat]) by (destruct i as [|[|[|[|i]]]]; cbn; auto; lia). specialize (C1 i Ii). rewrite forallb_forall in C1. apply C1. destruct j as [|[|[|j]]]; cbn; auto; lia. }
  assert (Ev : forall x y : double, eqb x y = true -> is_finite x = true -> is_finite y = true -> B2R x = B2R y).
  { intros x y Exy Fx Fy. cbn in Exy. rewrite (Beqb_correct 53 1024 x y Fx Fy) in Exy. destruct (Req_bool_spec (B2R x) (B2R y)); [auto|discriminate]. }
  assert (V0 : forall i, (i < 3)%nat -> B2R (be m' i 0) = if Nat.eqb i 0 then 1 else 0).
  { intros [|[|[|i]]] Hi; [..|lia]; cbn [Nat.eqb].
    - rewrite (Ev _ _ K0) by (try apply Fa; try lia; apply dbl_ok; lia). destruct (pow2_val 0 ltac:(lia)) as [_ V]. rewrite V. reflexivity.
    - rewrite (Ev _ _ K1) by (try apply Fa; try lia; reflexivity). reflexivity.
    - rewrite (Ev _ _ K2) by (try apply Fa; try lia; reflexivity). reflexivity. }
  split; [exact Fa|]. split; [exact V0|]. cbn [rsum]. rewrite !V0 by lia. cbn [Nat.eqb]. change (Bltb (dbl 7 (-3)) (be m' 0 2) = true) in C3. rewrite (Bltb_correct 53 1024) in C3 by (first [apply Fa; lia|apply dbl_ok; lia]). destruct (Rlt_bool_spec (B2R (dbl 7 (-3))) (B2R (be m' 0 2))) as [X|]; [clear C3; rename X into C3|discriminate]. rewrite (proj2 (dbl_ok 7 (-3) ltac:(lia) ltac:(lia))) in C3. change (bpow radix2 (-3)) with (/ 8) in C3. lra.
Qed.
(** ** Examples *)
Example look_at_own_target_case : exists m', @matrix_look_at double _ (ex_math 53 1024) ex_m4 ex_d ex_d ex_o left_handed = Ok m' /\ PropFloatFrame.three 53 1024 ex_d.
Proof. eexists. split; [reflexivity|]. split; [reflexivity|]. apply cases3; apply dbl_ok; lia. Qed.
Example normalize_zero_case : exists w, @vnormalize double _ (ex_math 53 1024) ex_o = Ok w /\ forall i, (i < length ex_o)%nat -> is_finite (el ex_o i) = true /\ B2R (el ex_o i) = 0.
Proof. eexists. split; [reflexivity|]. intros [|[|[|i]]] Hi; [..|cbn in Hi; lia]; split; reflexivity. Qed.
Print Assumptions normalize_zero_nan.
Print Assumptions look_at_own_target_nan.
Print Assumptions look_at_noise_refuted.
