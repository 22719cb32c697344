(** C76: what a rejected call leaves in the matrix. *)
From Coq Require Import List Bool Arith Lia ZArith.
From Verif Require Import Base ZInst ScalarModel MiscModel QuatModel RotModel VecModel XfModel FailModel.
Import ListNotations.
Open Scope nat_scope.

(** ** Specification *)
Section Spec.
Context {T : Type} {Op : Ops T} {MO : MathOps T}.
(** the call ends as the function of XfModel.v / RotModel.v does, with its matrix *)
Definition carries_out (s : stmt T unit) (f : mx T -> out (mx T)) : Prop := forall m,
  match s m with
  | (m', Ok _) => f m = Ok m'
  | (_, Throw e) => f m = Throw e
  | (_, UB) => f m = UB
  end.
(** if the call throws, the matrix is what it was *)
Definition all_or_nothing (s : stmt T unit) : Prop := forall m e, snd (s m) = Throw e -> fst (s m) = m.
(** if the call throws, the matrix is [g] of what it was *)
Definition fails_with (g : mx T -> mx T) (s : stmt T unit) : Prop := forall m e, snd (s m) = Throw e -> fst (s m) = g m.
Definition same_shape (a b : mx T) : Prop := mrows a = mrows b /\ mcols a = mcols b /\ mbasis a = mbasis b.
Definition keeps_shape {A : Type} (s : stmt T A) : Prop := forall m, same_shape (fst (s m)) m.
(** the previous contents of the matrix do not matter for a call that succeeds *)
Definition starts_afresh (s : stmt T unit) : Prop := forall m m', same_shape m m' -> snd (s m) = snd (s m') /\ (snd (s m) = Ok tt -> fst (s m) = fst (s m')).
End Spec.

(** ** Rules *)
Section Rules.
Context {T : Type} {Op : Ops T} {MO : MathOps T}.
Lemma co_look {A} (c : mx T -> out A) (s : A -> stmt T unit) (f : A -> mx T -> out (mx T)) : (forall x, carries_out (s x) (f x)) -> carries_out (seqs (look c) s) (fun m => x <- c m ;; f x m).
Proof. intros H m. unfold seqs, look. specialize (H). destruct (c m); cbn [bind]; auto. apply H. Qed.
Lemma co_seq (s1 s2 : stmt T unit) f g : carries_out s1 f -> carries_out s2 g -> carries_out (seqs s1 (fun _ => s2)) (fun m => x <- f m ;; g x).
Proof. intros H1 H2 m. unfold seqs. specialize (H1 m). destruct (s1 m) as [m' [[]|e|]]; rewrite H1; cbn [bind]; auto. apply H2. Qed.
Lemma co_identity (s : stmt T unit) f : carries_out s f -> carries_out (seqs identity_ (fun _ => s)) (fun m => f (mx_identity m)).
Proof. intros H m. apply H. Qed.
Lemma co_zero (s : stmt T unit) f : carries_out s f -> carries_out (seqs zero_ (fun _ => s)) (fun m => f (mx_zero m)).
Proof. intros H m. apply H. Qed.
Lemma co_put i j (x : T) s f : carries_out s f -> carries_out (seqs (put_ i j x) (fun _ => s)) (fun m => f (set_be m i j x)).
Proof. intros H m. apply H. Qed.
Lemma co_put1 i j (x : T) : carries_out (put_ i j x) (fun m => Ok (set_be m i j x)).
Proof. intros m. reflexivity. Qed.
Lemma co_ext (s : stmt T unit) f g : carries_out s f -> (forall m, f m = g m) -> carries_out s g.
Proof. intros H E m. specialize (H m). rewrite <- E. exact H. Qed.
Lemma puts_run (l : list (nat * nat * T)) m : puts_ l m = (fold_left (fun m p => set_be m (fst (fst p)) (snd (fst p)) (snd p)) l m, Ok tt).
Proof. revert m. induction l as [|[[i j] x] l IH]; intros m; auto. cbn [puts_ fold_left fst snd]. unfold seqs, put_. apply IH. Qed.
Lemma co_puts (l : list (nat * nat * T)) : carries_out (puts_ l) (fun m => Ok (fold_left (fun m p => set_be m (fst (fst p)) (snd (fst p)) (snd p)) l m)).
Proof. intros m. rewrite puts_run. reflexivity. Qed.

Lemma an_look {A} (c : mx T -> out A) (s : A -> stmt T unit) : (forall x, all_or_nothing (s x)) -> all_or_nothing (seqs (look c) s).
Proof. intros H m e. unfold seqs, look. destruct (c m); cbn [fst snd]; auto. apply H. Qed.
Lemma fw_look {A} g (c : mx T -> out A) (s : A -> stmt T unit) : (forall m, exists x, c m = Ok x) -> (forall x, fails_with g (s x)) -> fails_with g (seqs (look c) s).
Proof. intros C H m e. unfold seqs, look. destruct (C m) as [x ->]. apply H. Qed.
Lemma an_identity (s : stmt T unit) : all_or_nothing s -> fails_with (@mx_identity T Op) (seqs identity_ (fun _ => s)).
Proof. intros H m e. unfold seqs, identity_. apply H. Qed.
Lemma an_never (s : stmt T unit) : (forall m, exists m', s m = (m', Ok tt)) -> all_or_nothing s.
Proof. intros H m e. destruct (H m) as [m' ->]. discriminate. Qed.
Lemma puts_never (l : list (nat * nat * T)) : all_or_nothing (puts_ l).
Proof. apply an_never. intros m. rewrite puts_run. eauto. Qed.
Lemma zero_puts_never (l : list (nat * nat * T)) : all_or_nothing (seqs zero_ (fun _ => puts_ l)).
Proof. apply an_never. intros m. unfold seqs, zero_. rewrite puts_run. eauto. Qed.
Lemma identity_puts_never (l : list (nat * nat * T)) : all_or_nothing (seqs identity_ (fun _ => puts_ l)).
Proof. apply an_never. intros m. unfold seqs, identity_. rewrite puts_run. eauto. Qed.

Lemma set_be_shape (m : mx T) i j x : same_shape (set_be m i j x) m.
Proof. unfold set_be, set_el, same_shape. destruct (mbasis m) eqn:E; cbn; auto. Qed.
Lemma same_shape_trans (a b c : mx T) : same_shape a b -> same_shape b c -> same_shape a c.
Proof. unfold same_shape. intuition congruence. Qed.
Lemma ks_seq {A B} (s : stmt T A) (f : A -> stmt T B) : keeps_shape s -> (forall x, keeps_shape (f x)) -> keeps_shape (seqs s f).
Proof. intros H1 H2 m. unfold seqs. specialize (H1 m). destruct (s m) as [m' [x|e|]]; cbn [fst] in *; auto. eapply same_shape_trans; [apply H2|auto]. Qed.
Lemma ks_look {A} (c : mx T -> out A) : keeps_shape (look c).
Proof. intros m. repeat split. Qed.
Lemma ks_identity : keeps_shape (T := T) identity_.
Proof. intros m. repeat split. Qed.
Lemma ks_zero : keeps_shape (T := T) zero_.
Proof. intros m. repeat split. Qed.
Lemma ks_put i j (x : T) : keeps_shape (put_ i j x).
Proof. intros m. apply set_be_shape. Qed.
Lemma ks_puts (l : list (nat * nat * T)) : keeps_shape (puts_ l).
Proof. induction l as [|[[i j] x] l IH]; cbn [puts_]; [intros m; repeat split|]. apply ks_seq; [apply ks_put|auto]. Qed.
Lemma mx_identity_shape (m m' : mx T) : same_shape m m' -> mx_identity m = mx_identity m'.
Proof. unfold mx_identity. intros (-> & -> & ->). reflexivity. Qed.
End Rules.

Ltac co := repeat first
  [ apply co_put1 | apply co_puts | apply co_look; intros | apply co_identity | apply co_zero | apply co_put | apply co_seq ].
Ltac an := repeat first
  [ apply puts_never | apply zero_puts_never | apply identity_puts_never | apply an_look; intros
  | apply an_never; intros; eexists; reflexivity ].
Ltac ks := repeat first
  [ apply ks_look | apply ks_identity | apply ks_zero | apply ks_put | apply ks_puts | apply ks_seq; intros ].

Ltac split_and := match goal with |- _ /\ _ => split end.

Section Theorems.
Context {T : Type} {Op : Ops T} {MO : MathOps T}.

(** ** The statements carry out the functions *)
Theorem statements_carry_out_basis :
  (forall i v, carries_out (f_set_basis_vector_2D i v) (fun m : mx T => matrix_set_basis_vector_2D m i v)) /\
  (forall x y, carries_out (f_set_basis_vectors_2D x y) (fun m : mx T => matrix_set_basis_vectors_2D m x y)) /\
  (forall i v, carries_out (f_set_basis_vector i v) (fun m : mx T => matrix_set_basis_vector m i v)) /\
  (forall x y z, carries_out (f_set_basis_vectors x y z) (fun m : mx T => matrix_set_basis_vectors m x y z)) /\
  (forall i v, carries_out (f_set_transposed_basis_vector i v) (fun m : mx T => matrix_set_transposed_basis_vector m i v)) /\
  (forall x y z, carries_out (f_set_transposed_basis_vectors x y z) (fun m : mx T => matrix_set_transposed_basis_vectors m x y z)).
Proof.
  assert (A : forall i v, carries_out (f_set_basis_vector_2D i v) (fun m : mx T => matrix_set_basis_vector_2D m i v)) by (intros; unfold f_set_basis_vector_2D; eapply co_ext; [co|reflexivity]).
  assert (B : forall i v, carries_out (f_set_basis_vector i v) (fun m : mx T => matrix_set_basis_vector m i v)) by (intros; unfold f_set_basis_vector; eapply co_ext; [co|reflexivity]).
  assert (C : forall i v, carries_out (f_set_transposed_basis_vector i v) (fun m : mx T => matrix_set_transposed_basis_vector m i v)) by (intros; unfold f_set_transposed_basis_vector; eapply co_ext; [co|reflexivity]).
  repeat split; auto.
  - intros x y. apply (co_seq _ _ _ (fun m : mx T => matrix_set_basis_vector_2D m 1 y)); auto.
  - intros x y z. apply (co_seq _ _ _ (fun m => m <- matrix_set_basis_vector m 1 y ;; matrix_set_basis_vector m 2 z)); auto.
    apply (co_seq _ _ _ (fun m : mx T => matrix_set_basis_vector m 2 z)); auto.
  - intros x y z. apply (co_seq _ _ _ (fun m => m <- matrix_set_transposed_basis_vector m 1 y ;; matrix_set_transposed_basis_vector m 2 z)); auto.
    apply (co_seq _ _ _ (fun m : mx T => matrix_set_transposed_basis_vector m 2 z)); auto.
Qed.

Theorem statements_carry_out_scale :
  (forall e0 e1, carries_out (f_set_translation_2D e0 e1) (fun m : mx T => matrix_set_translation_2D m e0 e1)) /\
  (forall v, carries_out (f_set_translation_2D_v v) (fun m : mx T => matrix_set_translation_2D_v m v)) /\
  (forall e0 e1, carries_out (f_translation_2D e0 e1) (fun m : mx T => matrix_translation_2D m e0 e1)) /\
  (forall v, carries_out (f_translation_2D_v v) (fun m : mx T => matrix_translation_2D_v m v)) /\
  (forall e0 e1 e2, carries_out (f_set_translation e0 e1 e2) (fun m : mx T => matrix_set_translation m e0 e1 e2)) /\
  (forall v, carries_out (f_set_translation_v v) (fun m : mx T => matrix_set_translation_v m v)) /\
  (forall e0 e1 e2, carries_out (f_translation e0 e1 e2) (fun m : mx T => matrix_translation m e0 e1 e2)) /\
  (forall e0 e1, carries_out (f_translation_xy e0 e1) (fun m : mx T => matrix_translation_xy m e0 e1)) /\
  (forall v, carries_out (f_translation_v v) (fun m : mx T => matrix_translation_v m v)) /\
  (forall e0 e1, carries_out (f_scale_2D e0 e1) (fun m : mx T => matrix_scale_2D m e0 e1)) /\
  (forall v, carries_out (f_scale_2D_v v) (fun m : mx T => matrix_scale_2D_v m v)) /\
  (forall e0 e1 e2, carries_out (f_scale e0 e1 e2) (fun m : mx T => matrix_scale m e0 e1 e2)) /\
  (forall v, carries_out (f_scale_v v) (fun m : mx T => matrix_scale_v m v)) /\
  (forall v, carries_out (f_skew_symmetric v) (fun m : mx T => matrix_skew_symmetric m v)) /\
  (forall s, carries_out (f_skew_symmetric_2D s) (fun m : mx T => matrix_skew_symmetric_2D m s)).
Proof.
  repeat split; intros; unfold f_set_translation_2D_v, f_translation_2D, f_translation_2D_v, f_set_translation_2D, f_set_translation_v, f_translation, f_translation_xy, f_translation_v, f_set_translation,
    f_scale_2D_v, f_scale_2D, f_scale_v, f_scale, f_skew_symmetric, f_skew_symmetric_2D; (eapply co_ext; [co|reflexivity]).
Qed.
Lemma co_set_translation e0 e1 e2 : carries_out (f_set_translation e0 e1 e2) (fun m : mx T => matrix_set_translation m e0 e1 e2).
Proof. apply statements_carry_out_scale. Qed.
Lemma co_set_translation_v v : carries_out (f_set_translation_v v) (fun m : mx T => matrix_set_translation_v m v).
Proof. apply statements_carry_out_scale. Qed.
Lemma co_linear l : carries_out (f_linear_transform l) (fun m : mx T => matrix_linear_transform m l).
Proof. unfold f_linear_transform. eapply co_ext; [co|]. intros m. reflexivity. Qed.
Lemma co_axis_angle a g : carries_out (f_rotation_axis_angle a g) (fun m : mx T => matrix_rotation_axis_angle m a g).
Proof. unfold f_rotation_axis_angle. cbv zeta. eapply co_ext; [co|]. intros m. reflexivity. Qed.
Theorem statements_carry_out_rotation :
  (forall a, carries_out (f_rotation_2D a) (fun m : mx T => matrix_rotation_2D m a)) /\
  (forall i a, carries_out (f_rotation_world_axis i a) (fun m : mx T => matrix_rotation_world_axis m i a)) /\
  (forall v a, carries_out (f_rotation_axis_angle v a) (fun m : mx T => matrix_rotation_axis_angle m v a)) /\
  (forall i a b c o, carries_out (f_rotation_euler_derivatives i a b c o) (fun m : mx T => matrix_rotation_euler_derivatives m i a b c o)) /\
  (forall v n o, carries_out (f_rotation_align_2D v n o) (fun m : mx T => matrix_rotation_align_2D m v n o)) /\
  (forall v r n o, carries_out (f_rotation_align v r n o) (fun m : mx T => matrix_rotation_align m v r n o)) /\
  (forall p t r o, carries_out (f_rotation_aim_at p t r o) (fun m : mx T => matrix_rotation_aim_at m p t r o)).
Proof.
  destruct statements_carry_out_basis as (_ & B2 & _ & B3 & _).
  assert (AL : forall v r n o, carries_out (f_rotation_align v r n o) (fun m : mx T => matrix_rotation_align m v r n o)).
  { intros v r n o. unfold f_rotation_align. eapply co_ext; [apply co_identity; apply co_look; intros; apply B3|]. intros m. unfold matrix_rotation_align. destruct (vorthonormal_basis v r n o) as [[[x y] z]|e|]; reflexivity. }
  repeat split; auto.
  - intros a. unfold f_rotation_2D. cbv zeta. eapply co_ext; [co|]. reflexivity.
  - intros i a. unfold f_rotation_world_axis. cbv zeta. eapply co_ext; [co|]. reflexivity.
  - apply co_axis_angle.
  - intros i a b c o m. unfold f_rotation_euler_derivatives, seqs, look, identity_.
    assert (I : matrix_rotation_euler_derivatives (mx_identity m) i a b c o = matrix_rotation_euler_derivatives m i a b c o) by reflexivity.
    rewrite I. unfold matrix_rotation_euler_derivatives at 2 3 4. cbv zeta.
    destruct (require ((0 <=? i)%Z && (i <=? 2)%Z) EInvalidArgument) eqn:E1; auto. cbn [bind]. destruct (check_linear_3D m) eqn:E2; auto. cbn [bind].
    destruct (require (negb (ea_repeat (unpack_euler o))) EInvalidArgument) eqn:E3; auto. cbn [bind].
    unfold matrix_rotation_euler_derivatives. cbv zeta. rewrite E1. cbn [bind]. rewrite E2. cbn [bind]. rewrite E3. cbn [bind].
    destruct (Z.eqb i 0); [reflexivity|]. destruct (Z.eqb i 1); [reflexivity|]. destruct (Z.eqb i 2); reflexivity.
  - intros v n o. unfold f_rotation_align_2D. eapply co_ext; [apply co_look; intros; apply co_identity; apply co_look; intros; apply B2|]. intros m. unfold matrix_rotation_align_2D.
    destruct (check_linear_2D m); auto. cbn [bind]. destruct (vorthonormal_basis_2D v n o) as [[x y]|e|]; reflexivity.
  - intros p t r o. unfold f_rotation_aim_at. eapply co_ext; [apply co_look; intros; apply AL|]. reflexivity.
Qed.
Theorem statements_carry_out_transform :
  (forall p t u h, carries_out (f_look_at p t u h) (fun m : mx T => matrix_look_at m p t u h)) /\
  (forall l, carries_out (f_linear_transform l) (fun m : mx T => matrix_linear_transform m l)) /\
  (forall v a t n, carries_out (f_affine_transform_axis v a t n) (fun m : mx T => matrix_affine_transform_axis m v a t n)) /\
  (forall l t, carries_out (f_affine_transform l t) (fun m : mx T => matrix_affine_transform m l t)) /\
  carries_out f_invert_RT_only (@matrix_invert_RT_only T Op).
Proof.
  destruct statements_carry_out_basis as (_ & _ & _ & _ & _ & B3).
  split; [|split; [apply co_linear|split; [|split]]].
  - intros p t u h. unfold f_look_at. cbv zeta. eapply co_ext.
    + apply co_look; intros u0. apply co_identity. apply co_look; intros d. apply co_look; intros d1. apply co_look; intros x. apply co_look; intros x1. apply co_look; intros y.
      apply co_seq; [apply B3|]. apply co_look; intros px. apply co_look; intros py. apply co_look; intros pz. apply co_set_translation.
    + intros m. reflexivity.
  - intros v a t n. unfold f_affine_transform_axis. eapply co_ext; [apply co_look; intros u0; apply co_look; intros ax; apply co_seq; [apply co_axis_angle|apply co_set_translation_v]|]. intros m. reflexivity.
  - intros l t. unfold f_affine_transform. eapply co_ext; [apply co_look; intros u0; apply co_seq; [apply co_linear|apply co_set_translation_v]|]. reflexivity.
  - unfold f_invert_RT_only. eapply co_ext.
    + apply co_look; intros u0. apply co_look; intros x. apply co_look; intros y. apply co_look; intros z. apply co_seq; [apply B3|]. apply co_look; intros p. apply co_look; intros px. apply co_look; intros py. apply co_look; intros pz. apply co_set_translation.
    + reflexivity.
Qed.

(** ** Calls that throw before they write *)
Theorem single_checks_first :
  (forall i v, all_or_nothing (T := T) (f_set_basis_vector_2D i v)) /\ (forall i v, all_or_nothing (T := T) (f_set_basis_vector i v)) /\
  (forall i v, all_or_nothing (T := T) (f_set_transposed_basis_vector i v)) /\
  (forall e0 e1, all_or_nothing (T := T) (f_set_translation_2D e0 e1)) /\ (forall v, all_or_nothing (T := T) (f_set_translation_2D_v v)) /\
  (forall e0 e1 e2, all_or_nothing (T := T) (f_set_translation e0 e1 e2)) /\ (forall v, all_or_nothing (T := T) (f_set_translation_v v)) /\
  (forall e0 e1, all_or_nothing (T := T) (f_scale_2D e0 e1)) /\ (forall v, all_or_nothing (T := T) (f_scale_2D_v v)) /\
  (forall e0 e1 e2, all_or_nothing (T := T) (f_scale e0 e1 e2)) /\ (forall v, all_or_nothing (T := T) (f_scale_v v)) /\
  (forall v, all_or_nothing (T := T) (f_skew_symmetric v)) /\ (forall s, all_or_nothing (T := T) (f_skew_symmetric_2D s)) /\
  (forall a, all_or_nothing (T := T) (f_rotation_2D a)) /\ (forall i a, all_or_nothing (T := T) (f_rotation_world_axis i a)) /\
  (forall v a, all_or_nothing (T := T) (f_rotation_axis_angle v a)) /\ (forall l, all_or_nothing (T := T) (f_linear_transform l)).
Proof.
  repeat split; intros; unfold f_set_basis_vector_2D, f_set_basis_vector, f_set_transposed_basis_vector, f_set_translation_2D_v, f_set_translation_2D, f_set_translation_v, f_set_translation,
    f_scale_2D_v, f_scale_2D, f_scale_v, f_scale, f_skew_symmetric, f_skew_symmetric_2D, f_rotation_2D, f_rotation_world_axis, f_rotation_axis_angle, f_linear_transform; cbv zeta; an.
Qed.

Lemma affine_linear (m : mx T) : check_affine_3D m = Ok tt -> check_linear_3D m = Ok tt.
Proof.
  unfold check_affine_3D, check_linear_3D, check_minimum_size, require. destruct (mbasis m).
  - destruct (Nat.leb_spec 4 (mrows m)), (Nat.leb_spec 3 (mcols m)); try discriminate. destruct (Nat.leb_spec 3 (mrows m)); [reflexivity|lia].
  - destruct (Nat.leb_spec 3 (mrows m)), (Nat.leb_spec 4 (mcols m)); try discriminate. destruct (Nat.leb_spec 3 (mcols m)); [reflexivity|lia].
Qed.
Lemma linear_shape (m m' : mx T) : same_shape m' m -> check_linear_3D m' = check_linear_3D m.
Proof. unfold check_linear_3D, check_minimum_size. intros (-> & -> & _). reflexivity. Qed.
Lemma affine_shape (m m' : mx T) : same_shape m' m -> check_affine_3D m' = check_affine_3D m.
Proof. unfold check_affine_3D, check_minimum_size. intros (-> & -> & ->). reflexivity. Qed.
Lemma affine2_shape (m m' : mx T) : same_shape m' m -> check_affine_2D m' = check_affine_2D m.
Proof. unfold check_affine_2D, check_minimum_size. intros (-> & -> & ->). reflexivity. Qed.
Lemma linear2_shape (m m' : mx T) : same_shape m' m -> check_linear_2D m' = check_linear_2D m.
Proof. unfold check_linear_2D, check_minimum_size. intros (-> & -> & _). reflexivity. Qed.
Lemma shape_refl (m : mx T) : same_shape m m.
Proof. repeat split. Qed.
Lemma ks_transposed i v : keeps_shape (T := T) (f_set_transposed_basis_vector i v).
Proof. unfold f_set_transposed_basis_vector. ks. Qed.
Lemma transposed_ok i v (m : mx T) : check_linear_3D m = Ok tt -> length v = 3 -> (0 <= i < 3)%Z -> snd (f_set_transposed_basis_vector i v m) = Ok tt.
Proof.
  intros H L I. unfold f_set_transposed_basis_vector, seqs, look, put_, check_size, axis_index. rewrite H, L.
  cbn [Nat.eqb require]. destruct (Z.leb_spec 0 i); [|lia]. destruct (Z.ltb_spec i (Z.of_nat 3)); [|lia]. reflexivity.
Qed.
Lemma transposed3_ok x y z (m : mx T) : check_linear_3D m = Ok tt -> length x = 3 -> length y = 3 -> length z = 3 ->
  exists m', f_set_transposed_basis_vectors x y z m = (m', Ok tt) /\ same_shape m' m.
Proof.
  intros H Lx Ly Lz. unfold f_set_transposed_basis_vectors, seqs.
  pose proof (transposed_ok 0 x m H Lx ltac:(lia)) as A1. pose proof (ks_transposed 0 x m) as S1. destruct (f_set_transposed_basis_vector 0 x m) as [m1 o1]. cbn [fst snd] in *. subst o1.
  assert (H1 : check_linear_3D m1 = Ok tt) by (rewrite <- H; apply linear_shape; auto).
  pose proof (transposed_ok 1 y m1 H1 Ly ltac:(lia)) as A2. pose proof (ks_transposed 1 y m1) as S2. destruct (f_set_transposed_basis_vector 1 y m1) as [m2 o2]. cbn [fst snd] in *. subst o2.
  assert (H2 : check_linear_3D m2 = Ok tt) by (rewrite <- H1; apply linear_shape; auto).
  pose proof (transposed_ok 2 z m2 H2 Lz ltac:(lia)) as A3. pose proof (ks_transposed 2 z m2) as S3. destruct (f_set_transposed_basis_vector 2 z m2) as [m3 o3]. cbn [fst snd] in *. subst o3.
  exists m3. split; auto. eapply same_shape_trans; [exact S3|]. eapply same_shape_trans; eauto.
Qed.
Lemma dot3_ok (a b : list T) : length a = 3 -> length b = 3 -> exists d, vdot a b = Ok d.
Proof. intros H1 H2. unfold vdot, check_vmin, check_vsame. rewrite H1, H2. cbn. eauto. Qed.
Lemma seqs_look {A B} (c : mx T -> out A) (f : A -> stmt T B) m x : c m = Ok x -> seqs (look c) f m = f x m.
Proof. unfold seqs, look. intros ->. reflexivity. Qed.
Lemma seqs_throw {A B} (c : mx T -> out A) (f : A -> stmt T B) m e : c m = Throw e -> seqs (look c) f m = (m, Throw e).
Proof. unfold seqs, look. intros ->. reflexivity. Qed.
Lemma seqs_ok {A B} (s : stmt T A) (f : A -> stmt T B) m m' x : s m = (m', Ok x) -> seqs s f m = f x m'.
Proof. unfold seqs. intros ->. reflexivity. Qed.
(** the rigid inverse: the later size checks repeat the first one *)
Lemma co_run (s : stmt T unit) (f : mx T -> out (mx T)) m m' : carries_out s f -> f m = Ok m' -> s m = (m', Ok tt).
Proof. intros C H. specialize (C m). destruct (s m) as [m1 [[]|e|]]; rewrite H in C; try discriminate. injection C as <-. reflexivity. Qed.
Lemma seqs_identity {B} (f : unit -> stmt T B) m : seqs identity_ f m = f tt (mx_identity m).
Proof. reflexivity. Qed.
Theorem rigid_inverse_checks_first : all_or_nothing (T := T) f_invert_RT_only.
Proof.
  unfold f_invert_RT_only. intros m e. destruct (check_affine_3D m) as [[]|e1|] eqn:A.
  2: rewrite (seqs_throw _ _ _ e1 A); auto. 2: unfold seqs, look; rewrite A; discriminate.
  intros H. exfalso. revert H. pose proof (affine_linear m A) as L.
  assert (G : forall i, (0 <= i < 3)%Z -> exists v, matrix_get_basis_vector m i = Ok v /\ length v = 3).
  { intros i I. unfold matrix_get_basis_vector, axis_index. rewrite L. cbn [bind]. destruct (Z.leb_spec 0 i); [|lia]. destruct (Z.ltb_spec i (Z.of_nat 3)); [|lia]. cbn. eauto. }
  destruct (G 0%Z ltac:(lia)) as (x & Gx & Lx). destruct (G 1%Z ltac:(lia)) as (y & Gy & Ly). destruct (G 2%Z ltac:(lia)) as (z & Gz & Lz).
  rewrite (seqs_look _ _ _ tt A), (seqs_look _ _ _ x Gx), (seqs_look _ _ _ y Gy), (seqs_look _ _ _ z Gz).
  destruct (transposed3_ok x y z m L Lx Ly Lz) as (m' & E & S). rewrite (seqs_ok _ _ _ _ _ E). pose proof (affine_shape m m' S) as A'. rewrite A in A'.
  assert (P : matrix_get_translation m' = Ok [be m' 3 0; be m' 3 1; be m' 3 2]) by (unfold matrix_get_translation; rewrite A'; reflexivity).
  rewrite (seqs_look _ _ _ _ P).
  destruct (dot3_ok [be m' 3 0; be m' 3 1; be m' 3 2] x eq_refl Lx) as [px Dx]. destruct (dot3_ok [be m' 3 0; be m' 3 1; be m' 3 2] y eq_refl Ly) as [py Dy]. destruct (dot3_ok [be m' 3 0; be m' 3 1; be m' 3 2] z eq_refl Lz) as [pz Dz].
  rewrite (seqs_look (fun _ => vdot _ x) _ _ px Dx), (seqs_look (fun _ => vdot _ y) _ _ py Dy), (seqs_look (fun _ => vdot _ z) _ _ pz Dz).
  unfold f_set_translation. rewrite (seqs_look _ _ _ tt A'). discriminate.
Qed.

(** ** Calls that have overwritten the matrix with the identity *)
Theorem translation_leaves_identity :
  (forall e0 e1, fails_with (@mx_identity T Op) (f_translation_2D e0 e1)) /\ (forall v, fails_with (@mx_identity T Op) (f_translation_2D_v v)) /\
  (forall e0 e1 e2, fails_with (@mx_identity T Op) (f_translation e0 e1 e2)) /\ (forall e0 e1, fails_with (@mx_identity T Op) (f_translation_xy e0 e1)) /\
  (forall v, fails_with (@mx_identity T Op) (f_translation_v v)).
Proof. repeat split; intros; apply an_identity; apply single_checks_first. Qed.
Lemma ks_basis i v : keeps_shape (T := T) (f_set_basis_vector i v).
Proof. unfold f_set_basis_vector. ks. Qed.
Lemma ks_basis_2D i v : keeps_shape (T := T) (f_set_basis_vector_2D i v).
Proof. unfold f_set_basis_vector_2D. ks. Qed.
Lemma basis_ok i v (m : mx T) : check_linear_3D m = Ok tt -> length v = 3 -> (0 <= i < 3)%Z -> snd (f_set_basis_vector i v m) = Ok tt.
Proof.
  intros H L I. unfold f_set_basis_vector, seqs, look, put_, check_size, axis_index. rewrite H, L.
  cbn [Nat.eqb require]. destruct (Z.leb_spec 0 i); [|lia]. destruct (Z.ltb_spec i (Z.of_nat 3)); [|lia]. reflexivity.
Qed.
Lemma basis_2D_ok i v (m : mx T) : check_linear_2D m = Ok tt -> length v = 2 -> (0 <= i < 2)%Z -> snd (f_set_basis_vector_2D i v m) = Ok tt.
Proof.
  intros H L I. unfold f_set_basis_vector_2D, seqs, look, put_, check_size, axis_index. rewrite H, L.
  cbn [Nat.eqb require]. destruct (Z.leb_spec 0 i); [|lia]. destruct (Z.ltb_spec i (Z.of_nat 2)); [|lia]. reflexivity.
Qed.
Lemma look_throw {A} (c : mx T -> out A) m : snd (look c m) = c m /\ fst (look c m) = m.
Proof. split; reflexivity. Qed.
Lemma basis3_all x y z : length x = 3 -> length y = 3 -> length z = 3 -> all_or_nothing (T := T) (f_set_basis_vectors x y z).
Proof.
  intros Lx Ly Lz m e. destruct (check_linear_3D m) as [[]|e1|] eqn:H.
  - intros F. exfalso. revert F. unfold f_set_basis_vectors.
    pose proof (basis_ok 0 x m H Lx ltac:(lia)) as A1. pose proof (ks_basis 0 x m) as S1. destruct (f_set_basis_vector 0 x m) as [m1 o1] eqn:E1. cbn [fst snd] in *. subst o1.
    assert (H1 : check_linear_3D m1 = Ok tt) by (rewrite <- H; apply linear_shape; auto). rewrite (seqs_ok _ _ _ _ _ E1).
    pose proof (basis_ok 1 y m1 H1 Ly ltac:(lia)) as A2. pose proof (ks_basis 1 y m1) as S2. destruct (f_set_basis_vector 1 y m1) as [m2 o2] eqn:E2. cbn [fst snd] in *. subst o2.
    assert (H2 : check_linear_3D m2 = Ok tt) by (rewrite <- H1; apply linear_shape; auto). rewrite (seqs_ok _ _ _ _ _ E2).
    rewrite (basis_ok 2 z m2 H2 Lz ltac:(lia)). discriminate.
  - intros _. unfold f_set_basis_vectors, f_set_basis_vector, seqs, look. rewrite H. reflexivity.
  - unfold f_set_basis_vectors, f_set_basis_vector, seqs, look. rewrite H. discriminate.
Qed.
Lemma basis2_all x y : length x = 2 -> length y = 2 -> all_or_nothing (T := T) (f_set_basis_vectors_2D x y).
Proof.
  intros Lx Ly m e. destruct (check_linear_2D m) as [[]|e1|] eqn:H.
  - intros F. exfalso. revert F. unfold f_set_basis_vectors_2D.
    pose proof (basis_2D_ok 0 x m H Lx ltac:(lia)) as A1. pose proof (ks_basis_2D 0 x m) as S1. destruct (f_set_basis_vector_2D 0 x m) as [m1 o1] eqn:E1. cbn [fst snd] in *. subst o1.
    assert (H1 : check_linear_2D m1 = Ok tt) by (rewrite <- H; apply linear2_shape; auto). rewrite (seqs_ok _ _ _ _ _ E1).
    rewrite (basis_2D_ok 1 y m1 H1 Ly ltac:(lia)). discriminate.
  - intros _. unfold f_set_basis_vectors_2D, f_set_basis_vector_2D, seqs, look. rewrite H. reflexivity.
  - unfold f_set_basis_vectors_2D, f_set_basis_vector_2D, seqs, look. rewrite H. discriminate.
Qed.
Lemma bind_ok {A B} (x : out A) (f : A -> out B) r : bind x f = Ok r -> exists a, x = Ok a /\ f a = Ok r.
Proof. destruct x; try discriminate. cbn. eauto. Qed.
Lemma elems_len n (f : nat -> T) : length (elems n f) = n.
Proof. unfold elems. rewrite map_length. apply seq_length. Qed.
Lemma vdiv_len v (l : T) : length (vdiv v l) = length v.
Proof. unfold vdiv. first [apply map_length|rewrite elems_len; reflexivity]. Qed.
Lemma vneg_len (v : list T) : length (vneg v) = length v.
Proof. unfold vneg. first [apply map_length|rewrite elems_len; reflexivity]. Qed.
Lemma normalize_len (v w : list T) : vnormalize v = Ok w -> length w = length v.
Proof. unfold vnormalize. intros H. apply bind_ok in H. destruct H as (l & _ & H). injection H as <-. apply vdiv_len. Qed.
Lemma cross_len (u v w : list T) : vcross3 u v = Ok w -> length w = 3.
Proof. unfold vcross3. intros H. apply bind_ok in H. destruct H as (? & _ & H). apply bind_ok in H. destruct H as (? & _ & H). injection H as <-. reflexivity. Qed.
Lemma fixed_len n (v w : list T) : to_fixed n v = Ok w -> length w = n.
Proof. unfold to_fixed. intros H. apply bind_ok in H. destruct H as (? & R & H). injection H as <-. unfold require in R. destruct (Nat.eqb_spec (length v) n); [auto|discriminate]. Qed.
Lemma frame_len (a r : list T) n o x y z : vorthonormal_basis a r n (ao_value o) = Ok (x, y, z) -> length x = 3 /\ length y = 3 /\ length z = 3.
Proof.
  unfold vorthonormal_basis. destruct o; cbn [ao_value]; (destruct (unpack_axis _) as [[[i j] k] odd] eqn:U; vm_compute in U; injection U as <- <- <- <-;
    cbv beta iota zeta; intros H; apply bind_ok in H; destruct H as (a1 & F & H); apply bind_ok in H; destruct H as (a2 & N & H); apply bind_ok in H; destruct H as (c1 & C1 & H); apply bind_ok in H; destruct H as (c2 & C2 & H);
    apply bind_ok in H; destruct H as (d & D & H);
    assert (L1 : length a2 = 3) by (apply fixed_len in F; destruct n; [apply normalize_len in N; congruence|injection N as <-; auto]);
    assert (L2 : length c2 = 3) by (apply normalize_len in C2; apply cross_len in C1; congruence);
    assert (L3 : length d = 3) by (apply cross_len in D; auto);
    cbn -[vneg] in H; injection H as <- <- <-; rewrite ?vneg_len; auto).
Qed.
Lemma frame2_len (a : list T) n o x y : o = ao_xyz \/ o = ao_yxz -> vorthonormal_basis_2D a n (ao_value o) = Ok (x, y) -> length x = 2 /\ length y = 2.
Proof.
  intros [-> | ->]; unfold vorthonormal_basis_2D; cbn [ao_value]; (destruct (unpack_axis2D _) as [[i j] odd] eqn:U; vm_compute in U; injection U as <- <- <-;
    cbv beta iota zeta; intros H; apply bind_ok in H; destruct H as (a1 & F & H); apply bind_ok in H; destruct H as (a2 & N & H); apply bind_ok in H; destruct H as (c1 & C1 & H);
    assert (L1 : length a2 = 2) by (apply fixed_len in F; destruct n; [apply normalize_len in N; congruence|injection N as <-; auto]);
    assert (L2 : length c1 = 2) by (unfold vperp in C1; apply bind_ok in C1; destruct C1 as (? & _ & C1); injection C1 as <-; auto);
    cbn -[vneg] in H; injection H as <- <-; rewrite ?vneg_len; auto).
Qed.
(** alignment: also when the matrix is too small, or the vectors have the wrong sizes *)
Theorem alignment_leaves_identity :
  (forall v r n o, fails_with (@mx_identity T Op) (f_rotation_align v r n (ao_value o))) /\
  (forall v n o m e, o = ao_xyz \/ o = ao_yxz -> check_linear_2D m = Ok tt -> snd (f_rotation_align_2D v n (ao_value o) m) = Throw e -> fst (f_rotation_align_2D v n (ao_value o) m) = mx_identity m) /\
  (forall p t r o m e d, vsub t p = Ok d -> snd (f_rotation_aim_at p t r (ao_value o) m) = Throw e -> fst (f_rotation_aim_at p t r (ao_value o) m) = mx_identity m).
Proof.
  assert (A : forall v r n o, fails_with (@mx_identity T Op) (f_rotation_align v r n (ao_value o))).
  { intros v r n o. apply an_identity. intros m e. destruct (vorthonormal_basis v r n (ao_value o)) as [[[x y] z]|e1|] eqn:E.
    - rewrite (seqs_look (fun _ => Ok (x, y, z)) _ m _ eq_refl). destruct (frame_len _ _ _ _ _ _ _ E) as (? & ? & ?). apply basis3_all; auto.
    - auto.
    - discriminate. }
  split; [exact A|split].
  - intros v n o m e O L. unfold f_rotation_align_2D. rewrite (seqs_look check_linear_2D _ m tt L). apply an_identity. clear m e L. intros m e.
    destruct (vorthonormal_basis_2D v n (ao_value o)) as [[x y]|e1|] eqn:E.
    + rewrite (seqs_look (fun _ => Ok (x, y)) _ m _ eq_refl). destruct (frame2_len _ _ _ _ _ O E) as (? & ?). apply basis2_all; auto.
    + auto.
    + discriminate.
  - intros p t r o m e d E. unfold f_rotation_aim_at. rewrite (seqs_look (fun _ => vsub t p) _ m _ E). apply A.
Qed.
(** look-at: unchanged when the matrix is too small, the identity when the vectors do not fit *)
Theorem look_at_leaves : forall p t u h m e, snd (f_look_at p t u h m) = Throw e ->
  (check_affine_3D m = Throw e /\ fst (f_look_at p t u h m) = m) \/ (check_affine_3D m = Ok tt /\ fst (f_look_at p t u h m) = mx_identity m).
Proof.
  intros p t u h m e. unfold f_look_at. destruct (check_affine_3D m) as [[]|e1|] eqn:A.
  2: rewrite (seqs_throw _ _ _ e1 A); cbn; intros H; injection H as <-; auto. 2: unfold seqs, look; rewrite A; discriminate.
  rewrite (seqs_look _ _ _ tt A). rewrite seqs_identity. cbv zeta. intros H. right. split; auto. revert H.
  assert (A1 : check_affine_3D (mx_identity m) = Ok tt) by (rewrite <- A; apply affine_shape; repeat split).
  set (n := mx_identity m) in *. pose proof (affine_linear n A1) as L1.
  destruct (vsub t p) as [d|e1|] eqn:E1. 2: auto. 2: discriminate. rewrite (seqs_look (fun _ => Ok d) _ _ d eq_refl).
  destruct (vnormalize d) as [d1|e1|] eqn:E2. 2: auto. 2: discriminate. rewrite (seqs_look (fun _ => Ok d1) _ _ d1 eq_refl).
  set (s := match h with left_handed => one | right_handed => neg one end).
  destruct (vcross3 u (vscale s d1)) as [x|e1|] eqn:E3. 2: auto. 2: discriminate. rewrite (seqs_look (fun _ => Ok x) _ _ x eq_refl).
  destruct (vnormalize x) as [x1|e1|] eqn:E4. 2: auto. 2: discriminate. rewrite (seqs_look (fun _ => Ok x1) _ _ x1 eq_refl).
  destruct (vcross3 (vscale s d1) x1) as [y|e1|] eqn:E5. 2: auto. 2: discriminate. rewrite (seqs_look (fun _ => Ok y) _ _ y eq_refl).
  assert (Lx : length x1 = 3) by (rewrite (normalize_len _ _ E4); apply (cross_len _ _ _ E3)).
  assert (Ly : length y = 3) by apply (cross_len _ _ _ E5).
  assert (Lz : length (vscale s d1) = 3).
  { unfold vcross3 in E3. apply bind_ok in E3. destruct E3 as (? & _ & E3). apply bind_ok in E3. destruct E3 as (? & R & _). unfold check_size, require in R. destruct (Nat.eqb_spec (length (vscale s d1)) 3); [auto|discriminate]. }
  destruct (transposed3_ok x1 y (vscale s d1) n L1 Lx Ly Lz) as (n' & E & S). rewrite (seqs_ok _ _ _ _ _ E). pose proof (affine_shape n n' S) as A'. rewrite A1 in A'.
  assert (Lp : length p = 3).
  { unfold vsub in E1. apply bind_ok in E1. destruct E1 as (? & R & E1). unfold check_vsame, require in R. destruct (Nat.eqb_spec (length t) (length p)) as [Q|]; [|discriminate].
    injection E1 as <-. apply normalize_len in E2. unfold vscale in Lz. rewrite ?map_length, ?elems_len in Lz. rewrite E2 in Lz. rewrite ?map_length, ?elems_len, ?combine_length in Lz. lia. }
  destruct (dot3_ok p x1 Lp Lx) as [px Dx]. destruct (dot3_ok p y Lp Ly) as [py Dy]. destruct (dot3_ok p (vscale s d1) Lp Lz) as [pz Dz].
  rewrite (seqs_look (fun _ => vdot p x1) _ _ px Dx), (seqs_look (fun _ => vdot p y) _ _ py Dy), (seqs_look (fun _ => vdot p (vscale s d1)) _ _ pz Dz).
  unfold f_set_translation. rewrite (seqs_look _ _ _ tt A'). discriminate.
Qed.
(** Euler derivatives: a repeated order is refused after identity() *)
Theorem euler_derivatives_leaves_identity : forall i a b c o m, (0 <= i <= 2)%Z -> check_linear_3D m = Ok tt -> ea_repeat (unpack_euler o) = true ->
  f_rotation_euler_derivatives i a b c o m = (mx_identity m, Throw EInvalidArgument).
Proof.
  intros i a b c o m I L R. unfold f_rotation_euler_derivatives, seqs, look, identity_. rewrite L, R. destruct (Z.leb_spec 0 i); [|lia]. destruct (Z.leb_spec i 2); [|lia]. reflexivity.
Qed.

(** ** Calls that have done a part of their work *)
Theorem basis_vectors_stored_so_far : forall (x y z : list T) m m1, matrix_set_basis_vector m 0 x = Ok m1 ->
  (length y <> 3 -> f_set_basis_vectors x y z m = (m1, Throw EVectorSize)) /\
  (forall m2, matrix_set_basis_vector m1 1 y = Ok m2 -> length z <> 3 -> f_set_basis_vectors x y z m = (m2, Throw EVectorSize)).
Proof.
  assert (K : forall i v (m m' : mx T), matrix_set_basis_vector m i v = Ok m' -> f_set_basis_vector i v m = (m', Ok tt)).
  { intros i v m m' H. exact (co_run _ _ _ _ (proj1 (proj2 (proj2 statements_carry_out_basis)) i v) H). }
  assert (F : forall i v (m : mx T), check_linear_3D m = Ok tt -> length v <> 3 -> f_set_basis_vector i v m = (m, Throw EVectorSize)).
  { intros i v m H L. unfold f_set_basis_vector. rewrite (seqs_look _ _ _ tt H). apply seqs_throw. unfold check_size, require. destruct (Nat.eqb_spec (length v) 3); [contradiction|auto]. }
  assert (Q : forall i v (m m' : mx T), matrix_set_basis_vector m i v = Ok m' -> check_linear_3D m' = Ok tt).
  { intros i v m m' H. pose proof (ks_basis i v m) as S. rewrite (K _ _ _ _ H) in S. cbn [fst] in S. rewrite (linear_shape _ _ S). unfold matrix_set_basis_vector in H. apply bind_ok in H. destruct H as ([] & H & _). exact H. }
  intros x y z m m1 H1. unfold f_set_basis_vectors. rewrite (seqs_ok _ _ _ _ _ (K _ _ _ _ H1)). split.
  - intros L. unfold seqs. rewrite (F 1%Z y m1 (Q _ _ _ _ H1) L). reflexivity.
  - intros m2 H2 L. rewrite (seqs_ok _ _ _ _ _ (K _ _ _ _ H2)). apply F; auto. eapply Q; eauto.
Qed.
Theorem affine_transform_stored_so_far : forall (l : mx T) (t : list T) m m1, check_affine_3D m = Ok tt -> matrix_linear_transform m l = Ok m1 -> ~ (2 <= length t <= 3) ->
  f_affine_transform l t m = (m1, Throw EVectorSizeRange).
Proof.
  intros l t m m1 A H L. unfold f_affine_transform. rewrite (seqs_look _ _ _ tt A).
  assert (K : f_linear_transform l m = (m1, Ok tt)). { exact (co_run _ _ _ _ (co_linear l) H). }
  rewrite (seqs_ok _ _ _ _ _ K). apply seqs_throw. unfold check_size_range, require. destruct (Nat.leb_spec 2 (length t)), (Nat.leb_spec (length t) 3); cbn [andb]; auto. exfalso; apply L; lia.
Qed.
Theorem affine_transform_axis_stored_so_far : forall (v : list T) a (t : list T) (n : bool) m m1 w, check_affine_3D m = Ok tt -> (if n then vnormalize v else Ok v) = Ok w -> matrix_rotation_axis_angle m w a = Ok m1 -> ~ (2 <= length t <= 3) ->
  f_affine_transform_axis v a t n m = (m1, Throw EVectorSizeRange).
Proof.
  intros v a t n m m1 w A W H L. unfold f_affine_transform_axis. rewrite (seqs_look _ _ _ tt A). rewrite (seqs_look (fun _ => if n then vnormalize v else Ok v) _ _ _ W).
  assert (K : f_rotation_axis_angle w a m = (m1, Ok tt)). { exact (co_run _ _ _ _ (co_axis_angle w a) H). }
  rewrite (seqs_ok _ _ _ _ _ K). apply seqs_throw. unfold check_size_range, require. destruct (Nat.leb_spec 2 (length t)), (Nat.leb_spec (length t) 3); cbn [andb]; auto. exfalso; apply L; lia.
Qed.

(** ** The shape of the matrix, and calling again *)
Theorem shape_survives :
  (forall x y, keeps_shape (T := T) (f_set_basis_vectors_2D x y)) /\ (forall x y z, keeps_shape (T := T) (f_set_basis_vectors x y z)) /\
  (forall x y z, keeps_shape (T := T) (f_set_transposed_basis_vectors x y z)) /\
  (forall v, keeps_shape (T := T) (f_translation_2D_v v)) /\ (forall v, keeps_shape (T := T) (f_translation_v v)) /\
  (forall v, keeps_shape (T := T) (f_scale_2D_v v)) /\ (forall v, keeps_shape (T := T) (f_scale_v v)) /\
  (forall v, keeps_shape (T := T) (f_skew_symmetric v)) /\ (forall s, keeps_shape (T := T) (f_skew_symmetric_2D s)) /\
  (forall a, keeps_shape (T := T) (f_rotation_2D a)) /\ (forall i a, keeps_shape (T := T) (f_rotation_world_axis i a)) /\
  (forall v a, keeps_shape (T := T) (f_rotation_axis_angle v a)) /\
  (forall v n o, keeps_shape (T := T) (f_rotation_align_2D v n o)) /\ (forall v r n o, keeps_shape (T := T) (f_rotation_align v r n o)) /\
  (forall p t r o, keeps_shape (T := T) (f_rotation_aim_at p t r o)) /\ (forall p t u h, keeps_shape (T := T) (f_look_at p t u h)) /\
  (forall l, keeps_shape (T := T) (f_linear_transform l)) /\ (forall v a t n, keeps_shape (T := T) (f_affine_transform_axis v a t n)) /\
  (forall l t, keeps_shape (T := T) (f_affine_transform l t)) /\ keeps_shape (T := T) f_invert_RT_only.
Proof.
  repeat split_and; intros; unfold f_set_basis_vectors_2D, f_set_basis_vectors, f_set_transposed_basis_vectors, f_set_basis_vector_2D, f_set_basis_vector, f_set_transposed_basis_vector,
    f_translation_2D_v, f_translation_v, f_set_translation_2D_v, f_set_translation_2D, f_scale_2D_v, f_scale_2D, f_scale_v, f_scale, f_skew_symmetric, f_skew_symmetric_2D,
    f_rotation_2D, f_rotation_world_axis, f_affine_transform_axis, f_rotation_axis_angle, f_rotation_align_2D, f_rotation_aim_at, f_rotation_align, f_look_at, f_affine_transform, f_linear_transform, f_invert_RT_only,
    f_set_translation_v, f_set_translation, f_set_basis_vectors_2D, f_set_basis_vectors, f_set_transposed_basis_vectors, f_set_basis_vector_2D, f_set_basis_vector, f_set_transposed_basis_vector; cbv zeta; ks.
Qed.

Lemma sa_look {A} (c : mx T -> out A) (s : A -> stmt T unit) : (forall m m', same_shape m m' -> c m = c m') -> (forall x, starts_afresh (s x)) -> starts_afresh (seqs (look c) s).
Proof.
  intros C S m m' H. unfold seqs, look. rewrite (C m m' H). destruct (c m'); cbn [fst snd]; [apply S; auto|split; [auto|discriminate]|split; [auto|discriminate]].
Qed.
Lemma sa_identity (s : unit -> stmt T unit) : starts_afresh (seqs identity_ s).
Proof. intros m m' H. unfold seqs, identity_. rewrite (mx_identity_shape m m' H). auto. Qed.
Lemma sa_zero (s : unit -> stmt T unit) : starts_afresh (seqs zero_ s).
Proof. intros m m' (H1 & H2 & H3). unfold seqs, zero_. replace (mx_zero m) with (mx_zero m') by (unfold mx_zero; congruence). auto. Qed.
Lemma sa_seq (s1 : stmt T unit) (s2 : unit -> stmt T unit) : starts_afresh s1 -> starts_afresh (seqs s1 s2).
Proof.
  intros S m m' H. destruct (S m m' H) as [E1 E2]. unfold seqs. destruct (s1 m) as [a [[]|e|]], (s1 m') as [b [[]|e'|]]; cbn [fst snd] in *; try discriminate.
  - rewrite (E2 eq_refl). auto.
  - split; [auto|discriminate].
  - split; [auto|discriminate].
Qed.
Lemma flip_linear (m m' : mx T) : same_shape m m' -> check_linear_3D m = check_linear_3D m'. Proof. apply linear_shape. Qed.
(** the builders that begin with identity() or zero(), possibly after checks: what was in the matrix is gone when they succeed *)
Theorem builders_start_afresh :
  (forall v, starts_afresh (T := T) (f_translation_2D_v v)) /\ (forall v, starts_afresh (T := T) (f_translation_v v)) /\
  (forall v, starts_afresh (T := T) (f_scale_2D_v v)) /\ (forall v, starts_afresh (T := T) (f_scale_v v)) /\
  (forall v, starts_afresh (T := T) (f_skew_symmetric v)) /\ (forall s, starts_afresh (T := T) (f_skew_symmetric_2D s)) /\
  (forall a, starts_afresh (T := T) (f_rotation_2D a)) /\ (forall i a, starts_afresh (T := T) (f_rotation_world_axis i a)) /\
  (forall v a, starts_afresh (T := T) (f_rotation_axis_angle v a)) /\
  (forall v n o, starts_afresh (T := T) (f_rotation_align_2D v n o)) /\ (forall v r n o, starts_afresh (T := T) (f_rotation_align v r n o)) /\
  (forall p t r o, starts_afresh (T := T) (f_rotation_aim_at p t r o)) /\ (forall p t u h, starts_afresh (T := T) (f_look_at p t u h)) /\
  (forall l, starts_afresh (T := T) (f_linear_transform l)) /\ (forall v a t n, starts_afresh (T := T) (f_affine_transform_axis v a t n)) /\
  (forall l t, starts_afresh (T := T) (f_affine_transform l t)).
Proof.
  repeat split_and; intros; unfold f_translation_2D_v, f_translation_v, f_scale_2D_v, f_scale_2D, f_scale_v, f_scale, f_skew_symmetric, f_skew_symmetric_2D,
    f_rotation_2D, f_rotation_world_axis, f_affine_transform_axis, f_rotation_axis_angle, f_rotation_align_2D, f_rotation_aim_at, f_rotation_align, f_look_at, f_affine_transform, f_linear_transform; cbv zeta;
    repeat first [apply sa_identity | apply sa_zero | apply sa_look; [intros; first [reflexivity | apply linear_shape; assumption | apply linear2_shape; assumption | apply affine_shape; assumption | apply affine2_shape; assumption]|intros] | apply sa_seq].
Qed.
(** so a call that succeeds after one that failed gives what it would have given without it *)
Theorem retry : forall (s1 s2 : stmt T unit) m e, keeps_shape s1 -> starts_afresh s2 -> snd (s1 m) = Throw e -> snd (s2 m) = Ok tt -> s2 (fst (s1 m)) = s2 m.
Proof.
  intros s1 s2 m e K S _ H. destruct (S (fst (s1 m)) m (K m)) as [E1 E2]. rewrite H in E1. specialize (E2 E1). destruct (s2 (fst (s1 m))), (s2 m). cbn in *. congruence.
Qed.
End Theorems.

(** ** Cases, and the general claim that fails *)
(** whole-number stand-ins, exact for the angle 0 and for perfect squares; no case below depends on another value *)
#[local] Instance ZMath : MathOps Z := {| mfabs := Z.abs; mfmod := Z.rem; msqrt := Z.sqrt; mcos := fun _ => 1%Z; msin := fun _ => 0%Z; mtan := fun _ => 0%Z;
  macos := fun _ => 0%Z; masin := fun _ => 0%Z; matan2 := fun _ _ => 0%Z; mlog := fun _ => 0%Z; mexp := fun _ => 1%Z; mpi := 3%Z |}.
Definition z44 : mx Z := Mx 4 4 col_basis (fun i j => 10 * Z.of_nat i + Z.of_nat j + 5)%Z.
Definition z22 : mx Z := Mx 2 2 row_basis (fun i j => 10 * Z.of_nat i + Z.of_nat j + 5)%Z.
(** "a call that throws leaves the matrix as it was" fails for translation, alignment, the derivatives of an
    Euler rotation, look-at, several basis vectors at once, and the affine transforms *)
Theorem unchanged_on_failure_refuted :
  (exists v (m : mx Z), ~ (forall e, snd (f_translation_v v m) = Throw e -> fst (f_translation_v v m) = m) /\ exists e, snd (f_translation_v v m) = Throw e) /\
  (exists v r (m : mx Z), ~ all_or_nothing (f_rotation_align v r true (ao_value ao_xyz)) /\ exists e, snd (f_rotation_align v r true (ao_value ao_xyz) m) = Throw e) /\
  (exists i a b c o, ~ all_or_nothing (T := Z) (f_rotation_euler_derivatives i a b c o)) /\
  (exists p t u, ~ all_or_nothing (T := Z) (f_look_at p t u left_handed)) /\
  (exists x y z, ~ all_or_nothing (T := Z) (f_set_basis_vectors x y z)) /\
  (exists v a t, ~ all_or_nothing (T := Z) (f_affine_transform_axis v a t false)) /\
  (exists l t, ~ all_or_nothing (T := Z) (f_affine_transform l t)).
Proof.
  assert (N : forall (a b : mx Z) i j, mel a i j <> mel b i j -> a <> b) by (intros a b i j H E; apply H; rewrite E; auto).
  split; [|split; [|split; [|split; [|split; [|split]]]]].
  - exists [1%Z], z44. split; [|eexists; reflexivity]. intros H. specialize (H _ eq_refl). refine (N _ _ 0 0 _ H). cbv. discriminate.
  - exists [1%Z; 0%Z; 0%Z], [0%Z; 1%Z; 0%Z], z22. split; [|eexists; reflexivity]. intros H. specialize (H z22 _ eq_refl). refine (N _ _ 0 0 _ H). cbv. discriminate.
  - exists 0%Z, 0%Z, 0%Z, 0%Z, (eo_value eo_xyx). intros H. specialize (H z44 _ eq_refl). refine (N _ _ 0 0 _ H). cbv. discriminate.
  - exists [0%Z], [0%Z; 0%Z; 1%Z], [0%Z; 1%Z; 0%Z]. intros H. specialize (H z44 _ eq_refl). refine (N _ _ 0 0 _ H). cbv. discriminate.
  - exists [1%Z; 2%Z; 3%Z], [1%Z; 2%Z; 3%Z], [1%Z; 2%Z]. intros H. specialize (H z44 _ eq_refl). refine (N _ _ 0 0 _ H). cbv. discriminate.
  - exists [1%Z; 2%Z; 3%Z], 0%Z, [1%Z]. intros H. specialize (H z44 _ eq_refl). refine (N _ _ 0 0 _ H). cbv. discriminate.
  - exists z44, [1%Z]. intros H. specialize (H z44 _ eq_refl). refine (N _ _ 0 3 _ H). cbv. discriminate.
Qed.
Definition entries (m : mx Z) : list (list Z) := map (fun i => map (fun j => mel m i j) (seq 0 (mcols m))) (seq 0 (mrows m)).
(** the first two basis vectors are in place when the third is refused (column basis: they are columns) *)
Example stored_case :
  (let (m, o) := f_set_basis_vectors [1; 2; 3]%Z [4; 5; 6]%Z [7; 8]%Z z44 in (entries m, o)) =
  ([[1; 4; 7; 8]; [2; 5; 17; 18]; [3; 6; 27; 28]; [35; 36; 37; 38]]%Z, Throw EVectorSize).
Proof. reflexivity. Qed.
(** alignment of a 2x2 matrix: the identity is left, and EMinimumMatrixSize thrown *)
Example align_case : let (m, o) := f_rotation_align [1; 0; 0]%Z [0; 1; 0]%Z true (ao_value ao_xyz) z22 in (entries m, o) = ([[1; 0]; [0; 1]]%Z, Throw EMinimumMatrixSize).
Proof. reflexivity. Qed.
(** a refused translation, then a good one *)
Example retry_case : snd (f_translation_v [1%Z] z44) = Throw EVectorSizeRange /\
  (let (m, o) := f_translation_v [7; 8; 9]%Z (fst (f_translation_v [1%Z] z44)) in (entries m, o)) = ([[1; 0; 0; 7]; [0; 1; 0; 8]; [0; 0; 1; 9]; [0; 0; 0; 1]]%Z, Ok tt).
Proof. split; reflexivity. Qed.
(** a look-at whose position has the wrong size: the identity is left *)
Example look_at_case : let (m, o) := f_look_at [0]%Z [0; 0; 1]%Z [0; 1; 0]%Z left_handed z44 in (entries m, o) = ([[1; 0; 0; 0]; [0; 1; 0; 0]; [0; 0; 1; 0]; [0; 0; 0; 1]]%Z, Throw EIncompatibleVectorSize).
Proof. reflexivity. Qed.

Print Assumptions statements_carry_out_basis.
Print Assumptions statements_carry_out_scale.
Print Assumptions statements_carry_out_rotation.
Print Assumptions statements_carry_out_transform.
Print Assumptions single_checks_first.
Print Assumptions rigid_inverse_checks_first.
Print Assumptions translation_leaves_identity.
Print Assumptions alignment_leaves_identity.
Print Assumptions look_at_leaves.
Print Assumptions euler_derivatives_leaves_identity.
Print Assumptions basis_vectors_stored_so_far.
Print Assumptions affine_transform_stored_so_far.
Print Assumptions affine_transform_axis_stored_so_far.
Print Assumptions shape_survives.
Print Assumptions builders_start_afresh.
Print Assumptions retry.
Print Assumptions unchanged_on_failure_refuted.
