(** C75: transformation matrices built from elements, rows and columns of the matrix being written. *)
From Coq Require Import List Bool Arith ZArith Lia Reals Lra.
From Verif Require Import Base RInst MiscModel QuatModel RotModel VecModel XfModel AliasModel.
Import ListNotations.
Open Scope nat_scope.

(** matrices with the same sizes and basis orientation *)
Definition alike {T} (m m' : mx T) : Prop := mrows m = mrows m' /\ mcols m = mcols m' /\ mbasis m = mbasis m'.
(** every element of a vector argument is a reference (or a value of its own): a row, a column, a part of them *)
Definition by_reference {T} (v : varg T) : Prop := exists l, v = VRefs l.
(** the argument does not refer to the matrix: its elements are [l] at any time *)
Definition stays {T} {Op : Ops T} (v : varg T) (l : list T) : Prop := forall m, vread m v = l.

Section Own.
Context {T : Type} {Op : Ops T} {MO : MathOps T}.

Lemma vread_length : forall m (v : varg T), length (vread m v) = vlen v.
Proof. intros m v. unfold vread, elems. now rewrite map_length, seq_length. Qed.
Lemma el_vread : forall m (v : varg T) k, k < vlen v -> el (vread m v) k = sread m (vget m v k).
Proof.
  intros m v k H. unfold vread, elems, el.
  rewrite (nth_indep _ zero (sread m (vget m v 0))) by (rewrite map_length, seq_length; exact H).
  rewrite (map_nth (fun k => sread m (vget m v k)) (seq 0 (vlen v)) 0 k), seq_nth by auto. reflexivity.
Qed.
Lemma check_vread : forall m (v : varg T) n, check_size (vread m v) n = vcheck_size v n.
Proof. intros. unfold check_size, vcheck_size. now rewrite vread_length. Qed.
Lemma stays_len : forall (v : varg T) l, stays v l -> vlen v = length l.
Proof. intros v l H. rewrite <- (H (Mx 0 0 row_basis (fun _ _ => zero))). now rewrite vread_length. Qed.
Lemma stays_get : forall (v : varg T) l m m' k, stays v l -> k < length l -> sread m' (vget m v k) = el l k.
Proof.
  intros v l m m' k H L. assert (E : forall m, sread m (vget m v k) = el l k).
  { intros m0. rewrite <- (H m0). rewrite el_vread; [reflexivity|]. now rewrite (stays_len v l H). }
  destruct v as [r|n f]; [exact (E m')|exact (E m)].
Qed.
Lemma vval_stays : forall l : list T, stays (VVal l) l.
Proof.
  intros l m. apply (nth_ext _ _ zero zero).
  - rewrite vread_length. unfold VVal. cbn. now rewrite map_length.
  - intros k H. change (el (vread m (VVal l)) k = nth k l zero). rewrite vread_length in H. rewrite el_vread by auto.
    unfold VVal, vlen in H. rewrite map_length in H. cbn [vget VVal].
    rewrite (map_nth SVal l zero k : nth k (map SVal l) (SVal zero) = SVal (nth k l zero)). reflexivity.
Qed.
Lemma require_if : forall b e (A : Type) (f : unit -> out A), bind (require b e) f = if b then f tt else Throw e.
Proof. intros [] e A f; reflexivity. Qed.


Lemma bind_ext : forall (A B : Type) (o : out A) (f g : A -> out B), (forall a, f a = g a) -> bind o f = bind o g.
Proof. intros A B [a|e|] f g H; cbn; auto. Qed.

(** ** Arguments that do not refer to the matrix: the functions of RotModel.v and XfModel.v *)
Ltac sizes H v l := unfold vcheck_size, check_size, check_size_range; rewrite ?(stays_len v l H), ?require_if.
Ltac fetch H v l := rewrite ?(fun m m' k => stays_get v l m m' k H) by lia.

Theorem scale_elsewhere : forall (m : mx T) v l, stays v l ->
  scale_v m v = matrix_scale_v m l /\ inverse_scale_v m v = matrix_inverse_scale_v m l /\
  scale_2D_v m v = matrix_scale_2D_v m l /\ inverse_scale_2D_v m v = matrix_inverse_scale_2D_v m l.
Proof.
  intros m v l H. unfold scale_v, inverse_scale_v, scale_2D_v, inverse_scale_2D_v, matrix_scale_v, matrix_inverse_scale_v,
    matrix_scale_2D_v, matrix_inverse_scale_2D_v. sizes H v l.
  repeat split; match goal with |- (if Nat.eqb ?a ?b then _ else _) = _ => destruct (Nat.eqb_spec a b) as [E|]; [|reflexivity] end;
    unfold inverse_scale, matrix_inverse_scale, inverse_scale_2D, matrix_inverse_scale_2D, scale, scale_2D, matrix_scale, matrix_scale_2D, put_be;
    fetch H v l; reflexivity.
Qed.

Theorem translation_elsewhere : forall (m : mx T) v l, stays v l ->
  set_translation_v m v = matrix_set_translation_v m l /\ translation_v m v = matrix_translation_v m l /\
  set_translation_2D_v m v = matrix_set_translation_2D_v m l /\ translation_2D_v m v = matrix_translation_2D_v m l.
Proof.
  intros m v l H.
  assert (A : forall m, set_translation_v m v = matrix_set_translation_v m l).
  { clear m. intros m. unfold set_translation_v, matrix_set_translation_v. sizes H v l.
    destruct (Nat.leb_spec 2 (length l)); [|reflexivity]. destruct (Nat.leb_spec (length l) 3); [|reflexivity]. cbn [andb].
    unfold set_translation, matrix_set_translation, set_basis_refs, put_be. cbn [combine seq length fold_left fst snd]. fetch H v l.
    destruct (Nat.eqb_spec (length l) 3); [fetch H v l|]; reflexivity. }
  assert (B : forall m, set_translation_2D_v m v = matrix_set_translation_2D_v m l).
  { clear m. intros m. unfold set_translation_2D_v, matrix_set_translation_2D_v. sizes H v l.
    destruct (Nat.eqb_spec (length l) 2); [|reflexivity].
    unfold set_translation_2D, matrix_set_translation_2D, set_basis_refs, put_be. cbn [combine seq length fold_left fst snd]. fetch H v l.
    reflexivity. }
  unfold translation_v, translation_2D_v, matrix_translation_v, matrix_translation_2D_v. auto.
Qed.

Theorem scalars_elsewhere : forall (m : mx T) a b c,
  scale m (SVal a) (SVal b) (SVal c) = matrix_scale m a b c /\ uniform_scale m (SVal a) = matrix_uniform_scale m a /\
  scale_2D m (SVal a) (SVal b) = matrix_scale_2D m a b /\ uniform_scale_2D m (SVal a) = matrix_uniform_scale_2D m a /\
  inverse_scale_2D m (SVal a) (SVal b) = matrix_inverse_scale_2D m a b /\
  translation m (SVal a) (SVal b) (SVal c) = matrix_translation m a b c /\ translation_xy m (SVal a) (SVal b) = matrix_translation_xy m a b /\
  translation_2D m (SVal a) (SVal b) = matrix_translation_2D m a b /\
  set_translation m (SVal a) (SVal b) (SVal c) = matrix_set_translation m a b c /\
  set_translation_xy m (SVal a) (SVal b) = matrix_set_translation_xy m a b /\
  skew_symmetric_2D m (SVal a) = matrix_skew_symmetric_2D m a.
Proof. intros. repeat split. Qed.
Theorem skew_elsewhere : forall (m : mx T) v l, stays v l -> skew_symmetric m v = matrix_skew_symmetric m l.
Proof.
  intros m v l H. unfold skew_symmetric, matrix_skew_symmetric, put_be. apply bind_ext. intros _. sizes H v l.
  destruct (Nat.eqb_spec (length l) 3) as [E|]; [|reflexivity]. cbv zeta. cbn [sread]. repeat (progress fetch H v l). reflexivity.
Qed.

Lemma basis_elsewhere : forall (m : mx T) i v l, stays v l ->
  set_basis_vector m i v = matrix_set_basis_vector m i l /\
  set_transposed_basis_vector m i v = matrix_set_transposed_basis_vector m i l /\
  set_basis_vector_2D m i v = matrix_set_basis_vector_2D m i l.
Proof.
  intros m i v l H. unfold set_basis_vector, matrix_set_basis_vector, set_transposed_basis_vector, matrix_set_transposed_basis_vector,
    set_basis_vector_2D, matrix_set_basis_vector_2D, put_be. sizes H v l.
  repeat split; match goal with |- bind ?c _ = _ => destruct c; [|reflexivity|reflexivity] end; cbn [bind];
   match goal with |- (if Nat.eqb ?a ?b then _ else _) = _ => destruct (Nat.eqb_spec a b) as [E|]; [|reflexivity] end;
   match goal with |- bind ?c _ = _ => destruct c; [|reflexivity|reflexivity] end; cbn [bind];
   repeat (fetch H v l); reflexivity.
Qed.
Theorem basis_vectors_elsewhere : forall (m : mx T) x y z lx ly lz, stays x lx -> stays y ly -> stays z lz ->
  set_basis_vectors m x y z = matrix_set_basis_vectors m lx ly lz /\
  set_transposed_basis_vectors m x y z = matrix_set_transposed_basis_vectors m lx ly lz /\
  set_basis_vectors_2D m x y = matrix_set_basis_vectors_2D m lx ly.
Proof.
  intros m x y z lx ly lz Hx Hy Hz.
  unfold set_basis_vectors, matrix_set_basis_vectors, set_transposed_basis_vectors, matrix_set_transposed_basis_vectors,
    set_basis_vectors_2D, matrix_set_basis_vectors_2D.
  destruct (basis_elsewhere m 0%Z x lx Hx) as (-> & -> & ->). repeat split.
  - destruct (matrix_set_basis_vector m 0 lx) as [m1| |]; cbn [bind]; auto.
    destruct (basis_elsewhere m1 1%Z y ly Hy) as (-> & _ & _). destruct (matrix_set_basis_vector m1 1 ly) as [m2| |]; cbn [bind]; auto.
    apply basis_elsewhere; auto.
  - destruct (matrix_set_transposed_basis_vector m 0 lx) as [m1| |]; cbn [bind]; auto.
    destruct (basis_elsewhere m1 1%Z y ly Hy) as (_ & -> & _). destruct (matrix_set_transposed_basis_vector m1 1 ly) as [m2| |]; cbn [bind]; auto.
    apply basis_elsewhere; auto.
  - destruct (matrix_set_basis_vector_2D m 0 lx) as [m1| |]; cbn [bind]; auto. apply basis_elsewhere; auto.
Qed.

(** ** Functions that read their arguments once the matrix is the identity *)
Theorem axis_angle_reads_identity : forall (m : mx T) axis angle,
  rotation_axis_angle m axis angle = matrix_rotation_axis_angle m (vread (mx_identity m) axis) (sread (mx_identity m) angle).
Proof.
  intros m axis angle. unfold rotation_axis_angle, matrix_rotation_axis_angle. rewrite check_vread.
  apply bind_ext. intros _. unfold vcheck_size. rewrite !require_if.
  destruct (Nat.eqb_spec (vlen axis) 3) as [E|]; [|reflexivity]. cbv zeta.
  rewrite !el_vread by (rewrite E; auto). reflexivity.
Qed.
Theorem align_reads_identity : forall (m : mx T) align reference normalize order,
  rotation_align m align reference normalize order =
  matrix_rotation_align m (vread (mx_identity m) align) (vread (mx_identity m) reference) normalize order.
Proof.
  intros. unfold rotation_align, matrix_rotation_align.
  destruct (vorthonormal_basis _ _ _ _) as [[[x y] z]| |]; cbn [bind]; auto.
  apply (basis_vectors_elsewhere _ _ _ _ x y z); apply vval_stays.
Qed.
Theorem align_2D_reads_identity : forall (m : mx T) align normalize order,
  rotation_align_2D m align normalize order = matrix_rotation_align_2D m (vread (mx_identity m) align) normalize order.
Proof.
  intros. unfold rotation_align_2D, matrix_rotation_align_2D. destruct (check_linear_2D m); [|reflexivity|reflexivity]. cbn [bind].
  destruct (vorthonormal_basis_2D _ _ _) as [[x y]| |]; cbn [bind]; auto.
  apply (basis_vectors_elsewhere _ _ _ (VVal []) x y []); apply vval_stays.
Qed.
Theorem aim_at_reads_identity : forall (m : mx T) pos target reference order,
  rotation_aim_at m pos target reference order =
  matrix_rotation_aim_at m (vread (mx_identity m) pos) (vread (mx_identity m) target) (vread (mx_identity m) reference) order.
Proof.
  intros. unfold rotation_aim_at, matrix_rotation_aim_at, vsub, check_vsame. rewrite !vread_length, !require_if.
  destruct (Nat.eqb_spec (vlen target) (vlen pos)) as [E|]; [|reflexivity]. cbn [bind].
  rewrite align_reads_identity. f_equal. unfold vread at 1. cbn [vlen]. unfold elems. apply map_ext_in. intros k K. apply in_seq in K.
  cbn [vget sread]. rewrite !el_vread by lia. reflexivity.
Qed.

(** ** What was in the matrix cannot be seen *)
Ltac same m m' H := destruct m, m', H as (-> & -> & ->).
Theorem scale_forgets : forall (m m' : mx T) a b c v, alike m m' -> by_reference v ->
  scale m a b c = scale m' a b c /\ uniform_scale m a = uniform_scale m' a /\ scale_v m v = scale_v m' v /\
  scale_2D m a b = scale_2D m' a b /\ uniform_scale_2D m a = uniform_scale_2D m' a /\ scale_2D_v m v = scale_2D_v m' v.
Proof. intros m m' a b c v H [l ->]. destruct m, m', H as (E1 & E2 & E3). cbn in E1, E2, E3. subst. repeat split. Qed.
Theorem translation_forgets : forall (m m' : mx T) a b c v, alike m m' ->
  translation m a b c = translation m' a b c /\ translation_xy m a b = translation_xy m' a b /\ translation_v m v = translation_v m' v /\
  translation_2D m a b = translation_2D m' a b /\ translation_2D_v m v = translation_2D_v m' v.
Proof. intros m m' a b c v H. destruct m, m', H as (E1 & E2 & E3). cbn in E1, E2, E3. subst. repeat split. Qed.
Theorem rotation_forgets : forall (m m' : mx T) v w u a n o, alike m m' ->
  rotation_axis_angle m v a = rotation_axis_angle m' v a /\ rotation_align m v w n o = rotation_align m' v w n o /\
  rotation_align_2D m v n o = rotation_align_2D m' v n o /\ rotation_aim_at m u v w o = rotation_aim_at m' u v w o /\
  skew_symmetric m v = skew_symmetric m' v /\ skew_symmetric_2D m a = skew_symmetric_2D m' a.
Proof. intros m m' v w u a n o H. destruct m, m', H as (E1 & E2 & E3). cbn in E1, E2, E3. subst. repeat split. Qed.
Theorem look_at_forgets : forall (m m' : mx T) p t u h, alike m m' -> look_at m p t u h = look_at m' p t u h.
Proof. intros m m' p t u h H. destruct m, m', H as (E1 & E2 & E3). cbn in E1, E2, E3. subst. reflexivity. Qed.
Theorem linear_transform_forgets : forall (m m' : mx T) l, alike m m' -> alike (l m) (l m') -> linear_transform m l = linear_transform m' l.
Proof.
  intros m m' l H G. unfold linear_transform, check_linear_3D, check_minimum_size.
  destruct m, m', H as (E1 & E2 & E3). cbn in E1, E2, E3. subst. destruct G as (-> & -> & _). reflexivity.
Qed.

(** ** Scales and translations by elements of the matrix itself *)
(** a reference to basis element (i,j) of a matrix with the orientation of m *)
Definition bref (m : mx T) (i j : nat) : sarg T := match mbasis m with row_basis => SElem i j | col_basis => SElem j i end.
(** basis vector i and transposed basis vector j, as views of three elements *)
Definition bview (m : mx T) (i : nat) : varg T := VRefs [bref m i 0; bref m i 1; bref m i 2].
Definition tview (m : mx T) (j : nat) : varg T := VRefs [bref m 0 j; bref m 1 j; bref m 2 j].
Definition affine3 (m : mx T) : Prop :=
  match mbasis m with row_basis => 4 <= mrows m /\ 3 <= mcols m | col_basis => 3 <= mrows m /\ 4 <= mcols m end.

Lemma affine3_ok : forall m : mx T, affine3 m -> check_affine_3D m = Ok tt.
Proof.
  intros m H. unfold affine3, check_affine_3D, check_minimum_size in *. destruct (mbasis m), H as [A B];
    apply Nat.leb_le in A; apply Nat.leb_le in B; rewrite A, B; reflexivity.
Qed.
Lemma linear3_ok : forall m : mx T, affine3 m -> check_linear_3D m = Ok tt.
Proof.
  intros m H. unfold affine3, check_linear_3D, check_minimum_size in *. destruct (mbasis m), H as [A B];
    (replace (Nat.leb 3 (mrows m)) with true by (symmetry; apply Nat.leb_le; lia));
    (replace (Nat.leb 3 (mcols m)) with true by (symmetry; apply Nat.leb_le; lia)); reflexivity.
Qed.

Ltac small i := destruct i as [|[|[|[|i]]]].

(** scaling a matrix by its own diagonal gives the identity, whatever the diagonal is *)
Theorem scale_by_own_diagonal : forall (m : mx T) i j k, affine3 m ->
  exists r, scale m (SElem i i) (SElem j j) (SElem k k) = Ok r /\ alike m r /\
    forall a b, mel r a b = if Nat.eqb a b then one else zero.
Proof.
  intros m i j k H. unfold scale. rewrite (affine3_ok m H). cbn [bind]. eexists. split; [reflexivity|].
  split; [unfold put_be, set_be, mx_identity; destruct m as [R C [] f]; repeat split|].
  assert (P : forall (m : mx T) i j, (forall a b, mel m a b = if Nat.eqb a b then one else zero) ->
    forall a b, mel (put_be m i i (SElem j j)) a b = if Nat.eqb a b then one else zero).
  { intros m0 i0 j0 E a b. unfold put_be, set_be, sread. rewrite E, Nat.eqb_refl.
    destruct (mbasis m0); cbn [mel set_el]; destruct (Nat.eqb_spec a i0), (Nat.eqb_spec b i0); subst; cbn [andb]; try apply E; now rewrite Nat.eqb_refl. }
  apply P, P, P. reflexivity.
Qed.
(** uniform scale by any of its own elements: by one or by zero *)
Theorem uniform_scale_by_own_element : forall (m : mx T) i j, affine3 m ->
  exists r, uniform_scale m (SElem i j) = Ok r /\
    forall a b, a < 3 -> b < 3 -> mel r a b = if Nat.eqb a b then (if Nat.eqb i j then one else zero) else zero.
Proof.
  intros m i j H. unfold uniform_scale. destruct (Nat.eqb_spec i j) as [->|N].
  - destruct (scale_by_own_diagonal m j j j H) as (r & E & _ & G). exists r. split; auto.
  - unfold scale. rewrite (affine3_ok m H). cbn [bind]. eexists. split; [reflexivity|].
    intros a b A B. unfold put_be, set_be, sread, mx_identity. cbn [mbasis].
    assert (D : forall x, Nat.eqb i x && Nat.eqb j x = false) by (intros x; destruct (Nat.eqb_spec i x), (Nat.eqb_spec j x); subst; auto; now elim N).
    assert (D' : Nat.eqb i j = false) by (now apply Nat.eqb_neq).
    destruct (mbasis m); cbn [mel set_el mbasis mrows mcols]; rewrite !D, D';
      destruct a as [|[|[|a]]]; try lia; destruct b as [|[|[|b]]]; try lia; reflexivity.
Qed.
(** a translation by its own translation is none *)
Theorem translation_by_own_translation : forall (m : mx T), affine3 m ->
  exists r, translation m (bref m 3 0) (bref m 3 1) (bref m 3 2) = Ok r /\ alike m r /\
    translation_v m (bview m 3) = Ok r /\
    forall a b, mel r a b = if Nat.eqb a b then one else zero.
Proof.
  intros m H. unfold translation, translation_v, set_translation_v, set_translation.
  assert (C : check_affine_3D (mx_identity m) = Ok tt) by exact (affine3_ok m H).
  cbn [vlen bview length Nat.leb andb require bind]. rewrite C. cbn [bind]. eexists. split; [reflexivity|].
  split; [unfold set_basis_refs, put_be, set_be, mx_identity; destruct m as [R C' [] f]; repeat split|].
  assert (Z : forall (m : mx T) i j i' j', i <> j -> i' <> j' -> (forall a b, mel m a b = if Nat.eqb a b then one else zero) ->
    forall a b, mel (put_be m i j (SElem i' j')) a b = if Nat.eqb a b then one else zero).
  { intros m0 i j i' j' N N' E a b. unfold put_be, set_be, sread. rewrite E.
    apply Nat.eqb_neq in N'. rewrite N'.
    destruct (mbasis m0); cbn [mel set_el]; destruct (Nat.eqb_spec a i), (Nat.eqb_spec b j), (Nat.eqb_spec a j), (Nat.eqb_spec b i); subst; cbn [andb]; try apply E;
      try (now elim N); rewrite ?(proj2 (Nat.eqb_neq i j)), ?(proj2 (Nat.eqb_neq j i)) by congruence; auto. }
  split.
  - destruct m as [R C' [] f]; reflexivity.
  - unfold set_basis_refs. cbn [combine seq length fold_left fst snd]. destruct m as [R C' [] f]; cbn [bref mbasis];
      repeat (apply Z; [discriminate|discriminate|]); reflexivity.
Qed.
(** the inverse scale reads its arguments in time *)
Theorem inverse_scale_by_own_elements : forall (m : mx T) a b c l,
  inverse_scale m a b c = matrix_inverse_scale m (sread m a) (sread m b) (sread m c) /\
  inverse_scale_v m (VRefs l) = matrix_inverse_scale_v m (vread m (VRefs l)).
Proof.
  intros m a b c l. split; [reflexivity|]. unfold inverse_scale_v, matrix_inverse_scale_v. rewrite check_vread. unfold vcheck_size. rewrite !require_if.
  destruct (Nat.eqb_spec (vlen (VRefs l)) 3); [|reflexivity]. rewrite !el_vread by lia. reflexivity.
Qed.

Theorem world_axis_by_own_element : forall (m : mx T) axis a,
  rotation_world_axis m axis a = matrix_rotation_world_axis m axis (sread m a).
Proof. reflexivity. Qed.
(** the linear part of its own transpose is the identity too *)
Theorem linear_transform_by_own_transpose : forall m : mx T, 3 <= mrows m -> 3 <= mcols m ->
  exists r, linear_transform m (fun m => Mx (mcols m) (mrows m) (mbasis m) (fun i j => mel m j i)) = Ok r /\ alike m r /\
    forall a b, mel r a b = if Nat.eqb a b then one else zero.
Proof.
  intros m HR HC. unfold linear_transform, check_linear_3D, check_minimum_size. cbn [mrows mcols].
  apply Nat.leb_le in HR, HC. rewrite HR, HC. cbn [andb require bind]. eexists. split; [reflexivity|].
  set (P := fun r => alike m r /\ forall a b, mel r a b = if Nat.eqb a b then one else zero).
  assert (K : forall r i j, P r -> P (set_be r i j (be (Mx (mcols r) (mrows r) (mbasis r) (fun i j => mel r j i)) i j))).
  { intros r i j [A V]. split.
    - unfold alike, set_be in *. destruct (mbasis r) eqn:E; cbn; rewrite ?E; exact A.
    - intros a b. unfold set_be, be. destruct (mbasis r) eqn:E; cbn [mel mbasis set_el]; rewrite !V;
        [destruct (Nat.eqb_spec a i), (Nat.eqb_spec b j)|destruct (Nat.eqb_spec a j), (Nat.eqb_spec b i)]; subst; cbn [andb]; auto; now rewrite Nat.eqb_sym. }
  assert (F : forall (A : Type) (f : mx T -> A -> mx T) l r, (forall r a, P r -> P (f r a)) -> P r -> P (fold_left f l r)).
  { intros A f l. induction l; cbn; auto. }
  assert (I : P (mx_identity m)) by (split; [repeat split|reflexivity]).
  unfold copy_linear. refine (F nat _ _ _ _ I).
  intros r i Q. refine (F nat _ _ _ _ Q). intros r' j Q'. now apply K.
Qed.

(** ** Rows and columns *)
(** the element at place (i,j) of the result is v[j]: as it was before the call, except that an element
    (i,c) with c < j has been replaced by then *)
Theorem set_row_own : forall (m : mx T) i l, length l = mcols m ->
  exists r, set_row m i (VRefs l) = Ok r /\ alike m r /\
  (forall a b, a <> i \/ mcols m <= b -> mel r a b = mel m a b) /\
  (forall j, j < mcols m -> mel r i j =
     match nth j l (SVal zero) with
     | SVal x => x
     | SElem a c => if Nat.eqb a i && Nat.ltb c j then mel r i c else mel m a c
     end).
Proof.
  intros m i l L. unfold set_row. cbn [vlen]. rewrite L, Nat.eqb_refl. cbn [require bind]. eexists. split; [reflexivity|].
  set (step := fun (m : mx T) j => set_el m i j (sread m (vget m (VRefs l) j))).
  assert (G : forall n, let r := fold_left step (seq 0 n) m in alike m r /\
    (forall a b, a <> i \/ n <= b -> mel r a b = mel m a b) /\
    (forall j, j < n -> mel r i j = match nth j l (SVal zero) with SVal x => x | SElem a c => if Nat.eqb a i && Nat.ltb c j then mel r i c else mel m a c end)).
  { induction n; cbn zeta.
    - cbn. repeat split; auto. lia.
    - rewrite seq_S, fold_left_app. cbn [fold_left plus]. destruct IHn as (A & B & C).
      set (r := fold_left step (seq 0 n) m) in *. split; [|split].
      + unfold alike, step, set_el in *. cbn. exact A.
      + intros a b H. unfold step, set_el. cbn [mel]. destruct (Nat.eqb_spec a i), (Nat.eqb_spec b n); cbn [andb]; try (apply B; lia). lia.
      + intros j J. assert (K : forall c, c < n -> mel (step r n) i c = mel r i c).
        { intros c Hc. unfold step, set_el. cbn [mel]. rewrite Nat.eqb_refl. destruct (Nat.eqb_spec c n); [lia|reflexivity]. }
        destruct (Nat.eq_dec j n) as [->|N].
        * unfold step at 1, set_el. cbn [mel]. rewrite !Nat.eqb_refl. cbn [andb vget]. destruct (nth n l (SVal zero)) as [x|a c]; [reflexivity|]. cbn [sread].
          destruct (Nat.eqb_spec a i) as [->|Na]; cbn [andb]; [|apply B; auto].
          destruct (Nat.ltb_spec c n); [rewrite K by auto; reflexivity|apply B; auto].
        * rewrite K by lia. rewrite C by lia. destruct (nth j l (SVal zero)) as [x|a c]; [reflexivity|].
          destruct (Nat.eqb a i); cbn [andb]; [|reflexivity]. destruct (Nat.ltb_spec c j); [rewrite K by lia; reflexivity|reflexivity]. }
  exact (G (mcols m)).
Qed.
Lemma nth_VRow : forall (m : mx T) k j, j < mcols m -> nth j (map (fun j => SElem k j) (seq 0 (mcols m))) (SVal zero) = SElem k j.
Proof.
  intros m k j H. rewrite (nth_indep _ (SVal zero) (SElem k 0)) by (now rewrite map_length, seq_length).
  rewrite (map_nth (fun j => SElem k j) (seq 0 (mcols m)) 0 j), seq_nth by auto. reflexivity.
Qed.
Lemma nth_VCol : forall (m : mx T) k j, j < mrows m -> nth j (map (fun i => SElem i k) (seq 0 (mrows m))) (SVal zero) = SElem j k.
Proof.
  intros m k j H. rewrite (nth_indep _ (SVal zero) (SElem 0 k)) by (now rewrite map_length, seq_length).
  rewrite (map_nth (fun i => SElem i k) (seq 0 (mrows m)) 0 j), seq_nth by auto. reflexivity.
Qed.
(** a row of the matrix is copied *)
Theorem set_row_from_own_row : forall (m : mx T) i k, exists r, set_row m i (VRow m k) = Ok r /\
  forall a b, b < mcols m -> mel r a b = mel m (if Nat.eqb a i then k else a) b.
Proof.
  intros m i k. destruct (set_row_own m i (map (fun j => SElem k j) (seq 0 (mcols m)))) as (r & E & _ & O & V).
  { now rewrite map_length, seq_length. }
  exists r. split; [exact E|]. intros a b H. destruct (Nat.eqb_spec a i) as [->|N]; [|apply O; auto].
  rewrite V, nth_VRow by auto. rewrite (proj2 (Nat.ltb_ge b b)) by lia. now rewrite andb_false_r.
Qed.
(** a column of the matrix is copied, but for the element where row and column meet when that column
    lies left of the diagonal *)
Theorem set_row_from_own_column : forall (m : mx T) i k, mrows m = mcols m -> i < mcols m -> k < mcols m ->
  exists r, set_row m i (VCol m k) = Ok r /\
  forall a b, b < mcols m -> mel r a b =
    if Nat.eqb a i then (if Nat.eqb b i && Nat.ltb k i then mel m k k else mel m b k) else mel m a b.
Proof.
  intros m i k Sq Hi Hk. destruct (set_row_own m i (map (fun i => SElem i k) (seq 0 (mrows m)))) as (r & E & _ & O & V).
  { now rewrite map_length, seq_length. }
  exists r. split; [exact E|]. intros a b H. destruct (Nat.eqb_spec a i) as [->|N]; [|apply O; auto].
  rewrite V, nth_VCol by lia. destruct (Nat.eqb_spec b i) as [->|Nb]; cbn [andb]; [|reflexivity].
  destruct (Nat.ltb_spec k i) as [L|]; [|reflexivity]. rewrite V, nth_VCol by lia.
  destruct (Nat.eqb_spec k i); [lia|]. reflexivity.
Qed.

Theorem set_col_own : forall (m : mx T) j l, length l = mrows m ->
  exists r, set_col m j (VRefs l) = Ok r /\ alike m r /\
  (forall a b, b <> j \/ mrows m <= a -> mel r a b = mel m a b) /\
  (forall i, i < mrows m -> mel r i j =
     match nth i l (SVal zero) with
     | SVal x => x
     | SElem c b => if Nat.eqb b j && Nat.ltb c i then mel r c j else mel m c b
     end).
Proof.
  intros m j l L. unfold set_col. cbn [vlen]. rewrite L, Nat.eqb_refl. cbn [require bind]. eexists. split; [reflexivity|].
  set (step := fun (m : mx T) i => set_el m i j (sread m (vget m (VRefs l) i))).
  assert (G : forall n, let r := fold_left step (seq 0 n) m in alike m r /\
    (forall a b, b <> j \/ n <= a -> mel r a b = mel m a b) /\
    (forall i, i < n -> mel r i j = match nth i l (SVal zero) with SVal x => x | SElem c b => if Nat.eqb b j && Nat.ltb c i then mel r c j else mel m c b end)).
  { induction n; cbn zeta.
    - cbn. repeat split; auto. lia.
    - rewrite seq_S, fold_left_app. cbn [fold_left plus]. destruct IHn as (A & B & C).
      set (r := fold_left step (seq 0 n) m) in *. split; [|split].
      + unfold alike, step, set_el in *. cbn. exact A.
      + intros a b H. unfold step, set_el. cbn [mel]. destruct (Nat.eqb_spec a n), (Nat.eqb_spec b j); cbn [andb]; try (apply B; lia). lia.
      + intros i J. assert (K : forall c, c < n -> mel (step r n) c j = mel r c j).
        { intros c Hc. unfold step, set_el. cbn [mel]. rewrite Nat.eqb_refl. destruct (Nat.eqb_spec c n); [lia|reflexivity]. }
        destruct (Nat.eq_dec i n) as [->|N].
        * unfold step at 1, set_el. cbn [mel]. rewrite !Nat.eqb_refl. cbn [andb vget]. destruct (nth n l (SVal zero)) as [x|c b]; [reflexivity|]. cbn [sread].
          destruct (Nat.eqb_spec b j) as [->|Na]; cbn [andb]; [|apply B; auto].
          destruct (Nat.ltb_spec c n); [rewrite K by auto; reflexivity|apply B; auto].
        * rewrite K by lia. rewrite C by lia. destruct (nth i l (SVal zero)) as [x|c b]; [reflexivity|].
          destruct (Nat.eqb b j); cbn [andb]; [|reflexivity]. destruct (Nat.ltb_spec c i); [rewrite K by lia; reflexivity|reflexivity]. }
  exact (G (mrows m)).
Qed.
Theorem set_col_from_own_column : forall (m : mx T) j k, exists r, set_col m j (VCol m k) = Ok r /\
  forall a b, a < mrows m -> mel r a b = mel m a (if Nat.eqb b j then k else b).
Proof.
  intros m j k. destruct (set_col_own m j (map (fun i => SElem i k) (seq 0 (mrows m)))) as (r & E & _ & O & V).
  { now rewrite map_length, seq_length. }
  exists r. split; [exact E|]. intros a b H. destruct (Nat.eqb_spec b j) as [->|N]; [|apply O; auto].
  rewrite V, nth_VCol by auto. rewrite (proj2 (Nat.ltb_ge a a)) by lia. now rewrite andb_false_r.
Qed.

(** ** Basis vectors taken from the matrix itself *)
Lemma lt3 : forall n, n < 3 -> n = 0 \/ n = 1 \/ n = 2.
Proof. lia. Qed.
(** basis vectors p0, p1, p2 of the matrix: one that has already been written is read as it is by then *)
Theorem set_basis_vectors_from_own : forall (m : mx T) p0 p1 p2, 3 <= mrows m -> 3 <= mcols m -> p0 < 3 -> p1 < 3 -> p2 < 3 ->
  exists r, set_basis_vectors m (bview m p0) (bview m p1) (bview m p2) = Ok r /\
  forall j, j < 3 ->
    be r 0 j = be m p0 j /\
    be r 1 j = (if Nat.eqb p1 0 then be r 0 j else be m p1 j) /\
    be r 2 j = (if Nat.ltb p2 2 then be r p2 j else be m p2 j).
Proof.
  intros m p0 p1 p2 HR HC H0 H1 H2. apply lt3 in H0, H1, H2.
  destruct m as [R C b f]. cbn [mrows mcols] in HR, HC. destruct R as [|[|[|R]]]; [lia|lia|lia|]. destruct C as [|[|[|C]]]; [lia|lia|lia|].
  destruct H0 as [->|[->| ->]], H1 as [->|[->| ->]], H2 as [->|[->| ->]], b;
    (eexists; split; [cbn; reflexivity|]; intros j J; apply lt3 in J; destruct J as [->|[->| ->]]; repeat split; reflexivity).
Qed.
(** the columns for the rows: not the transpose but the lower triangle mirrored *)
Theorem set_basis_vectors_from_own_transposed : forall (m : mx T), 3 <= mrows m -> 3 <= mcols m ->
  exists r, set_basis_vectors m (tview m 0) (tview m 1) (tview m 2) = Ok r /\
  forall i j, i < 3 -> j < 3 -> be r i j = be m (Nat.max i j) (Nat.min i j).
Proof.
  intros m HR HC.
  destruct m as [R C b f]. cbn [mrows mcols] in HR, HC. destruct R as [|[|[|R]]]; [lia|lia|lia|]. destruct C as [|[|[|C]]]; [lia|lia|lia|].
  destruct b; (eexists; split; [cbn; reflexivity|]; intros i j I J; apply lt3 in I, J; destruct I as [->|[->| ->]], J as [->|[->| ->]]; reflexivity).
Qed.

(** ** The affine transform and its flag *)
(** with normalize the axis is the one given; without, the one of the identity *)
Theorem affine_transform_own_axis : forall (m : mx T) axis angle t,
  affine_transform_axis m axis (SVal angle) (VVal t) true = matrix_affine_transform_axis m (vread m axis) angle t true /\
  affine_transform_axis m axis (SVal angle) (VVal t) false = matrix_affine_transform_axis m (vread (mx_identity m) axis) angle t false.
Proof.
  intros m axis angle t. unfold affine_transform_axis, matrix_affine_transform_axis.
  assert (A : forall m, set_translation_v m (VVal t) = matrix_set_translation_v m t) by (intros; apply translation_elsewhere, vval_stays).
  destruct (check_affine_3D m); [|split; reflexivity|split; reflexivity]. cbn [bind]. split.
  - destruct (vnormalize (vread m axis)) as [a'| |]; [|reflexivity|reflexivity]. cbn [bind]. rewrite axis_angle_reads_identity, vval_stays. cbn [sread].
    destruct (matrix_rotation_axis_angle _ _ _); cbn [bind]; auto.
  - rewrite axis_angle_reads_identity. cbn [sread]. destruct (matrix_rotation_axis_angle _ _ _); cbn [bind]; auto.
Qed.

Theorem affine_transform_elsewhere : forall (m l : mx T) t, affine_transform m (fun _ => l) (VVal t) = matrix_affine_transform m l t.
Proof.
  intros m l t. unfold affine_transform, matrix_affine_transform, linear_transform, matrix_linear_transform.
  repeat (apply bind_ext; intros). apply translation_elsewhere, vval_stays.
Qed.

(** ** Look-at *)
Lemma len3_inv : forall l : list T, length l = 3 -> exists a b c, l = [a; b; c].
Proof. intros [|a [|b [|c [|d l]]]] H; try discriminate. now exists a, b, c. Qed.
Lemma vread3 : forall m (v : varg T), vlen v = 3 -> vread m v = [sread m (vget m v 0); sread m (vget m v 1); sread m (vget m v 2)].
Proof. intros m v H. unfold vread. rewrite H. reflexivity. Qed.
(** position, target and up with three elements, of which only cells outside rows and columns 0..2 may
    belong to the matrix: they are read from the identity *)
Definition outside_linear (v : varg T) : Prop :=
  exists l, v = VRefs l /\ forall i j, In (SElem i j) l -> 3 <= i \/ 3 <= j.
Lemma outside_put : forall (m : mx T) i j x a, i < 3 -> j < 3 -> (forall r c, a = SElem r c -> 3 <= r \/ 3 <= c) ->
  sread (set_be m i j x) a = sread m a.
Proof.
  intros m i j x [y|r c] Hi Hj H; [reflexivity|]. specialize (H r c eq_refl). unfold set_be, sread. destruct (mbasis m); cbn [mel set_el];
    [destruct (Nat.eqb_spec r i), (Nat.eqb_spec c j)|destruct (Nat.eqb_spec r j), (Nat.eqb_spec c i)]; cbn [andb]; auto; lia.
Qed.
(** expressions that are constant while a condition on the matrix holds which writes to the linear part keep *)
Definition keeps (P : mx T -> Prop) : Prop := forall m i j x, i < 3 -> j < 3 -> P m -> P (set_be m i j x).
Definition gives (P : mx T -> Prop) (f : mx T -> nat -> T) (l : list T) : Prop := forall m k, P m -> k < 3 -> f m k = el l k.
Lemma set_transposed_expr : forall P m i f l, keeps P -> P m -> gives P f l -> length l = 3 ->
  set_transposed_basis_vector m i (VExpr 3 f) = matrix_set_transposed_basis_vector m i l /\
  forall r, matrix_set_transposed_basis_vector m i l = Ok r -> P r.
Proof.
  intros P m i f l K Pm G L. unfold set_transposed_basis_vector, matrix_set_transposed_basis_vector, vcheck_size, check_size, put_be.
  cbn [vlen vget sread]. rewrite L. destruct (check_linear_3D m); cbn [bind]; [|split; [reflexivity|discriminate]..]. cbn [Nat.eqb require bind].
  unfold axis_index. rewrite !require_if. destruct (Z.leb_spec 0 i); cbn [andb]; [|split; [reflexivity|discriminate]].
  destruct (Z.ltb_spec i (Z.of_nat 3)); cbn [bind]; [|split; [reflexivity|discriminate]].
  assert (Z.to_nat i < 3) by lia.
  assert (P1 : P (set_be m 0 (Z.to_nat i) (el l 0))) by (apply K; auto; lia).
  assert (P2 : P (set_be (set_be m 0 (Z.to_nat i) (el l 0)) 1 (Z.to_nat i) (el l 1))) by (apply K; auto; lia).
  rewrite (G m 0) by (auto; lia). rewrite (G _ 1 P1) by lia. rewrite (G _ 2 P2) by lia.
  split; [reflexivity|]. intros r Q. injection Q as <-. apply K; auto; lia.
Qed.
Lemma set_transposed_exprs : forall P m f g h lx ly lz, keeps P -> P m -> gives P f lx -> gives P g ly -> gives P h lz ->
  length lx = 3 -> length ly = 3 -> length lz = 3 ->
  set_transposed_basis_vectors m (VExpr 3 f) (VExpr 3 g) (VExpr 3 h) = matrix_set_transposed_basis_vectors m lx ly lz /\
  forall r, matrix_set_transposed_basis_vectors m lx ly lz = Ok r -> P r.
Proof.
  intros P m f g h lx ly lz K Pm Gf Gg Gh Lx Ly Lz. unfold set_transposed_basis_vectors, matrix_set_transposed_basis_vectors.
  destruct (set_transposed_expr P m 0%Z f lx K Pm Gf Lx) as [-> Q].
  destruct (matrix_set_transposed_basis_vector m 0 lx) as [m1| |]; cbn [bind]; [|split; [reflexivity|discriminate]..]. specialize (Q m1 eq_refl).
  destruct (set_transposed_expr P m1 1%Z g ly K Q Gg Ly) as [-> Q'].
  destruct (matrix_set_transposed_basis_vector m1 1 ly) as [m2| |]; cbn [bind]; [|split; [reflexivity|discriminate]..]. specialize (Q' m2 eq_refl).
  exact (set_transposed_expr P m2 2%Z h lz K Q' Gh Lz).
Qed.
Lemma elems3 : forall (f : nat -> T) l, length l = 3 -> (forall k, k < 3 -> f k = el l k) -> elems 3 f = l.
Proof.
  intros f l L H. destruct (len3_inv l L) as (a & b & c & ->). unfold elems. cbn [map seq].
  rewrite (H 0), (H 1), (H 2) by lia. reflexivity.
Qed.
Lemma el_elems : forall n (f : nat -> T) k, k < n -> el (elems n f) k = f k.
Proof.
  intros n f k H. unfold el, elems. rewrite (nth_indep _ zero (f 0)) by (now rewrite map_length, seq_length).
  rewrite (map_nth f (seq 0 n) 0 k), seq_nth by auto. reflexivity.
Qed.
Definition cross3 (a b : nat -> T) (k : nat) : T :=
  sub (mul (a ((k + 1) mod 3)) (b ((k + 2) mod 3))) (mul (a ((k + 2) mod 3)) (b ((k + 1) mod 3))).
Lemma look_tail : forall P id z u p lz lu lp, keeps P -> P id -> gives P z lz -> gives P u lu -> length lz = 3 -> length lu = 3 ->
  (forall m, P m -> vread m p = lp) ->
  (c <- vcross3 lu (elems 3 (z id)) ;;
   cl <- vlength c ;;
   let x m k := div (cross3 (u m) (z m) k) cl in
   let y m k := cross3 (z m) (x m) k in
   m <- set_transposed_basis_vectors id (VExpr 3 x) (VExpr 3 y) (VExpr 3 z) ;;
   px <- vdot (vread m p) (elems 3 (x m)) ;;
   py <- vdot (vread m p) (elems 3 (y m)) ;;
   pz <- vdot (vread m p) (elems 3 (z m)) ;;
   set_translation m (SVal (neg px)) (SVal (neg py)) (SVal (neg pz))) =
  (x <- vcross3 lu lz ;; x <- vnormalize x ;;
   y <- vcross3 lz x ;;
   m <- matrix_set_transposed_basis_vectors id x y lz ;;
   px <- vdot lp x ;; py <- vdot lp y ;; pz <- vdot lp lz ;;
   matrix_set_translation m (neg px) (neg py) (neg pz)).
Proof.
  intros P id z u p lz lu lp K I Gz Gu Lz Lu Rp. rewrite (elems3 (z id) lz Lz) by auto.
  unfold vcross3 at 1 2, check_size. rewrite Lz, Lu. cbn [Nat.eqb require bind].
  set (c := elems 3 _). unfold vnormalize. destruct (vlength c) as [cl| |]; cbn [bind]; [|reflexivity|reflexivity].
  assert (Lc : length c = 3) by reflexivity.
  assert (M : forall k, k mod 3 < 3) by (intros k; apply Nat.mod_upper_bound; lia).
  cbv zeta. set (x := fun m k => div (cross3 (u m) (z m) k) cl). set (y := fun m k => cross3 (z m) (x m) k).
  match goal with |- _ = ?rhs => change ((m <- set_transposed_basis_vectors id (VExpr 3 x) (VExpr 3 y) (VExpr 3 z) ;;
    px <- vdot (vread m p) (elems 3 (x m)) ;; py <- vdot (vread m p) (elems 3 (y m)) ;; pz <- vdot (vread m p) (elems 3 (z m)) ;;
    set_translation m (SVal (neg px)) (SVal (neg py)) (SVal (neg pz))) = rhs) end.
  assert (Gx : gives P x (vdiv c cl)).
  { intros m k Pm Hk. unfold x, vdiv. rewrite el_elems by (rewrite Lc; exact Hk). f_equal. unfold c. rewrite el_elems by exact Hk.
    unfold cross3. rewrite !Gz, !Gu by auto. reflexivity. }
  assert (Lx : length (vdiv c cl) = 3) by reflexivity. set (xs := vdiv c cl) in *. clearbody x xs. clear c Lc.
  unfold vcross3, check_size. rewrite Lz, Lx. cbn [Nat.eqb require bind].
  set (ys := elems 3 _).
  assert (Gy : gives P y ys).
  { intros m k Pm Hk. unfold y, ys. rewrite el_elems by exact Hk. unfold cross3. rewrite !Gz, !Gx by auto. reflexivity. }
  assert (Ly : length ys = 3) by reflexivity. clearbody y ys.
  destruct (set_transposed_exprs P id x y z xs ys lz K I Gx Gy Gz Lx Ly Lz) as [-> Q].
  destruct (matrix_set_transposed_basis_vectors id xs ys lz) as [m1| |]; [|reflexivity|reflexivity]. specialize (Q m1 eq_refl). cbn [bind].
  rewrite (Rp m1 Q), (elems3 (x m1) xs), (elems3 (y m1) ys), (elems3 (z m1) lz) by auto. reflexivity.
Qed.
Theorem look_at_reads_identity : forall (m : mx T) p t u h, outside_linear p -> outside_linear t -> outside_linear u ->
  look_at m p t u h = matrix_look_at m (vread (mx_identity m) p) (vread (mx_identity m) t) (vread (mx_identity m) u) h.
Proof.
  intros m p t u h [lp [-> Hp]] [lt [-> Ht]] [lu [-> Hu]]. unfold look_at, matrix_look_at. apply bind_ext. intros _. cbv zeta.
  unfold vsub, check_vsame. rewrite !vread_length, !require_if. cbn [vlen].
  destruct (Nat.eqb_spec (length lt) (length lp)) as [E|]; [|reflexivity]. cbn [bind].
  set (d := elems _ _). unfold vnormalize at 1. destruct (vlength d) as [dl| |]; [|reflexivity|reflexivity]. cbn [bind].
  set (s := match h with left_handed => one | right_handed => neg one end). clearbody s.
  destruct (Nat.eq_dec (length lt) 3) as [L|N].
  2:{ unfold vcross3, check_size. rewrite !require_if.
      replace (Nat.eqb (length (vscale s (vdiv d dl))) 3) with false.
      2:{ symmetry. apply Nat.eqb_neq. unfold vscale, vdiv, d, elems. repeat rewrite ?map_length, ?seq_length, ?vread_length. exact N. }
      match goal with |- context [Nat.eqb (length (elems (length lt) ?z)) 3] => replace (Nat.eqb (length (elems (length lt) z)) 3) with false end.
      2:{ symmetry. apply Nat.eqb_neq. unfold elems. rewrite map_length, seq_length. exact N. }
      destruct (Nat.eqb _ 3); reflexivity. }
  destruct (Nat.eq_dec (length lu) 3) as [Lu|N].
  2:{ unfold vcross3, check_size. rewrite !require_if, !vread_length. cbn [vlen]. apply Nat.eqb_neq in N. rewrite N. reflexivity. }
  subst d. rewrite E in L.
  destruct lp as [|p0 [|p1 [|p2 [|]]]]; try discriminate L. clear L.
  destruct lt as [|t0 [|t1 [|t2 [|]]]]; try discriminate E. clear E.
  destruct lu as [|u0 [|u1 [|u2 [|]]]]; try discriminate Lu. clear Lu.
  set (P := fun m' : mx T => forall a, In a [p0; p1; p2] \/ In a [t0; t1; t2] \/ In a [u0; u1; u2] -> sread m' a = sread (mx_identity m) a).
  assert (K : keeps P).
  { intros m' i j x Hi Hj Q a Ha. rewrite <- (Q a Ha). apply outside_put; auto. intros r c ->. destruct Ha as [Ha|[Ha|Ha]]; eauto. }
  assert (I : P (mx_identity m)) by (intros a _; reflexivity).
  assert (RP : forall m', P m' -> forall k, k < 3 -> sread m' (nth k [p0; p1; p2] (SVal zero)) = sread (mx_identity m) (nth k [p0; p1; p2] (SVal zero))).
  { intros m' Q k Hk. apply Q. left. now apply nth_In. }
  assert (RT : forall m', P m' -> forall k, k < 3 -> sread m' (nth k [t0; t1; t2] (SVal zero)) = sread (mx_identity m) (nth k [t0; t1; t2] (SVal zero))).
  { intros m' Q k Hk. apply Q. right; left. now apply nth_In. }
  assert (RU : forall m', P m' -> forall k, k < 3 -> sread m' (nth k [u0; u1; u2] (SVal zero)) = sread (mx_identity m) (nth k [u0; u1; u2] (SVal zero))).
  { intros m' Q k Hk. apply Q. right; right. now apply nth_In. }
  clearbody P. clear Hp Ht Hu.
  set (id := mx_identity m) in *. clearbody id. cbn [vget length].
  apply (look_tail P id (fun m k => mul (div (sub (sread m (nth k [t0; t1; t2] (SVal zero))) (sread m (nth k [p0; p1; p2] (SVal zero)))) dl) s)
    (fun m k => sread m (nth k [u0; u1; u2] (SVal zero))) (VRefs [p0; p1; p2])); auto.
  - intros m' k Q Hk. rewrite RP, RT by auto. apply lt3 in Hk. destruct Hk as [->|[->| ->]]; reflexivity.
  - intros m' k Q Hk. rewrite RU by auto. apply lt3 in Hk. destruct Hk as [->|[->| ->]]; reflexivity.
  - intros m' Q. unfold vread, elems. apply map_ext_in. intros k Hk. apply in_seq in Hk. apply RP; auto. cbn in Hk. lia.
Qed.
(** so a look-at from the place the matrix itself holds is one from the origin *)
Theorem look_at_from_own_position : forall (m : mx T) t u h,
  look_at m (bview m 3) (VVal t) (VVal u) h = matrix_look_at m [zero; zero; zero] t u h.
Proof.
  intros m t u h.
  assert (V : forall l : list T, outside_linear (VVal l)).
  { intros l. eexists. split; [reflexivity|]. intros i j H. apply in_map_iff in H. destruct H as (x & H & _). discriminate. }
  rewrite look_at_reads_identity; auto.
  - rewrite !vval_stays. f_equal. destruct m as [R C [] f]; reflexivity.
  - eexists. split; [reflexivity|]. intros i j H. unfold bref in H. destruct (mbasis m); cbn in H; intuition (match goal with E : _ = _ |- _ => injection E as <- <- end; auto).
Qed.
Theorem look_at_elsewhere : forall (m : mx T) p t u h, look_at m (VVal p) (VVal t) (VVal u) h = matrix_look_at m p t u h.
Proof.
  intros m p t u h.
  assert (V : forall l : list T, outside_linear (VVal l)).
  { intros l. eexists. split; [reflexivity|]. intros i j H. apply in_map_iff in H. destruct H as (x & H & _). discriminate. }
  rewrite look_at_reads_identity; auto. now rewrite !vval_stays.
Qed.
End Own.

(** ** What these calls do not do *)
Definition mat4 (b : basis) (l : list (list R)) : mx R := Mx 4 4 b (fun i j => nth j (nth i l []) 0%R).
Definition diag4 (b : basis) : mx R := mat4 b [[2; 0; 0; 0]; [0; 3; 0; 0]; [0; 0; 4; 0]; [5; 6; 7; 1]]%R.

Lemma ok_neq : forall (x y : mx R) i j, mel x i j <> mel y i j -> Ok x <> Ok y.
Proof. intros x y i j H E. injection E as E. apply H. now rewrite E. Qed.

(** matrix_scale(m, m(0,0), m(1,1), m(2,2)) is not the scale by these numbers, nor matrix_uniform_scale(m, m(0,0)),
    nor matrix_scale(m, v) with v a view of the diagonal, nor matrix_translation by the elements (3,0), (3,1), (3,2) *)
Theorem own_elements_refuted : exists m : mx R, affine3 m /\
  scale m (SElem 0 0) (SElem 1 1) (SElem 2 2) <> matrix_scale m (mel m 0 0) (mel m 1 1) (mel m 2 2) /\
  uniform_scale m (SElem 0 0) <> matrix_uniform_scale m (mel m 0 0) /\
  scale_v m (VRefs [SElem 0 0; SElem 1 1; SElem 2 2]) <> matrix_scale_v m [mel m 0 0; mel m 1 1; mel m 2 2] /\
  translation m (SElem 3 0) (SElem 3 1) (SElem 3 2) <> matrix_translation m (mel m 3 0) (mel m 3 1) (mel m 3 2).
Proof.
  exists (diag4 row_basis). split; [cbn; lia|]. repeat split.
  1-3: apply (ok_neq _ _ 0 0); cbn; lra.
  apply (ok_neq _ _ 3 0). cbn. lra.
Qed.
(** rotation about row 0, a unit vector, of the matrix itself *)
Theorem own_axis_refuted : exists (m : mx R) angle, affine3 m /\ vlength (vread m (bview m 0)) = Ok 1%R /\
  rotation_axis_angle m (bview m 0) (SVal angle) <> matrix_rotation_axis_angle m (vread m (bview m 0)) angle /\
  affine_transform_axis m (bview m 0) (SVal angle) (VVal [0; 0; 0]%R) true <>
  affine_transform_axis m (bview m 0) (SVal angle) (VVal [0; 0; 0]%R) false.
Proof.
  set (m := mat4 row_basis [[0; 1; 0; 0]; [1; 0; 0; 0]; [0; 0; 1; 0]; [0; 0; 0; 1]]%R).
  assert (U : vlength (vread m (bview m 0)) = Ok 1%R).
  { cbn. f_equal. replace (0 * 0 + 1 * 1 + 0 * 0)%R with 1%R by ring. apply sqrt_1. }
  exists m, PI. split; [cbn; lia|]. split; [exact U|]. split.
  - rewrite axis_angle_reads_identity. apply (ok_neq _ _ 0 0). cbn. rewrite cos_PI. lra.
  - destruct (affine_transform_own_axis m (bview m 0) PI [0; 0; 0]%R) as [-> ->].
    unfold matrix_affine_transform_axis, vnormalize. rewrite U. apply (ok_neq _ _ 0 0). cbn. rewrite cos_PI. lra.
Qed.
(** the basis vectors of the matrix itself exchanged, or replaced by the transposed ones: not what values would give *)
Theorem own_basis_refuted : exists (m : mx R) r r', 
  set_basis_vectors m (bview m 1) (bview m 0) (bview m 2) = Ok r /\ be r 1 0 <> be m 0 0 /\
  set_basis_vectors m (tview m 0) (tview m 1) (tview m 2) = Ok r' /\ be r' 1 0 <> be m 0 1.
Proof.
  set (m := mat4 col_basis [[1; 2; 3; 0]; [4; 5; 6; 0]; [7; 8; 9; 0]; [0; 0; 0; 1]]%R).
  destruct (set_basis_vectors_from_own m 1 0 2) as (r & E & V); [cbn; lia..|].
  destruct (set_basis_vectors_from_own_transposed m) as (r' & E' & V'); [cbn; lia..|].
  exists m, r, r'. split; [exact E|]. split; [|split; [exact E'|]].
  - destruct (V 0) as (V0 & V1 & _); [lia|]. rewrite V1. cbn [Nat.eqb]. rewrite V0. cbn. lra.
  - rewrite V' by lia. cbn. lra.
Qed.
(** m.set_row(1, col(m,0)) *)
Theorem own_column_refuted : exists (m r : mx R), set_row m 1 (VCol m 0) = Ok r /\ mel r 1 1 <> mel m 1 0.
Proof.
  set (m := Mx 2 2 row_basis (fun i j => nth j (nth i [[1; 2]; [3; 4]]%R []) 0%R) : mx R).
  destruct (set_row_from_own_column m 1 0) as (r & E & V); [cbn; lia..|]. exists m, r. split; [exact E|].
  rewrite V by (cbn; lia). cbn. lra.
Qed.

(** ** The hypotheses are met *)
Example own_case : affine3 (diag4 row_basis) /\ affine3 (diag4 col_basis) /\ by_reference (bview (diag4 col_basis) 3) /\
  alike (diag4 row_basis) (mat4 row_basis []) /\ stays (VVal [1; 2; 3]%R) [1; 2; 3]%R /\
  outside_linear (bview (diag4 col_basis) 3) /\ outside_linear (VVal [0; 0; 1]%R).
Proof.
  repeat split; try (cbn; lia); try apply vval_stays.
  - now eexists.
  - eexists. split; [reflexivity|]. intros i j H. cbn in H. intuition (match goal with E : _ = _ |- _ => injection E as <- <- end; auto).
  - eexists. split; [reflexivity|]. intros i j H. cbn in H. intuition discriminate.
Qed.
(** a row taken partly from the row itself, shifted by one place: (1,2,3) becomes (9,9,9) *)
Example shift_case : exists r : mx R,
  set_row (Mx 1 3 row_basis (fun _ j => INR (S j))) 0 (VRefs [SVal 9%R; SElem 0 0; SElem 0 1]) = Ok r /\
  mel r 0 0 = 9%R /\ mel r 0 1 = 9%R /\ mel r 0 2 = 9%R.
Proof.
  destruct (set_row_own (Mx 1 3 row_basis (fun _ j => INR (S j)) : mx R) 0 [SVal 9%R; SElem 0 0; SElem 0 1] eq_refl) as (r & E & _ & _ & V).
  exists r. split; [exact E|]. cbn [mcols] in V.
  assert (V0 := V 0 ltac:(lia)). assert (V1 := V 1 ltac:(lia)). assert (V2 := V 2 ltac:(lia)). cbn in V0, V1, V2. rewrite V2, V1, V0. auto.
Qed.

Print Assumptions look_at_from_own_position.
Print Assumptions set_row_from_own_column.
Print Assumptions own_axis_refuted.
