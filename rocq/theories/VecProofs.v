From Coq Require Import List Bool Arith Lia Ring Field.
From Verif Require Import Base QuatSpec MiscModel RotModel VecModel VecSpec.
Import ListNotations.
Open Scope nat_scope.

(** ** Facts that need no law *)
Section NoLaws.
Context {T : Type} {Op : Ops T} {MO : MathOps T}.
Implicit Types u v w : list T.

Lemma elems_length n (f : nat -> T) : length (elems n f) = n.
Proof. unfold elems. rewrite map_length, seq_length. auto. Qed.
Lemma el_elems n (f : nat -> T) i : i < n -> el (elems n f) i = f i.
Proof.
  intros H. unfold el, elems. rewrite nth_indep with (d' := f 0) by (rewrite map_length, seq_length; auto).
  rewrite map_nth. rewrite seq_nth; auto.
Qed.
Lemma elems_S n (f : nat -> T) : elems (S n) f = f 0 :: elems n (fun i => f (S i)).
Proof. unfold elems. simpl. f_equal. rewrite <- seq_shift, map_map. auto. Qed.
Lemma elems_ext n (f g : nat -> T) : (forall i, i < n -> f i = g i) -> elems n f = elems n g.
Proof. intros H. apply map_ext_in. intros i Hi. apply in_seq in Hi. apply H. lia. Qed.
Lemma elems_el v : elems (length v) (el v) = v.
Proof. induction v; simpl length; [reflexivity|]. rewrite elems_S. f_equal. exact IHv. Qed.
Lemma list_el u v : length u = length v -> (forall i, i < length u -> el u i = el v i) -> u = v.
Proof. intros L H. rewrite <- (elems_el u), <- (elems_el v), <- L. apply elems_ext. auto. Qed.
Lemma vneg_map v : vneg v = map neg v.
Proof. unfold vneg. induction v; simpl length; [reflexivity|]. rewrite elems_S. simpl. f_equal. exact IHv. Qed.
Lemma vscale_map s v : vscale s v = map (fun x => mul x s) v.
Proof. unfold vscale. induction v; simpl length; [reflexivity|]. rewrite elems_S. simpl. f_equal. exact IHv. Qed.
Lemma vdiv_map s v : vdiv v s = map (fun x => div x s) v.
Proof. unfold vdiv. induction v; simpl length; [reflexivity|]. rewrite elems_S. simpl. f_equal. exact IHv. Qed.
Lemma zip_elems f u : forall v, length u = length v -> elems (length u) (fun i => f (el u i) (el v i)) = zip f u v.
Proof.
  induction u as [|a u IH]; intros [|b v] L; try discriminate; [reflexivity|]. simpl length. rewrite elems_S. simpl.
  f_equal. apply IH. simpl in L; lia.
Qed.
Lemma zip_length (f : T -> T -> T) u : forall v, length u = length v -> length (zip f u v) = length u.
Proof. induction u as [|a u IH]; intros [|b v] L; try discriminate; auto. simpl in *. rewrite IH; auto. Qed.
Lemma vsame_ok u v : length u = length v -> check_vsame u v = Ok tt.
Proof. intros L. unfold check_vsame. rewrite L, Nat.eqb_refl. auto. Qed.
Lemma vmin_ok v : v <> [] -> check_vmin v 1 = Ok tt.
Proof. destruct v; [congruence|]. auto. Qed.
Lemma vadd_zip u v : length u = length v -> vadd u v = Ok (zip add u v).
Proof. intros L. unfold vadd. rewrite vsame_ok, zip_elems by auto. auto. Qed.
Lemma vsub_zip u v : length u = length v -> vsub u v = Ok (zip sub u v).
Proof. intros L. unfold vsub. rewrite vsame_ok, zip_elems by auto. auto. Qed.
Lemma vhadamard_zip u v : length u = length v -> vhadamard u v = Ok (zip mul u v).
Proof. intros L. unfold vhadamard. rewrite vsame_ok, zip_elems by auto. auto. Qed.
Lemma vlength_squared_dot v : vlength_squared v = vdot v v.
Proof.
  unfold vlength_squared, vdot. destruct (check_vmin v 1); simpl; auto. rewrite vsame_ok by auto. reflexivity.
Qed.
Lemma vdot_errors u v : match vdot u v with
  | Ok _ => u <> [] /\ length u = length v
  | Throw EMinimumVectorSize => u = [] \/ v = []
  | Throw EIncompatibleVectorSize => u <> [] /\ v <> [] /\ length u <> length v
  | _ => False end.
Proof.
  unfold vdot, check_vmin, check_vsame. destruct u as [|a u], v as [|b v]; simpl; auto.
  destruct (Nat.eqb_spec (length u) (length v)); simpl; repeat split; congruence.
Qed.
Lemma len3 v : length v = 3 -> exists a b c, v = [a; b; c].
Proof. destruct v as [|a [|b [|c [|]]]]; try discriminate. exists a, b, c; auto. Qed.
Lemma len2 v : length v = 2 -> exists a b, v = [a; b].
Proof. destruct v as [|a [|b [|]]]; try discriminate. exists a, b; auto. Qed.
Lemma vcross3_val a b c x y z : vcross3 [a; b; c] [x; y; z] =
  Ok [sub (mul b z) (mul c y); sub (mul c x) (mul a z); sub (mul a y) (mul b x)].
Proof. reflexivity. Qed.
Lemma vcross3_errors u v : match vcross3 u v with
  | Ok c => length u = 3 /\ length v = 3 /\ length c = 3
  | Throw EVectorSize => length u <> 3 \/ length v <> 3
  | _ => False end.
Proof.
  unfold vcross3, check_size. destruct (Nat.eqb_spec (length u) 3); simpl; auto.
  destruct (Nat.eqb_spec (length v) 3); simpl; auto.
Qed.
End NoLaws.

Section RingLaws.
Context {T : Type} {Op : Ops T} {MO : MathOps T}.
Hypothesis RT : ring_theory (zero : T) one add mul sub neg eq.
Add Ring TRing : RT.
Implicit Types u v w : list T.
Local Infix "+!" := add (at level 50, left associativity).
Local Infix "-!" := sub (at level 50, left associativity).
Local Infix "*!" := mul (at level 40, left associativity).

Lemma fold_shift (x : nat -> T) l : forall a, fold_left (fun s i => s +! x i) l a = a +! fold_right (fun i s => x i +! s) zero l.
Proof. induction l as [|i l IH]; intros a; simpl; [ring|]. rewrite IH. ring. Qed.
Lemma accumulate_S n (x : nat -> T) : accumulate (S n) x = fold_right (fun i s => x i +! s) zero (seq 0 (S n)).
Proof. unfold accumulate. rewrite fold_shift. simpl. rewrite Nat.sub_0_r. reflexivity. Qed.
Lemma fold_seq_S (x : nat -> T) n : fold_right (fun i s => x i +! s) zero (seq 0 (S n)) =
  x 0 +! fold_right (fun i s => x (S i) +! s) zero (seq 0 n).
Proof.
  simpl. f_equal. rewrite <- seq_shift. generalize (seq 0 n). induction l; simpl; congruence.
Qed.
Lemma sum_prod_fold u : forall v, length u = length v ->
  sum_prod u v = fold_right (fun i s => el u i *! el v i +! s) zero (seq 0 (length u)).
Proof.
  induction u as [|a u IH]; intros [|b v] L; try discriminate; [reflexivity|].
  simpl length. rewrite fold_seq_S. simpl sum_prod. rewrite IH by (simpl in L; lia). reflexivity.
Qed.
Lemma accumulate_dot u v : u <> [] -> length u = length v -> accumulate (length u) (fun i => el u i *! el v i) = sum_prod u v.
Proof. intros N L. rewrite sum_prod_fold by auto. destruct u; [congruence|]. simpl length. apply accumulate_S. Qed.
Lemma vdot_sum u v : u <> [] -> length u = length v -> vdot u v = Ok (sum_prod u v).
Proof.
  intros N L. unfold vdot. rewrite !vmin_ok, vsame_ok by (auto; destruct u, v; simpl in *; congruence).
  simpl. rewrite accumulate_dot; auto.
Qed.
Lemma sum_prod_comm u : forall v, sum_prod u v = sum_prod v u.
Proof. induction u as [|a u IH]; intros [|b v]; simpl; auto. rewrite IH. ring. Qed.
Lemma sum_prod_scaled s u : forall v, sum_prod (scaled s u) v = s *! sum_prod u v.
Proof. induction u as [|a u IH]; intros [|b v]; simpl; try ring. rewrite IH. ring. Qed.
Lemma sum_prod_zip u : forall v w, length u = length v ->
  sum_prod (zip add u v) w = sum_prod u w +! sum_prod v w.
Proof.
  induction u as [|a u IH]; intros [|b v] w L; try discriminate; simpl; [ring|].
  destruct w; simpl; [ring|]. rewrite IH by (simpl in L; lia). ring.
Qed.
Lemma sum_prod_zip_sub u : forall v w, length u = length v ->
  sum_prod (zip sub u v) w = sum_prod u w -! sum_prod v w.
Proof.
  induction u as [|a u IH]; intros [|b v] w L; try discriminate; simpl; [ring|].
  destruct w; simpl; [ring|]. rewrite IH by (simpl in L; lia). ring.
Qed.
Lemma scaled_length (s : T) v : length (scaled s v) = length v.
Proof. apply map_length. Qed.
Lemma sum_prod_comb s u t v w : length u = length v ->
  sum_prod (comb s u t v) w = s *! sum_prod u w +! t *! sum_prod v w.
Proof. intros L. unfold comb. rewrite sum_prod_zip by (rewrite !scaled_length; auto). rewrite !sum_prod_scaled. auto. Qed.
Lemma vscale_scaled s v : vscale s v = scaled s v.
Proof. rewrite vscale_map. unfold scaled. apply map_ext. intros; ring. Qed.
Lemma comb_length s u t v : length u = length v -> length (comb s u t v) = length u.
Proof. intros L. unfold comb. rewrite zip_length; rewrite !scaled_length; auto. Qed.
Lemma vdot_comm u v : vdot u v = vdot v u.
Proof.
  destruct u as [|a u], v as [|b v]; try reflexivity.
  destruct (Nat.eq_dec (length (a :: u)) (length (b :: v))).
  - rewrite !vdot_sum by (auto; congruence). f_equal. apply sum_prod_comm.
  - unfold vdot, check_vmin, check_vsame, require. simpl length. cbn [Nat.leb bind].
    destruct (Nat.eqb_spec (S (length u)) (S (length v))); [simpl in n; lia|].
    destruct (Nat.eqb_spec (S (length v)) (S (length u))); [simpl in n; lia|]. reflexivity.
Qed.
Lemma mx_vec_outer u v w b : v <> [] -> length v = length w ->
  mx_vec (vouter u v b) w = Ok (vscale (sum_prod v w) u).
Proof.
  intros N L. unfold mx_vec, vouter. cbn [mcols mrows mel]. rewrite L, Nat.eqb_refl. cbn [require bind].
  f_equal. unfold vscale. apply elems_ext. intros i Hi.
  rewrite <- L.
  assert (G : forall n, accumulate (S n) (fun k => el u i *! el v k *! el w k) =
     el u i *! accumulate (S n) (fun k => el v k *! el w k)).
  { intros n. rewrite !accumulate_S. generalize (seq 0 (S n)). induction l; simpl; [ring|]. rewrite IHl. ring. }
  destruct v as [|a v]; [congruence|]. simpl length. rewrite G. f_equal.
  apply (accumulate_dot (a :: v) w); auto.
Qed.
End RingLaws.
