(** Lengths, projections, angles and frames over the reals. *)
From Coq Require Import Reals List Bool Lra Lia Psatz ZArith.
From Verif Require Import Base RInst QuatModel QuatSpec MiscModel RotModel RotSpec RotFacts RotProofs RotAngle VecModel VecSpec VecProofs PropQuat.
Import ListNotations.
Open Scope R_scope.
Implicit Types u v w n : list R.

Definition RR := is_field_ring R_field.
Lemma R_dot_sum u v : u <> [] -> length u = length v -> vdot u v = Ok (sum_prod u v).
Proof. apply (vdot_sum RR). Qed.
Lemma sp_comm u v : sum_prod u v = sum_prod v u. Proof. apply (sum_prod_comm RR). Qed.
Lemma sp_scaled s u v : sum_prod (scaled s u) v = s * sum_prod u v. Proof. apply (sum_prod_scaled RR). Qed.
Lemma sp_scaled_r s u v : sum_prod u (scaled s v) = s * sum_prod u v.
Proof. rewrite sp_comm, sp_scaled, sp_comm. auto. Qed.
Lemma sp_sub u v w : length u = length v -> sum_prod (zip sub u v) w = sum_prod u w - sum_prod v w.
Proof. apply (sum_prod_zip_sub RR). Qed.
Lemma sp_pos v : 0 <= sum_prod v v.
Proof. induction v; simpl; [lra|]. nra. Qed.
Lemma sp_nonzero v : nonzero v <-> 0 < sum_prod v v.
Proof.
  induction v as [|a v IH]; simpl; split.
  - intros (x & [] & _).
  - lra.
  - intros (x & [<-|Hx] & N).
    + assert (P := sp_pos v). nra.
    + assert (nonzero v) as P%IH by (exists x; auto). nra.
  - intros P. destruct (Req_dec a 0) as [->|N].
    + assert (nonzero v) as (x & Hx & N) by (apply IH; lra). exists x; simpl; auto.
    + exists a; simpl; auto.
Qed.
Lemma nonzero_nil v : nonzero v -> v <> [].
Proof. intros (x & Hx & _) ->. destruct Hx. Qed.
Lemma norm_pos v : nonzero v -> 0 < norm v.
Proof. intros H%sp_nonzero. apply sqrt_lt_R0; auto. Qed.
Lemma norm_sqr v : norm v * norm v = sum_prod v v.
Proof. apply sqrt_sqrt, sp_pos. Qed.
Lemma norm_ge0 v : 0 <= norm v. Proof. apply sqrt_pos. Qed.
Lemma vlength_norm v : v <> [] -> vlength v = Ok (norm v).
Proof. intros N. unfold vlength. rewrite vlength_squared_dot, R_dot_sum by auto. reflexivity. Qed.
Lemma vdiv_scaled v (s : R) : vdiv v s = scaled (/ s) v.
Proof. rewrite vdiv_map. unfold scaled. apply map_ext. intros. simpl. unfold Rdiv. ring. Qed.
Lemma vnormalize_scaled v : v <> [] -> vnormalize v = Ok (scaled (/ norm v) v).
Proof. intros N. unfold vnormalize. rewrite vlength_norm by auto. simpl. rewrite vdiv_scaled. auto. Qed.
Lemma scaled_1 v : scaled 1 v = v.
Proof. unfold scaled. simpl. rewrite map_ext with (g := fun x => x) by (intros; ring). apply map_id. Qed.
Lemma scaled_nil (s : R) v : v <> [] -> scaled s v <> [].
Proof. destruct v; simpl; congruence. Qed.
Lemma normalized_unit v : nonzero v -> unit_vector (scaled (/ norm v) v).
Proof.
  intros H. assert (P := norm_pos v H). unfold unit_vector. rewrite sp_scaled, sp_scaled_r, <- norm_sqr. field. lra.
Qed.
Lemma unit_norm v : unit_vector v -> norm v = 1.
Proof. intros H. unfold norm. rewrite H. apply sqrt_1. Qed.
Lemma unit_nonzero v : unit_vector v -> nonzero v.
Proof. intros H. apply sp_nonzero. rewrite H. lra. Qed.
Lemma scaled_scaled (a b : R) v : scaled a (scaled b v) = scaled (a * b) v.
Proof. unfold scaled. rewrite map_map. apply map_ext. intros; simpl; ring. Qed.
Lemma zip_add_sub u : forall v, length u = length v -> zip add u (zip sub v u) = v.
Proof.
  induction u as [|a u IH]; intros [|b v] L; try discriminate; auto. simpl. f_equal; [ring|]. apply IH. simpl in L; lia.
Qed.

(** ** Three dimensions *)
Lemma sp3 (u v : vec3) : sum_prod (vlist u) (vlist v) = dot u v.
Proof. unfold dot. simpl. ring. Qed.
Lemma norm3 (u : vec3) : norm (vlist u) = sqrt (dot u u).
Proof. unfold norm. rewrite sp3. auto. Qed.
Lemma cross3_vlist (u v : vec3) : vcross3 (vlist u) (vlist v) = Ok (vlist (cross u v)).
Proof. reflexivity. Qed.
Lemma vlist_of v : length v = 3%nat -> exists u : vec3, v = vlist u.
Proof. intros (a & b & c & ->)%len3. exists (V3 a b c). auto. Qed.
Lemma lagrange (u v : vec3) : dot (cross u v) (cross u v) = dot u u * dot v v - dot u v * dot u v.
Proof. unfold dot, cross. simpl. ring. Qed.
Lemma vlist_nil (u : vec3) : vlist u <> []. Proof. discriminate. Qed.

(** angle of a point seen from the origin *)
Lemma polar x y r : 0 < r -> r * r = x * x + y * y ->
  y = r * sin (Ratan2 y x) /\ x = r * cos (Ratan2 y x).
Proof. intros H E. destruct (atan2_polar x y r H E). split; auto. Qed.
Lemma atan2_upper0 y x : 0 <= y -> 0 <= Ratan2 y x <= PI.
Proof.
  intros H. assert (P := PI_RGT_0). destruct (Rle_lt_or_eq_dec 0 y H) as [L|<-].
  - assert (A := atan2_upper y x L). lra.
  - unfold Ratan2. replace (0 / x) with 0 by (unfold Rdiv; ring). rewrite atan_0.
    destruct (Rlt_dec 0 x); [lra|]. destruct (Rlt_dec x 0).
    + destruct (Rle_dec 0 0); lra.
    + destruct (Rlt_dec 0 0); lra.
Qed.
Lemma atan2_neg y x : (y = 0 -> 0 <= x) -> Ratan2 (- y) x = - Ratan2 y x.
Proof.
  intros H. unfold Ratan2. replace (- y / x) with (- (y / x)) by (unfold Rdiv; ring). rewrite atan_opp.
  destruct (Rlt_dec 0 x); [auto|]. destruct (Rlt_dec x 0).
  - assert (y <> 0) by (intros E; specialize (H E); lra).
    destruct (Rle_dec 0 y), (Rle_dec 0 (- y)); lra.
  - destruct (Rlt_dec 0 y), (Rlt_dec 0 (- y)), (Rlt_dec y 0), (Rlt_dec (- y) 0); lra.
Qed.

(** ** Frames *)
Definition vscl (s : R) (u : vec3) : vec3 := V3 (s * vx u) (s * vy u) (s * vz u).
Definition vopp (u : vec3) : vec3 := V3 (- vx u) (- vy u) (- vz u).
Lemma scaled_vlist s (u : vec3) : scaled s (vlist u) = vlist (vscl s u). Proof. reflexivity. Qed.
Lemma vneg_vlist (u : vec3) : vneg (vlist u) = vlist (vopp u). Proof. reflexivity. Qed.
Lemma dot_vscl s (u v : vec3) : dot (vscl s u) v = s * dot u v. Proof. unfold dot, vscl; simpl; ring. Qed.
Lemma dot_comm (u v : vec3) : dot u v = dot v u. Proof. unfold dot; ring. Qed.
Lemma dot_cross_l (u v : vec3) : dot (cross u v) u = 0. Proof. unfold dot, cross; simpl; ring. Qed.
Lemma dot_cross_r (u v : vec3) : dot (cross u v) v = 0. Proof. unfold dot, cross; simpl; ring. Qed.
Lemma cross_cross (u v : vec3) : cross u (cross v u) = V3 (dot u u * vx v - dot u v * vx u) (dot u u * vy v - dot u v * vy u) (dot u u * vz v - dot u v * vz u).
Proof. apply v3_eq; unfold dot, cross; simpl; ring. Qed.
Record frame_of (a r k j : vec3) : Prop := {
  f_k1 : unit k; f_j1 : unit j; f_ka : dot k a = 0; f_ja : dot j a = 0; f_jk : dot j k = 0; f_kr : dot k r = 0;
  f_hand : cross a j = k; f_hand2 : cross j k = a; f_hand3 : cross k a = j;
  f_max : forall w : vec3, unit w -> dot w a = 0 -> dot w r <= dot j r }.
Lemma frame_make (a r : vec3) : unit a -> nonzero (vlist (cross a r)) ->
  let k := vscl (/ norm (vlist (cross a r))) (cross a r) in frame_of a r k (cross k a).
Proof.
  intros U N k. assert (P := norm_pos _ N). set (l := norm (vlist (cross a r))) in *.
  assert (L : l * l = dot (cross a r) (cross a r)). { unfold l. now rewrite norm_sqr, sp3. }
  assert (K1 : unit k). { unfold unit, k. rewrite dot_vscl, dot_comm, dot_vscl, <- L. field. lra. }
  assert (KA : dot k a = 0). { unfold k. rewrite dot_vscl, dot_cross_l. ring. }
  assert (KR : dot k r = 0). { unfold k. rewrite dot_vscl, dot_cross_r. ring. }
  assert (J1 : unit (cross k a)). { unfold unit. rewrite lagrange, KA, K1, U. ring. }
  assert (H1 : cross a (cross k a) = k).
  { rewrite cross_cross, U. rewrite (dot_comm a k), KA. destruct k; simpl; f_equal; ring. }
  assert (H2 : cross (cross k a) k = a).
  { transitivity (vopp (cross k (cross k a))). { apply v3_eq; unfold cross, vopp; simpl; ring. }
    transitivity (cross k (cross a k)). { apply v3_eq; unfold cross, vopp; simpl; ring. }
    rewrite cross_cross, K1, KA. destruct a; simpl; f_equal; ring. }
  constructor; auto.
  - apply dot_cross_r.
  - apply dot_cross_l.
  - intros w W WA.
    assert (JR : dot (cross k a) r = l).
    { transitivity (dot k (cross a r)). { unfold dot, cross; simpl; ring. }
      unfold k. rewrite dot_vscl, <- L. field. lra. }
    rewrite JR.
    set (p := V3 (vx r - dot a r * vx a) (vy r - dot a r * vy a) (vz r - dot a r * vz a)).
    assert (WR : dot w r = dot w p).
    { transitivity (dot w r - dot a r * dot w a); [rewrite WA; ring|]. unfold p, dot; simpl; ring. }
    assert (PP : dot p p = l * l).
    { rewrite L, lagrange, U.
      assert (Q : forall d, dot (V3 (vx r - d * vx a) (vy r - d * vy a) (vz r - d * vz a)) (V3 (vx r - d * vx a) (vy r - d * vy a) (vz r - d * vz a)) =
        dot r r - 2 * d * dot a r + d * d * dot a a) by (intros d; unfold dot; simpl; ring).
      unfold p. rewrite Q, U. ring. }
    assert (C := lagrange w p). assert (C' := dot_pos (cross w p)). rewrite W, PP, <- WR in C. nra.
Qed.
