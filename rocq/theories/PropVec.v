(** Vector algebra: C31 - C35. *)
From Coq Require Import Reals List Bool Lra Lia Psatz ZArith Ring.
From Verif Require Import Base RInst ZInst QuatModel QuatSpec QuatProofs MiscModel MiscSpec RotModel RotSpec RotFacts RotProofs RotAngle
  VecModel VecSpec VecProofs VecReal VecNs PropQuat.
Import ListNotations.
Open Scope nat_scope.

(** ** C31.  Any commutative ring; any length for dot and the outer product. *)
Theorem dot_is_sum : forall (T : Type) (Op : Ops T) (u v : list T), is_ring T -> u <> [] -> length u = length v ->
  vdot u v = Ok (sum_prod u v).
Proof. intros. now apply vdot_sum. Qed.
(** exactly the operand sizes decide; this holds for any scalar type, floats included *)
Theorem dot_sizes : forall (T : Type) (Op : Ops T) (u v : list T),
  match vdot u v with
  | Ok _ => u <> [] /\ length u = length v
  | Throw EMinimumVectorSize => u = [] \/ v = []
  | Throw EIncompatibleVectorSize => u <> [] /\ v <> [] /\ length u <> length v
  | _ => False
  end.
Proof. intros. apply vdot_errors. Qed.
Theorem dot_symmetric : forall (T : Type) (Op : Ops T) (u v : list T), is_ring T -> vdot u v = vdot v u.
Proof. intros. now apply vdot_comm. Qed.
Theorem dot_bilinear : forall (T : Type) (Op : Ops T) (u v w : list T) (s t du dv : T), is_ring T ->
  vdot u w = Ok du -> vdot v w = Ok dv ->
  exists x, vadd (vscale s u) (vscale t v) = Ok x /\ x = comb s u t v /\
    vdot x w = Ok (add (mul s du) (mul t dv)) /\ vdot w x = Ok (add (mul s du) (mul t dv)).
Proof.
  intros T Op u v w s t du dv RT U V.
  assert (HU := vdot_errors u w). rewrite U in HU. assert (HV := vdot_errors v w). rewrite V in HV.
  rewrite (vdot_sum RT) in U by tauto. rewrite (vdot_sum RT) in V by tauto. injection U as <-. injection V as <-.
  assert (L : length u = length v) by (destruct HU, HV; congruence).
  exists (comb s u t v). rewrite !(vscale_scaled RT). split.
  { rewrite vadd_zip by (rewrite !scaled_length; auto). reflexivity. }
  split; [reflexivity|].
  assert (E : vdot (comb s u t v) w = Ok (add (mul s (sum_prod u w)) (mul t (sum_prod v w)))).
  { rewrite (vdot_sum RT).
    - now rewrite (sum_prod_comb RT).
    - destruct HU as [HU _], HV as [HV _]. unfold comb. destruct u, v; simpl in L |- *; congruence.
    - rewrite comb_length by auto. tauto. }
  split; auto. now rewrite (vdot_comm RT).
Qed.
Theorem length_squared_is_dot : forall (T : Type) (Op : Ops T) (v : list T), vlength_squared v = vdot v v.
Proof. intros. apply vlength_squared_dot. Qed.
Theorem cross_sizes : forall (T : Type) (Op : Ops T) (u v : list T),
  match vcross3 u v with
  | Ok c => length u = 3 /\ length v = 3 /\ length c = 3
  | Throw EVectorSize => length u <> 3 \/ length v <> 3
  | _ => False
  end.
Proof. intros. apply vcross3_errors. Qed.

(** matrix * vector and vector * matrix: rows or columns against the vector, of any size *)
Theorem matrix_vector_dots : forall (T : Type) (Op : Ops T) (m : mx T) (v : list T), is_ring T -> v <> [] ->
  (length v = mcols m -> exists w, mx_vec m v = Ok w /\ length w = mrows m /\
     forall i, i < mrows m -> nth i w zero = sum_prod (map (mel m i) (seq 0 (mcols m))) v) /\
  (length v <> mcols m -> mx_vec m v = Throw EIncompatibleMatrixInnerSize) /\
  (length v = mrows m -> exists w, vec_mx v m = Ok w /\ length w = mcols m /\
     forall j, j < mcols m -> nth j w zero = sum_prod v (map (fun k => mel m k j) (seq 0 (mrows m)))) /\
  (length v <> mrows m -> vec_mx v m = Throw EIncompatibleMatrixInnerSize).
Proof.
  intros T Op m v RT N. unfold mx_vec, vec_mx.
  assert (Z : forall n (f : nat -> T) k, k < n -> el (map f (seq 0 n)) k = f k).
  { intros n f k K. unfold el. rewrite (nth_indep _ zero (f 0)) by (now rewrite map_length, seq_length). rewrite map_nth, seq_nth by auto. auto. }
  assert (Y : forall n (f g : nat -> T), (forall k, k < n -> f k = g k) -> 0 < n -> accumulate n f = accumulate n g).
  { intros n f g E P. unfold accumulate. rewrite (E 0) by auto. assert (F : forall l a, Forall (fun k => k < n) l -> fold_left (fun a i => add a (f i)) l a = fold_left (fun a i => add a (g i)) l a).
    { induction l as [|k l IH]; intros a F; cbn; auto. inversion F; subst. rewrite E by auto. auto. }
    apply F. apply Forall_forall. intros k K. apply in_seq in K. lia. }
  assert (P : 0 < length v) by (destruct v; cbn; [congruence|lia]).
  repeat split.
  - intros L. rewrite <- L, Nat.eqb_refl. cbn [require bind]. eexists. split; [reflexivity|]. unfold elems. rewrite map_length, seq_length. split; auto.
    intros i I. fold (el (map (fun i => accumulate (length v) (fun k => mul (mel m i k) (el v k))) (seq 0 (mrows m))) i). rewrite Z by auto.
    rewrite <- (accumulate_dot RT) by (try (rewrite map_length, seq_length; auto); intros E; apply (f_equal (@length _)) in E; rewrite map_length, seq_length in E; cbn in E; lia).
    rewrite map_length, seq_length. apply Y; auto. intros k K. now rewrite Z.
  - intros L. destruct (Nat.eqb_spec (mcols m) (length v)); [congruence|reflexivity].
  - intros L. rewrite <- L, Nat.eqb_refl. cbn [require bind]. eexists. split; [reflexivity|]. unfold elems. rewrite map_length, seq_length. split; auto.
    intros j J. fold (el (map (fun j => accumulate (length v) (fun k => mul (el v k) (mel m k j))) (seq 0 (mcols m))) j). rewrite Z by auto.
    rewrite <- (accumulate_dot RT) by (auto; now rewrite map_length, seq_length). apply Y; auto. intros k K. rewrite Z; auto.
  - intros L. destruct (Nat.eqb_spec (length v) (mrows m)); [congruence|reflexivity].
Qed.
Example matrix_vector_case : is_ring Z /\ [1; 2]%Z <> [] /\
  vec_mx [1; 2]%Z (Mx 2 3 row_basis (fun i j => Z.of_nat (3 * i + j))) = Ok [6; 9; 12]%Z /\ mx_vec (Mx 2 3 row_basis (fun i j => Z.of_nat (3 * i + j))) [1; 2]%Z = Throw EIncompatibleMatrixInnerSize.
Proof. split; [apply Zring|]. repeat split. discriminate. Qed.

Section Polynomial.
Context {T : Type} {Op : Ops T}.
Hypothesis RT : ring_theory (zero : T) one add mul sub neg eq.
Add Ring TRing : RT.
Ltac lists := repeat first [apply f_equal2; [ring|] | apply f_equal2; [|reflexivity] | reflexivity | ring].
Lemma cross_laws_ (u v c : list T) : vcross3 u v = Ok c ->
  vcross3 v u = Ok (vneg c) /\ vdot c u = Ok zero /\ vdot c v = Ok zero /\
  (forall uu vv uv, vlength_squared u = Ok uu -> vlength_squared v = Ok vv -> vdot u v = Ok uv ->
     vlength_squared c = Ok (sub (mul uu vv) (mul uv uv))).
Proof.
  intros E. assert (S := vcross3_errors u v). rewrite E in S. destruct S as (U & V & _).
  destruct (len3 u U) as (a & b & d & ->), (len3 v V) as (x & y & z & ->). rewrite vcross3_val in E. injection E as <-.
  rewrite vcross3_val, !vlength_squared_dot. cbn -[add sub mul neg zero].
  split; [|split; [|split]].
  - f_equal. lists.
  - f_equal. ring.
  - f_equal. ring.
  - intros uu vv uv [= <-] [= <-] [= <-]. f_equal. ring.
Qed.
Lemma cross_linear_ (u v w : list T) s t x y : vcross3 u w = Ok x -> vcross3 v w = Ok y ->
  vcross3 (comb s u t v) w = Ok (comb s x t y).
Proof.
  intros E F. assert (S := vcross3_errors u w). rewrite E in S. assert (S' := vcross3_errors v w). rewrite F in S'.
  destruct (len3 u) as (a & b & d & ->); [tauto|]. destruct (len3 v) as (a' & b' & d' & ->); [tauto|].
  destruct (len3 w) as (p & q & r & ->); [tauto|]. rewrite vcross3_val in E, F. injection E as <-. injection F as <-.
  unfold comb. cbn [scaled map zip]. rewrite vcross3_val. f_equal. lists.
Qed.
Lemma triple_det_ (a b c d e f g h i : T) : vtriple [a; b; c] [d; e; f] [g; h; i] = Ok (det3 a b c d e f g h i).
Proof. unfold vtriple, det3. cbn -[add sub mul neg zero]. f_equal. ring. Qed.
Lemma triple_cyclic_ (u v w : list T) d : vtriple u v w = Ok d ->
  vtriple v w u = Ok d /\ vtriple w u v = Ok d /\ vtriple v u w = Ok (neg d).
Proof.
  unfold vtriple. unfold check_size, require. destruct (Nat.eqb_spec (length u) 3) as [U|]; [|discriminate].
  destruct (Nat.eqb_spec (length v) 3) as [V|]; [|discriminate]. destruct (Nat.eqb_spec (length w) 3) as [W|]; [|discriminate].
  destruct (len3 u U) as (a & b & c & ->), (len3 v V) as (x & y & z & ->), (len3 w W) as (p & q & r & ->).
  rewrite !vcross3_val. cbn -[add sub mul neg zero]. intros [= <-]. repeat split; f_equal; ring.
Qed.
End Polynomial.
Theorem cross_laws : forall (T : Type) (Op : Ops T) (u v c : list T), is_ring T -> vcross3 u v = Ok c ->
  vcross3 v u = Ok (vneg c) /\ vdot c u = Ok zero /\ vdot c v = Ok zero /\
  (forall uu vv uv, vlength_squared u = Ok uu -> vlength_squared v = Ok vv -> vdot u v = Ok uv ->
     vlength_squared c = Ok (sub (mul uu vv) (mul uv uv))).
Proof. intros T Op u v c RT. now apply cross_laws_. Qed.
Theorem cross_linear : forall (T : Type) (Op : Ops T) (u v w : list T) s t x y, is_ring T ->
  vcross3 u w = Ok x -> vcross3 v w = Ok y -> vcross3 (comb s u t v) w = Ok (comb s x t y).
Proof. intros T Op u v w s t x y RT. now apply cross_linear_. Qed.
Theorem triple_is_determinant : forall (T : Type) (Op : Ops T) (a b c d e f g h i : T), is_ring T ->
  vtriple [a; b; c] [d; e; f] [g; h; i] = Ok (det3 a b c d e f g h i).
Proof. intros. now apply triple_det_. Qed.
Theorem triple_cyclic : forall (T : Type) (Op : Ops T) (u v w : list T) d, is_ring T -> vtriple u v w = Ok d ->
  vtriple v w u = Ok d /\ vtriple w u v = Ok d /\ vtriple v u w = Ok (neg d).
Proof. intros T Op u v w d RT. now apply triple_cyclic_. Qed.
Theorem perp_dot_is_determinant : forall (T : Type) (Op : Ops T) (u v : list T),
  match vperp_dot u v with
  | Ok d => exists a b c e, u = [a; b] /\ v = [c; e] /\ d = det2 a b c e
  | Throw EVectorSize => length u <> 2 \/ length v <> 2
  | _ => False
  end.
Proof.
  intros T Op u v. unfold vperp_dot, check_size, require.
  destruct (Nat.eqb_spec (length u) 2) as [U|]; cbn [bind]; auto. destruct (Nat.eqb_spec (length v) 2) as [V|]; cbn [bind]; auto.
  destruct (len2 u U) as (a & b & ->), (len2 v V) as (c & e & ->). exists a, b, c, e. auto.
Qed.
(** outer(u,v)*w = dot(v,w)*u, for vectors of any sizes *)
Theorem outer_times : forall (T : Type) (Op : Ops T) (u v w : list T) b d, is_ring T -> vdot v w = Ok d ->
  mx_vec (vouter u v b) w = Ok (vscale d u) /\ mrows (vouter u v b) = length u /\ mcols (vouter u v b) = length v.
Proof.
  intros T Op u v w b d RT D. assert (S := vdot_errors v w). rewrite D in S. rewrite (vdot_sum RT) in D by tauto. injection D as <-.
  split; [|auto]. apply (mx_vec_outer RT); tauto.
Qed.
(** elementwise product *)
Theorem hadamard_elements : forall (T : Type) (Op : Ops T) (u v : list T), length u = length v ->
  exists w, vhadamard u v = Ok w /\ length w = length u /\ forall i, i < length u -> el w i = mul (el u i) (el v i).
Proof.
  intros T Op u v L. unfold vhadamard. rewrite vsame_ok by auto. eexists. split; [reflexivity|].
  split; [apply elems_length|]. intros i Hi. now rewrite el_elems.
Qed.
Example products_case :
  vdot [1; 2; 3; 4]%Z [5; 6; 7; 8]%Z = Ok 70%Z /\ vcross3 [1; 0; 0]%Z [0; 1; 0]%Z = Ok [0; 0; 1]%Z /\
  vcross3 [1; 2; 3]%Z [4; 5; 6]%Z = Ok [-3; 6; -3]%Z /\ vtriple [1; 2; 3]%Z [4; 5; 6]%Z [7; 8; 10]%Z = Ok (-3)%Z /\
  vperp_dot [1; 2]%Z [3; 4]%Z = Ok (-2)%Z /\ mx_vec (vouter [1; 2; 3]%Z [4; 5]%Z row_basis) [6; 7]%Z = Ok [59; 118; 177]%Z /\
  vdot [1]%Z [2; 3]%Z = Throw EIncompatibleVectorSize.
Proof. repeat split. Qed.

Open Scope R_scope.
(** ** C32 *)
Theorem vector_normalize : forall v : list R, nonzero v ->
  exists r s, vnormalize v = Ok r /\ 0 < s /\ r = scaled s v /\ vlength r = Ok 1 /\ vnormalize r = Ok r.
Proof.
  intros v H. assert (P := norm_pos v H). assert (N := nonzero_nil v H). assert (U := normalized_unit v H).
  exists (scaled (/ norm v) v), (/ norm v). split; [now apply vnormalize_scaled|].
  split; [now apply Rinv_0_lt_compat|]. split; [auto|].
  assert (N' : scaled (/ norm v) v <> []) by now apply scaled_nil.
  split; [rewrite vlength_norm, unit_norm; auto|].
  rewrite vnormalize_scaled, unit_norm, Rinv_1, scaled_1 by auto. auto.
Qed.
Theorem normalize_empty : forall (T : Type) (Op : Ops T) (MO : MathOps T), vnormalize (@nil T) = Throw EMinimumVectorSize.
Proof. reflexivity. Qed.
Theorem quaternion_normalize : forall o (q : quat R), hnorm (parts o q) <> 0 ->
  exists s, 0 < s /\ parts o (q_normalize q) = hscale s (parts o q) /\ hnorm (parts o (q_normalize q)) = 1 /\
    length_of (qget (q_normalize q)) = 1 /\ q_normalize (q_normalize q) = q_normalize q.
Proof.
  intros o q N.
  assert (E : norm_of (qget q) = hnorm (parts o q)).
  { destruct q, o; unfold norm_of, hnorm, parts, parts_of; simpl; ring. }
  set (l := length_of (qget q)).
  assert (L : l * l = hnorm (parts o q)).
  { unfold l, length_of. rewrite E. apply sqrt_sqrt. unfold hnorm. simpl. nra. }
  assert (P : 0 < l). { assert (0 <= l) by apply sqrt_pos. nra. }
  assert (K : q_normalize q = Quat (q0 q / l) (q1 q / l) (q2 q / l) (q3 q / l)) by reflexivity.
  assert (F : norm_of (qget (q_normalize q)) = 1).
  { rewrite K. unfold norm_of. simpl. apply Rmult_eq_reg_r with (l * l); [|nra]. rewrite Rmult_1_l.
    transitivity (q0 q * q0 q + q1 q * q1 q + q2 q * q2 q + q3 q * q3 q).
    - field. lra.
    - rewrite L, <- E. unfold norm_of. simpl. ring. }
  assert (G : length_of (qget (q_normalize q)) = 1). { unfold length_of. rewrite F. apply sqrt_1. }
  exists (/ l). split; [now apply Rinv_0_lt_compat|]. rewrite K in *. split; [|split; [|split]]; auto.
  - destruct o, q; unfold parts, parts_of, hscale, hmap; simpl; f_equal; unfold Rdiv; ring.
  - rewrite <- F. destruct o; unfold norm_of, hnorm, parts, parts_of; simpl; ring.
  - set (q' := Quat _ _ _ _) in *. change (q_normalize q') with (Quat (q0 q' / length_of (qget q')) (q1 q' / length_of (qget q')) (q2 q' / length_of (qget q')) (q3 q' / length_of (qget q'))).
    rewrite G. destruct q'. simpl. f_equal; field.
Qed.
(** the expression q.normalize() assigned to any target denotes the same quaternion *)
Theorem quaternion_normalize_expression : forall o c (q t : quat R),
  parts o (q_assign o c (XNormalize (XQuat q)) t) = parts o (q_normalize q).
Proof.
  intros o c q t. rewrite quaternion_assign by exact RR. cbn [denote].
  assert (E : norm_of (qget q) = hnorm (parts o q)).
  { destruct q, o; unfold norm_of, hnorm, parts, parts_of; simpl; ring. }
  rewrite <- E. change (msqrt (norm_of (qget q))) with (length_of (qget q)). destruct o, q; reflexivity.
Qed.
Example normalize_case : vnormalize [3; 0; 4] = Ok [3 / 5; 0 / 5; 4 / 5] /\ nonzero [3; 0; 4].
Proof.
  split.
  - rewrite vnormalize_scaled by congruence. assert (norm [3; 0; 4] = 5) as ->.
    { unfold norm. simpl. apply sqrt_eq; lra. } simpl. f_equal. repeat (apply f_equal2; [field|]). auto.
  - exists 3. simpl. split; [auto|lra].
Qed.

(** ** C33 *)
Theorem project_to_vector_parallel : forall u v : list R, nonzero v -> length u = length v ->
  exists p s, vproject_to_vector u v = Ok p /\ p = scaled s v /\ orthogonal (zip sub u p) v /\
    vproject_to_vector p v = Ok p.
Proof.
  intros u v H L. assert (P := proj1 (sp_nonzero v) H). assert (N := nonzero_nil v H).
  assert (Nu : u <> []) by (destruct u, v; simpl in *; congruence).
  assert (K : forall w, w <> [] -> length w = length v -> vproject_to_vector w v = Ok (scaled (sum_prod w v / sum_prod v v) v)).
  { intros w Nw Lw. unfold vproject_to_vector. rewrite vlength_squared_dot, !R_dot_sum by auto. simpl. now rewrite (vscale_scaled RR). }
  exists (scaled (sum_prod u v / sum_prod v v) v), (sum_prod u v / sum_prod v v).
  split; [now apply K|]. split; auto. split.
  - unfold orthogonal. rewrite sp_sub, sp_scaled by (rewrite scaled_length; auto). field. lra.
  - rewrite K by (try apply scaled_nil; try rewrite scaled_length; auto). rewrite sp_scaled. do 2 f_equal. field. lra.
Qed.
Theorem project_to_hplane_orthogonal : forall v n : list R, unit_vector n -> length v = length n ->
  exists p, vproject_to_hplane v n = Ok p /\ orthogonal p n /\ vproject_to_hplane p n = Ok p /\
    exists q, vproject_to_vector v n = Ok q /\ vadd q p = Ok v.
Proof.
  intros v n U L. assert (H := unit_nonzero n U). assert (N := nonzero_nil n H).
  assert (K : forall w, w <> [] -> length w = length n -> vproject_to_hplane w n = Ok (zip sub w (scaled (sum_prod w n) n))).
  { intros w Nw Lw. unfold vproject_to_hplane. rewrite !R_dot_sum by auto. simpl. rewrite (vscale_scaled RR).
    now rewrite vsub_zip by (rewrite scaled_length; auto). }
  assert (Nv : v <> []) by (destruct v, n; simpl in *; congruence).
  set (p := zip sub v (scaled (sum_prod v n) n)).
  assert (Lp : length p = length n). { unfold p. rewrite zip_length; auto. now rewrite scaled_length. }
  assert (O : sum_prod p n = 0). { unfold p. rewrite sp_sub, sp_scaled, U by (rewrite scaled_length; auto). ring. }
  exists p. split; [now apply K|]. split; auto. split.
  - rewrite K by (auto; destruct p, n; simpl in *; congruence). rewrite O. f_equal.
    clearbody p. clear - Lp. revert n Lp. induction p as [|a p IH]; intros [|b n] Lp; try discriminate; auto. simpl. f_equal; [ring|].
    apply (IH n). simpl in Lp; lia.
  - exists (scaled (sum_prod v n) n). split.
    + unfold vproject_to_vector. rewrite vlength_squared_dot, !R_dot_sum by auto. simpl. rewrite (vscale_scaled RR), U.
      do 2 f_equal. field.
    + rewrite vadd_zip by (rewrite scaled_length; auto). f_equal. apply zip_add_sub. now rewrite scaled_length.
Qed.
Theorem perp_orthogonal : forall v : list R, length v = 2%nat ->
  exists p, vperp v = Ok p /\ orthogonal p v /\ vlength p = vlength v /\ p = rotate2 (PI / 2) v.
Proof.
  intros v (a & b & ->)%len2. exists [- b; a]. split; [reflexivity|]. split; [unfold orthogonal; simpl; ring|]. split.
  - rewrite !vlength_norm by congruence. unfold norm. simpl. do 2 f_equal. ring.
  - unfold rotate2. simpl. rewrite cos_PI2, sin_PI2. apply f_equal2; [ring|]. apply f_equal2; [ring|auto].
Qed.
Theorem perp_sizes : forall (T : Type) (Op : Ops T) (v : list T), length v <> 2%nat -> vperp v = Throw EVectorSize.
Proof. intros T Op v H. unfold vperp, check_size. destruct (Nat.eqb_spec (length v) 2); [congruence|auto]. Qed.
(** manhattan_distance is a metric *)
Lemma manhattan_fold (x : nat -> R) m : accumulate (S m) x = fold_right (fun i s => x i + s) 0 (seq 0 (S m)).
Proof. apply (accumulate_S RR). Qed.
Lemma manhattan_val u v : u <> [] -> length u = length v ->
  vmanhattan u v = Ok (fold_right (fun i s => Rabs (el u i - el v i) + s) 0 (seq 0 (length u))).
Proof.
  intros N L. unfold vmanhattan. rewrite !vmin_ok, vsame_ok by (auto; destruct u, v; simpl in *; congruence). cbn [bind].
  destruct u; [congruence|]. simpl length. now rewrite manhattan_fold.
Qed.
Theorem manhattan_metric : forall u v w : list R, u <> [] -> length u = length v -> length v = length w ->
  exists duv dvu duw dvw, vmanhattan u v = Ok duv /\ vmanhattan v u = Ok dvu /\ vmanhattan u w = Ok duw /\ vmanhattan v w = Ok dvw /\
    duv = dvu /\ 0 <= duv /\ (duv = 0 <-> u = v) /\ duw <= duv + dvw.
Proof.
  intros u v w N L L'. rewrite !manhattan_val by (try congruence; destruct u, v; simpl in *; congruence).
  do 4 eexists. do 4 (split; [reflexivity|]). rewrite <- !L.
  assert (A : forall l (x : nat -> R), 0 <= fold_right (fun i s => Rabs (x i) + s) 0 l).
  { induction l; intros; simpl; [lra|]. assert (B := Rabs_pos (x a)). specialize (IHl x). lra. }
  split; [|split; [|split]].
  - generalize (seq 0 (length u)). induction l; simpl; auto. rewrite IHl, Rabs_minus_sym. auto.
  - apply (A _ (fun i => el u i - el v i)).
  - split.
    + intros Z. apply list_el; auto. intros i Hi. apply Rminus_diag_uniq.
      assert (I : In i (seq 0 (length u))) by (apply in_seq; lia). revert I Z. generalize (seq 0 (length u)).
      induction l; simpl; [tauto|]. intros [->|I] Z.
      * specialize (A l (fun i => el u i - el v i)). simpl in A. assert (B := Rabs_pos (el u i - el v i)).
        destruct (Req_dec (el u i - el v i) 0); auto. assert (C := Rabs_pos_lt _ H). lra.
      * apply IHl; auto. specialize (A l (fun i => el u i - el v i)). simpl in A. assert (B := Rabs_pos (el u a - el v a)). lra.
    + intros ->. generalize (seq 0 (length v)). induction l; simpl; auto. rewrite IHl. unfold Rminus. rewrite Rplus_opp_r, Rabs_R0. lra.
  - generalize (seq 0 (length u)). induction l; simpl; [lra|].
    assert (B := Rabs_triang (el u a - el v a) (el v a - el w a)).
    replace (el u a - el v a + (el v a - el w a)) with (el u a - el w a) in B by ring. lra.
Qed.
Example projections_case : unit_vector [0; 1; 0; 0] /\ nonzero [1; 2; 0; 3] /\ vproject_to_hplane [1; 2; 0; 3] [0; 1; 0; 0] <> vproject_to_vector [1; 2; 0; 3] [0; 1; 0; 0].
Proof.
  split; [unfold unit_vector; simpl; ring|]. split; [exists 1; simpl; split; auto; lra|].
  unfold vproject_to_hplane, vproject_to_vector. cbn. intros E. injection E as E _. lra.
Qed.

(** ** C34 *)
Theorem signed_angle_2D_rotates : forall u v : list R, length u = 2%nat -> length v = 2%nat -> nonzero u -> nonzero v ->
  exists a, vsigned_angle_2D u v = Ok a /\ - PI < a <= PI /\
    scaled (norm v) (rotate2 a u) = scaled (norm u) v /\
    vunsigned_angle_2D u v = Ok (Rabs a) /\ cos (Rabs a) * (norm u * norm v) = sum_prod u v /\ 0 <= Rabs a <= PI.
Proof.
  intros u v U V Nu Nv.
  assert (Pu := norm_pos u Nu). assert (Pv := norm_pos v Nv). assert (Su := norm_sqr u). assert (Sv := norm_sqr v).
  destruct (len2 u U) as (a & b & ->), (len2 v V) as (c & d & ->).
  set (nu := norm [a; b]) in *. set (nv := norm [c; d]) in *. clearbody nu nv. simpl in Su, Sv.
  set (y := a * d - b * c). set (x := a * c + b * d).
  assert (A : vsigned_angle_2D [a; b] [c; d] = Ok (Ratan2 y x)) by reflexivity.
  exists (Ratan2 y x). split; auto. assert (R := atan2_range y x). split; auto.
  assert (P : 0 < nu * nv) by now apply Rmult_lt_0_compat.
  assert (E : nu * nv * (nu * nv) = x * x + y * y).
  { transitivity ((nu * nu) * (nv * nv)); [ring|]. rewrite Su, Sv. unfold x, y. ring. }
  destruct (atan2_polar x y _ P E) as [S C]. set (t := Ratan2 y x) in *. clearbody t.
  split; [|split; [|split]].
  - unfold scaled, rotate2. simpl. set (st := sin t) in *. set (ct := cos t) in *. clearbody st ct.
    assert (Q1 : nu * nv * (ct * a - st * b) = nu * nu * c).
    { transitivity ((nu * nv * ct) * a - (nu * nv * st) * b); [ring|]. rewrite S, C, Su. unfold x, y. ring. }
    assert (Q2 : nu * nv * (st * a + ct * b) = nu * nu * d).
    { transitivity ((nu * nv * st) * a + (nu * nv * ct) * b); [ring|]. rewrite S, C, Su. unfold x, y. ring. }
    apply f_equal2; [|apply f_equal2; [|auto]]; apply Rmult_eq_reg_l with nu; nra.
  - unfold vunsigned_angle_2D. now rewrite A.
  - unfold Rabs. destruct (Rcase_abs t); [rewrite cos_neg|]; simpl; unfold x in C; lra.
  - unfold Rabs. destruct (Rcase_abs t); lra.
Qed.
(** antisymmetric, except between opposite directions where both are pi *)
Theorem signed_angle_2D_antisymmetric : forall (u v : list R) a, vsigned_angle_2D u v = Ok a -> a <> PI ->
  vsigned_angle_2D v u = Ok (- a).
Proof.
  intros u v a E N. unfold vsigned_angle_2D, vperp_dot, check_size, require in *.
  destruct (Nat.eqb_spec (length u) 2) as [U|]; [|discriminate]. destruct (Nat.eqb_spec (length v) 2) as [V|]; [|discriminate].
  destruct (len2 u U) as (p & q & ->), (len2 v V) as (r & s & ->). cbn in *. injection E as <-. f_equal.
  replace (r * q - s * p) with (- (p * s - q * r)) by ring. replace (r * p + s * q) with (p * r + q * s) by ring.
  apply atan2_neg. intros Z. rewrite Z in N. set (x := p * r + q * s) in *. apply Rnot_lt_le. intros L. apply N.
  unfold Ratan2. destruct (Rlt_dec 0 x); [lra|]. destruct (Rlt_dec x 0); [|lra]. destruct (Rle_dec 0 0); [|lra].
  replace (0 / x) with 0 by (unfold Rdiv; ring). rewrite atan_0. ring.
Qed.
Theorem signed_angle_2D_opposite : forall (u v : list R), vsigned_angle_2D u v = Ok PI -> vsigned_angle_2D v u = Ok PI.
Proof.
  intros u v E. unfold vsigned_angle_2D, vperp_dot, check_size, require in *.
  destruct (Nat.eqb_spec (length u) 2) as [U|]; [|discriminate]. destruct (Nat.eqb_spec (length v) 2) as [V|]; [|discriminate].
  destruct (len2 u U) as (p & q & ->), (len2 v V) as (r & s & ->). cbn in *. injection E as E. f_equal. rewrite <- E at 1.
  set (x := p * r + q * s) in *. set (y := p * s - q * r) in *.
  replace (r * p + s * q) with x by (unfold x; ring).
  assert (Y : y = 0).
  { assert (B := atan_bound (y / x)). assert (P := PI_RGT_0). unfold Ratan2 in E. destruct (Rlt_dec 0 x); [lra|]. destruct (Rlt_dec x 0).
    - destruct (Rle_dec 0 y); [|lra]. assert (Z : atan (y / x) = 0) by lra. rewrite <- atan_0 in Z. apply (f_equal tan) in Z. rewrite !atan_right_inv in Z.
      unfold Rdiv in Z. apply Rmult_integral in Z. destruct Z as [Z|Z]; auto. assert (/ x < 0) by now apply Rinv_lt_0_compat. lra.
    - destruct (Rlt_dec 0 y); [lra|]. destruct (Rlt_dec y 0); lra. }
  replace (r * q - s * p) with y by (unfold y in *; lra). auto.
Qed.
Theorem unsigned_angle_cosine : forall u v : list R, length u = 3%nat -> length v = 3%nat ->
  exists a, vunsigned_angle u v = Ok a /\ vunsigned_angle v u = Ok a /\ 0 <= a <= PI /\
    (nonzero u -> nonzero v -> cos a * (norm u * norm v) = sum_prod u v /\ sin a * (norm u * norm v) = norm (cross_of u v)).
Proof.
  intros u' v' U V. destruct (vlist_of u' U) as [u ->], (vlist_of v' V) as [v ->].
  assert (K : forall a b : vec3, vunsigned_angle (vlist a) (vlist b) = Ok (Ratan2 (norm (vlist (cross a b))) (dot a b))).
  { intros a b. unfold vunsigned_angle. rewrite cross3_vlist. cbn [bind]. rewrite vlength_norm, R_dot_sum, sp3 by (auto; apply vlist_nil). auto. }
  exists (Ratan2 (norm (vlist (cross u v))) (dot u v)). split; [apply K|]. split.
  { rewrite K. rewrite !norm3, !lagrange. replace (dot v u) with (dot u v) by (unfold dot; ring). do 4 f_equal. ring. }
  split. { apply atan2_upper0, norm_ge0. }
  intros Nu Nv. assert (Pu := norm_pos _ Nu). assert (Pv := norm_pos _ Nv).
  change (cross_of (vlist u) (vlist v)) with (vlist (cross u v)).
  assert (E : norm (vlist u) * norm (vlist v) * (norm (vlist u) * norm (vlist v)) =
    dot u v * dot u v + norm (vlist (cross u v)) * norm (vlist (cross u v))).
  { rewrite norm_sqr, sp3, lagrange. transitivity (norm (vlist u) * norm (vlist u) * (norm (vlist v) * norm (vlist v))); [ring|].
    rewrite !norm_sqr, !sp3. ring. }
  destruct (atan2_polar _ _ _ (Rmult_lt_0_compat _ _ Pu Pv) E) as [S C]. rewrite sp3. split; lra.
Qed.
(** The unsigned angle with the sign of dot(cross(u,v), r); by the unsigned angle
    itself when that is zero. *)
Theorem signed_angle_sign : forall u v r : list R, length u = 3%nat -> length v = 3%nat -> length r = 3%nat ->
  exists a s, vunsigned_angle u v = Ok a /\ vsigned_angle u v r = Ok s /\
    (sum_prod (cross_of u v) r < 0 -> s = - a /\ s < 0) /\ (0 <= sum_prod (cross_of u v) r -> s = a) /\
    (0 < sum_prod (cross_of u v) r -> 0 < s).
Proof.
  intros u' v' r' U V W. destruct (vlist_of u' U) as [u ->], (vlist_of v' V) as [v ->], (vlist_of r' W) as [r ->].
  change (cross_of (vlist u) (vlist v)) with (vlist (cross u v)). rewrite sp3.
  set (a := Ratan2 (norm (vlist (cross u v))) (dot u v)).
  assert (A : vunsigned_angle (vlist u) (vlist v) = Ok a).
  { unfold vunsigned_angle. rewrite cross3_vlist. cbn [bind]. rewrite vlength_norm, R_dot_sum, sp3 by (auto; apply vlist_nil). auto. }
  assert (S : vsigned_angle (vlist u) (vlist v) (vlist r) = Ok (if Rltb (dot (cross u v) r) 0 then - a else a)).
  { unfold vsigned_angle. rewrite cross3_vlist. cbn [bind]. rewrite vlength_norm by apply vlist_nil. cbn [bind].
    rewrite !R_dot_sum, !sp3 by (auto; apply vlist_nil). reflexivity. }
  assert (P : dot (cross u v) r <> 0 -> 0 < a).
  { intros N. apply atan2_upper. apply sqrt_lt_R0. rewrite sp3.
    destruct (dot_pos (cross u v)) as [|Z]; auto. symmetry in Z. apply dot_zero in Z. rewrite Z in N. unfold dot in N. simpl in N. lra. }
  exists a, (if Rltb (dot (cross u v) r) 0 then - a else a). split; auto. split; auto. unfold Rltb.
  destruct (Rlt_dec (dot (cross u v) r) 0) as [L|L]; split; [intros _; split; auto; specialize (P (Rlt_not_eq _ _ L)); lra| |lra|].
  - split; lra.
  - split; auto. intros G. apply P. lra.
Qed.
(** turning u about the reference axis by the signed angle gives the direction of v,
    for u and v in the plane orthogonal to a unit reference *)
Theorem signed_angle_rotates : forall u v n : vec3, unit n -> dot u n = 0 -> dot v n = 0 -> u <> V3 0 0 0 -> v <> V3 0 0 0 ->
  exists a, vsigned_angle (vlist u) (vlist v) (vlist n) = Ok a /\
    scaled (norm (vlist v)) (vlist (rodrigues n a u)) = scaled (norm (vlist u)) (vlist v).
Proof.
  intros u v n Un On Pn Zu Zv. destruct (signed_angle_sign (vlist u) (vlist v) (vlist n) eq_refl eq_refl eq_refl) as (a & s & A & S & Neg & Pos & _).
  exists s. split; auto.
  assert (D : forall w : vec3, w <> V3 0 0 0 -> nonzero (vlist w)).
  { intros w N. apply sp_nonzero. rewrite sp3. destruct (dot_pos w) as [|Z]; auto. symmetry in Z. now apply dot_zero in Z. }
  destruct (unsigned_angle_cosine (vlist u) (vlist v) eq_refl eq_refl) as (a' & A' & _ & _ & T). rewrite A in A'. injection A' as <-.
  destruct (T (D u Zu) (D v Zv)) as [C Sn]. clear T.
  change (cross_of (vlist u) (vlist v)) with (vlist (cross u v)) in *. rewrite sp3 in *.
  assert (Pu := norm_pos _ (D u Zu)). assert (Pv := norm_pos _ (D v Zv)).
  assert (Su := norm_sqr (vlist u)). rewrite sp3 in Su.
  assert (Sc := norm_sqr (vlist (cross u v))). rewrite sp3 in Sc.
  set (nu := norm (vlist u)) in *. set (nv := norm (vlist v)) in *. set (nc := norm (vlist (cross u v))) in *.
  assert (Gc : 0 <= nc) by apply norm_ge0. set (d := dot (cross u v) n) in *.
  (* the cross product is along n *)
  assert (Along : cross u v = V3 (d * vx n) (d * vy n) (d * vz n)) by (apply cross_along; auto).
  assert (Dn : nc * nc = d * d).
  { rewrite Sc, Along. unfold dot. simpl. unfold unit, dot in Un. transitivity (d * d * (vx n * vx n + vy n * vy n + vz n * vz n)); [ring|]. rewrite Un. ring. }
  assert (Ss : nu * nv * sin s = d /\ nu * nv * cos s = dot u v).
  { destruct (Rlt_dec d 0) as [L|L].
    - destruct (Neg L) as [-> _]. rewrite sin_neg, cos_neg. split; [|lra]. assert (nc = - d) by nra. lra.
    - rewrite (Pos (Rnot_lt_le _ _ L)). split; [|lra]. assert (nc = d) by nra. lra. }
  clear Neg Pos A S a C Sn. destruct Ss as [Ss Cs].
  assert (Dk : dot n u = 0) by (rewrite <- On; unfold dot; ring).
  assert (Final : forall f : vec3 -> R, (f = vx \/ f = vy \/ f = vz) -> nv * f (rodrigues n s u) = nu * f v).
  { intros f F. apply Rmult_eq_reg_l with nu; [|lra].
    assert (E : f (rodrigues n s u) = f u * cos s + f (cross n u) * sin s).
    { unfold rodrigues. rewrite Dk. destruct F as [-> | [-> | ->]]; simpl; ring. }
    rewrite E. transitivity (f u * (nu * nv * cos s) + f (cross n u) * (nu * nv * sin s)); [ring|].
    rewrite Ss, Cs. rewrite <- Rmult_assoc, Su. unfold d. now apply plane_decompose. }
  unfold scaled, vlist. cbn [map]. repeat (apply f_equal2; [apply Final; auto|]). auto.
Qed.
Theorem angle_sizes : forall u v r : list R, length u <> 3%nat \/ length v <> 3%nat ->
  vunsigned_angle u v = Throw EVectorSize /\ vsigned_angle u v r = Throw EVectorSize.
Proof.
  intros u v r H. assert (S := vcross3_errors u v). unfold vunsigned_angle, vsigned_angle.
  destruct (vcross3 u v) as [c|e|]; [tauto| |tauto]. destruct e; tauto || auto.
Qed.
Example angles_case : vsigned_angle_2D [1; 0] [0; 2] = Ok (PI / 2) /\ vsigned_angle_2D [0; 2] [1; 0] = Ok (- (PI / 2)) /\
  vunsigned_angle [1; 0; 0] [0; 0; 1] = Ok (PI / 2) /\ vsigned_angle [1; 0; 0] [0; 0; 1] [0; 1; 0] = Ok (- (PI / 2)).
Proof.
  assert (E0 : forall y x, x = 0 -> 0 < y -> Ratan2 y x = PI / 2).
  { intros y x -> H. unfold Ratan2. destruct (Rlt_dec 0 0); [lra|]. destruct (Rlt_dec 0 y); lra. }
  assert (E1 : vsigned_angle_2D [1; 0] [0; 2] = Ok (PI / 2)). { cbn. f_equal. apply E0; lra. }
  assert (P := PI_RGT_0).
  split; [auto|]. split; [apply signed_angle_2D_antisymmetric; [auto|lra]|].
  change [1; 0; 0] with (vlist (V3 1 0 0)). change [0; 0; 1] with (vlist (V3 0 0 1)). change [0; 1; 0] with (vlist (V3 0 1 0)).
  assert (Q : norm (vlist (cross (V3 1 0 0) (V3 0 0 1))) = 1).
  { rewrite norm3. unfold dot, cross. cbn [vx vy vz]. apply sqrt_eq; lra. }
  unfold vunsigned_angle, vsigned_angle. rewrite !cross3_vlist. cbn [bind]. rewrite vlength_norm, Q by apply vlist_nil. cbn [bind].
  rewrite !R_dot_sum, !sp3 by (auto; apply vlist_nil). cbn [bind]. unfold dot, cross. cbn [vx vy vz matan2 RMath ltb ROps].
  rewrite !E0 by lra. split; [reflexivity|]. unfold Rltb. match goal with |- context [Rlt_dec ?a ?b] => destruct (Rlt_dec a b) as [L|L] end; [reflexivity|].
  exfalso. apply L. cbn. lra.
Qed.

(** ** C35 *)
Lemma basis_run (a e r c k j : list R) (normalize : bool) o : to_fixed 3 a = Ok a ->
  (if normalize then vnormalize a else Ok a) = Ok e -> vcross3 e r = Ok c -> vnormalize c = Ok k -> vcross3 k e = Ok j ->
  vorthonormal_basis a r normalize (ao_value o) = Ok (match o with
    | ao_xyz => (e, j, k) | ao_xzy => (e, vneg k, j) | ao_yzx => (k, e, j)
    | ao_yxz => (j, e, vneg k) | ao_zxy => (j, k, e) | ao_zyx => (vneg k, j, e) end).
Proof.
  intros A E C K J. unfold vorthonormal_basis.
  destruct o; cbn -[vcross3 vnormalize vneg to_fixed put_axis get_axis]; change (Pos.to_nat 1) with 1%nat; change (Pos.to_nat 2) with 2%nat; rewrite A; cbn [bind]; rewrite E; cbn -[vcross3 vnormalize vneg]; rewrite C; cbn [bind]; rewrite K; cbn -[vcross3 vnormalize vneg]; rewrite J; reflexivity.
Qed.
Theorem orthonormal_basis_frame : forall (align reference : list R) (normalize : bool) (o : axis_order),
  length align = 3%nat -> length reference = 3%nat -> nonzero (cross_of align reference) ->
  normalize = true \/ unit_vector align ->
  exists x y z, vorthonormal_basis align reference normalize (ao_value o) = Ok (x, y, z) /\
    length x = 3%nat /\ length y = 3%nat /\ length z = 3%nat /\ unit_vector x /\ unit_vector y /\ unit_vector z /\ orthogonal x y /\ orthogonal x z /\ orthogonal y z /\
    cross_of x y = z /\
    let '(i, j, k) := ao_name o in
    let axis n := nth (Z.to_nat n) [x; y; z] [] in
    (exists s, 0 < s /\ axis i = scaled s align) /\ orthogonal (axis k) reference /\
    (forall w, length w = 3%nat -> unit_vector w -> orthogonal w align -> sum_prod w reference <= sum_prod (axis j) reference).
Proof.
  intros a' r' normalize o A R' N H. destruct (vlist_of a' A) as [a ->], (vlist_of r' R') as [r ->].
  change (cross_of (vlist a) (vlist r)) with (vlist (cross a r)) in N.
  assert (Za : nonzero (vlist a)).
  { apply sp_nonzero. destruct (sp_pos (vlist a)) as [|Z]; auto. exfalso. rewrite sp3 in Z. symmetry in Z. apply dot_zero in Z.
    apply sp_nonzero in N. rewrite Z, sp3 in N. unfold dot, cross in N. cbn in N. lra. }
  set (sc := if normalize then / norm (vlist a) else 1).
  assert (Ps : 0 < sc). { unfold sc. destruct normalize; [apply Rinv_0_lt_compat, norm_pos; auto|lra]. }
  set (e := vscl sc a).
  assert (E : (if normalize then vnormalize (vlist a) else Ok (vlist a)) = Ok (vlist e)).
  { unfold e, sc. destruct normalize.
    - rewrite vnormalize_scaled by apply vlist_nil. reflexivity.
    - f_equal. rewrite <- scaled_vlist. now rewrite scaled_1. }
  assert (Ue : unit e).
  { unfold unit. rewrite <- sp3. unfold e. rewrite <- scaled_vlist. unfold sc. destruct normalize; [now apply normalized_unit|].
    destruct H as [H|H]; [discriminate|]. now rewrite scaled_1. }
  assert (Ce : cross e r = vscl sc (cross a r)). { apply v3_eq; unfold e, vscl, cross; simpl; ring. }
  assert (Ne : nonzero (vlist (cross e r))).
  { apply sp_nonzero. rewrite sp3, Ce, dot_vscl, dot_comm, dot_vscl. apply sp_nonzero in N. rewrite sp3 in N. now repeat apply Rmult_lt_0_compat. }
  destruct (frame_make e r Ue Ne) as [K1 J1 KA JA JK KR H1 H2 H3 MX].
  set (k := vscl (/ norm (vlist (cross e r))) (cross e r)) in *.
  remember (cross k e) as j eqn:Ej.
  assert (C1 : vcross3 (vlist e) (vlist r) = Ok (vlist (cross e r))) by reflexivity.
  assert (C2 : vnormalize (vlist (cross e r)) = Ok (vlist k)). { rewrite vnormalize_scaled by apply vlist_nil. reflexivity. }
  assert (C3 : vcross3 (vlist k) (vlist e) = Ok (vlist j)) by (rewrite Ej; reflexivity).
  assert (F3 : to_fixed 3 (vlist a) = Ok (vlist a)) by reflexivity.
  assert (Neg : forall u v, dot u v = 0 -> dot (vopp u) v = 0). { intros u v D. transitivity (- dot u v); [unfold dot, vopp; simpl; ring|rewrite D; ring]. }
  assert (Neg1 : unit (vopp k)). { unfold unit. transitivity (dot k k); [unfold dot, vopp; simpl; ring|exact K1]. }
  assert (Hn1 : cross j e = vopp k). { transitivity (vopp (cross e j)); [apply v3_eq; unfold cross, vopp; simpl; ring|now rewrite H1]. }
  assert (Hn2 : cross e (vopp k) = j). { transitivity (cross k e); [apply v3_eq; unfold cross, vopp; simpl; ring|now symmetry]. }
  assert (Hn3 : cross (vopp k) j = e). { transitivity (cross j k); [apply v3_eq; unfold cross, vopp; simpl; ring|exact H2]. }
  assert (Cr : forall u v, cross_of (vlist u) (vlist v) = vlist (cross u v)) by reflexivity.
  assert (Mx : forall w, length w = 3%nat -> unit_vector w -> orthogonal w (vlist a) -> sum_prod w (vlist r) <= sum_prod (vlist j) (vlist r)).
  { intros w Lw Uw Ow. destruct (vlist_of w Lw) as [w' ->]. rewrite !sp3. unfold unit_vector, orthogonal in *. rewrite sp3 in Uw, Ow.
    apply MX; auto. unfold e. rewrite dot_comm, dot_vscl, dot_comm, Ow. ring. }
  assert (Par : exists s, 0 < s /\ vlist e = scaled s (vlist a)) by (exists sc; auto).
  assert (KR' : orthogonal (vlist k) (vlist r)) by (unfold orthogonal; rewrite sp3; auto).
  assert (KR'' : orthogonal (vlist (vopp k)) (vlist r)) by (unfold orthogonal; rewrite sp3; auto).
  assert (Sy : forall u v, dot u v = 0 -> dot v u = 0) by (intros u v D; rewrite dot_comm; auto).
  rewrite (basis_run _ _ _ _ _ _ normalize o F3 E C1 C2 C3).
  destruct o; cbn [ao_name Z.to_nat Pos.to_nat]; rewrite ?vneg_vlist;
    (do 3 eexists; split; [reflexivity|]); unfold unit_vector, orthogonal; rewrite !sp3, ?Cr;
    repeat (split; [first [assumption | now auto | f_equal; congruence]|]);
    auto.
Qed.
(** 2D: x and y are orthonormal, y a quarter turn from x, and the first listed axis along the argument. *)
Theorem orthonormal_basis_2D_frame : forall (align : list R) (normalize yx : bool),
  length align = 2%nat -> nonzero align -> normalize = true \/ unit_vector align ->
  exists x y, vorthonormal_basis_2D align normalize (ao_value (if yx then ao_yxz else ao_xyz)) = Ok (x, y) /\
    length x = 2%nat /\ length y = 2%nat /\ unit_vector x /\ unit_vector y /\ orthogonal x y /\ y = rotate2 (PI / 2) x /\
    exists s, 0 < s /\ (if yx then y else x) = scaled s align.
Proof.
  intros a' normalize yx A N H.
  set (sc := if normalize then / norm a' else 1).
  assert (Ps : 0 < sc). { unfold sc. destruct normalize; [apply Rinv_0_lt_compat, norm_pos; auto|lra]. }
  assert (E : (if normalize then vnormalize a' else Ok a') = Ok (scaled sc a')).
  { unfold sc. destruct normalize; [apply vnormalize_scaled, nonzero_nil; auto|]. now rewrite scaled_1. }
  assert (U : unit_vector (scaled sc a')).
  { unfold sc. destruct normalize; [now apply normalized_unit|]. destruct H; [discriminate|]. now rewrite scaled_1. }
  assert (L : length (scaled sc a') = 2%nat) by now rewrite scaled_length.
  assert (F : to_fixed 2 a' = Ok a'). { unfold to_fixed. now rewrite A. }
  assert (G : exists s, 0 < s /\ scaled sc a' = scaled s a') by eauto.
  destruct (len2 (scaled sc a') L) as (p & q & D). rewrite D in *. clear D.
  unfold unit_vector in U. simpl in U.
  assert (Run : vorthonormal_basis_2D a' normalize (ao_value (if yx then ao_yxz else ao_xyz)) =
    Ok (if yx then (vneg [- q; p], [p; q]) else ([p; q], [- q; p]))).
  { unfold vorthonormal_basis_2D. destruct yx; cbn -[vnormalize vneg to_fixed vperp put_axis get_axis]; change (Pos.to_nat 1) with 1%nat;
    rewrite F; cbn [bind]; rewrite E; cbn -[vneg]; reflexivity. }
  rewrite Run. unfold rotate2. rewrite sin_PI2, cos_PI2.
  destruct yx; do 2 eexists; (split; [reflexivity|]); unfold unit_vector, orthogonal, vneg, elems; cbn;
    (split; [reflexivity|]); (split; [reflexivity|]); (split; [lra|]); (split; [lra|]); (split; [ring|]); split; auto;
    repeat (apply f_equal2; [ring|]); auto.
Qed.
Theorem orthonormal_basis_sizes : forall (align reference : list R) normalize o,
  (length align <> 3%nat -> vorthonormal_basis align reference normalize (ao_value o) = Throw EIncompatibleVectorSize) /\
  (length align <> 2%nat -> vorthonormal_basis_2D align normalize (ao_value o) = Throw EIncompatibleVectorSize).
Proof.
  intros. unfold vorthonormal_basis, vorthonormal_basis_2D, to_fixed.
  split; intros H; apply Nat.eqb_neq in H; destruct (unpack_axis _) as [[[] ?] ?] || destruct (unpack_axis2D _) as [[] ?]; rewrite H; auto.
Qed.
Example frames_case : nonzero (cross_of [0; 2; 0] [1; 1; 0]) /\
  vorthonormal_basis [0; 1; 0] [1; 1; 0] false (ao_value ao_xyz) = Ok ([0; 1; 0], [1; 0; 0], [0; 0; -1]).
Proof.
  split.
  - exists (0 * 1 - 2 * 1). split; [simpl; auto|lra].
  - assert (K : vnormalize [1 * 0 - 0 * 1; 0 * 1 - 0 * 0; 0 * 1 - 1 * 1] = Ok [0; 0; -1]).
    { rewrite vnormalize_scaled by congruence. assert (norm [1 * 0 - 0 * 1; 0 * 1 - 0 * 0; 0 * 1 - 1 * 1] = 1) as ->.
      { unfold norm. simpl. apply sqrt_eq; lra. } simpl. f_equal. repeat (apply f_equal2; [field|]). auto. }
    rewrite (basis_run [0; 1; 0] [0; 1; 0] [1; 1; 0] _ _ [0 * 0 - -1 * 1; -1 * 0 - 0 * 0; 0 * 1 - 0 * 0] false ao_xyz eq_refl eq_refl eq_refl K eq_refl).
    repeat f_equal; ring.
Qed.

Print Assumptions dot_is_sum. Print Assumptions dot_sizes. Print Assumptions dot_symmetric. Print Assumptions dot_bilinear.
Print Assumptions length_squared_is_dot. Print Assumptions cross_sizes. Print Assumptions cross_laws. Print Assumptions cross_linear.
Print Assumptions triple_is_determinant. Print Assumptions triple_cyclic. Print Assumptions perp_dot_is_determinant.
Print Assumptions outer_times. Print Assumptions hadamard_elements.
Print Assumptions vector_normalize. Print Assumptions normalize_empty. Print Assumptions quaternion_normalize. Print Assumptions quaternion_normalize_expression.
Print Assumptions project_to_vector_parallel. Print Assumptions project_to_hplane_orthogonal. Print Assumptions perp_orthogonal.
Print Assumptions perp_sizes. Print Assumptions manhattan_metric.
Print Assumptions signed_angle_2D_rotates. Print Assumptions signed_angle_2D_antisymmetric. Print Assumptions signed_angle_2D_opposite.
Print Assumptions unsigned_angle_cosine. Print Assumptions signed_angle_sign. Print Assumptions signed_angle_rotates. Print Assumptions angle_sizes.
Print Assumptions orthonormal_basis_frame. Print Assumptions orthonormal_basis_2D_frame. Print Assumptions orthonormal_basis_sizes.
